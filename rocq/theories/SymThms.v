(* Kernels of all models are symmetric. *)
From Coq Require Import List.
From mathcomp Require Import all_ssreflect all_algebra.
From mathcomp Require Import zify.
From Verif Require Import Graph Machine Refine Worlds Eval GraphSpec GraphProofs GraphOps RV Sound ModelSpec SymSpec SymEval SymLogs.
Set Implicit Arguments. Unset Strict Implicit. Unset Printing Implicit Defensive.
Import GRing.Theory.
Local Open Scope ring_scope.

Section SymThms.
Variable R : fieldType.
Variable D : nat -> (point R -> R) -> point R -> R.
Variable ops : seq (op R).
Let w := run_ops ops.
Hypothesis HU : forall k, given_kernel ops k -> symmetric_kernel D w k.
Hypothesis HN : forall m o, In (OCond m o) ops -> square_sym (o_noise o).
Hypothesis HD : mixed_partials D ops.
Notation nm := (w_nm w). Notation l := (w_log w).
Notation tr := (@tr R (see_k w) (see_m w) D).
Implicit Types (h : hist R) (k : kexp R).
Let I : winv w := winv_run ops.
Let good : forall m, ugood (given_kernel ops) (fun o => square_sym (o_noise o)) (fun p d => In (ODiff p d) ops) m (l m).
Proof.
apply: uall_run => //.
- by move=> m mu k H; left; exists m, mu.
- by move=> m mu k l r H; right; exists m, mu, l, r.
Qed.

Definition okT n := forall m i j k k', see_k w m i j = Some k -> see_k w m j i = Some k' -> tr n k k'.

Lemma see_ext m h p q k : (m < nm)%N -> ext h (l m) -> KA m h p q = Some k -> see_k w m p q = Some k.
Proof.
move=> lt E H; rewrite read_k //; have /andP [Hp Hq] : (p \in pids h) && (q \in pids h) by apply: (@KA_pids _ m); rewrite H.
by have [-> _] := KA_ext m E (l_wf (v_log I.1) lt) (fun _ => Hp) (fun _ => Hq).
Qed.
Lemma tr_user n k : given_kernel ops k -> tr n k k.
Proof. by move=> H x y M M'; apply: (HU H). Qed.

Lemma log_tr n m h i j k k' : (forall n', (n' < n)%N -> okT n') -> (m < nm)%N -> ext h (l m) ->
  ugood (given_kernel ops) (fun o => square_sym (o_noise o)) (fun p d => In (ODiff p d) ops) m h ->
  KA m h i j = Some k -> KA m h j i = Some k' -> tr n k k'.
Proof.
move=> okn; elim: h m i j k k' => [|pm par IH o|p d rest IH] m i j k k' // lt E.
  case=> Ho Hpar; rewrite /KA -/(KA _ _); case: ifP => // /andP [Hi Hj]; rewrite Hj Hi /=.
  have [lt' E' _] := l_base (v_log I.1) lt (ext_base E).
  have {}IH a b c c' : KA pm par a b = Some c -> KA pm par b a = Some c' -> tr n c c'.
    by apply: IH => //; apply: ltn_trans lt' lt.
  rewrite /post_k; case: (o_data o) => [dd|].
    rewrite /= /onk /onm !eqxx.
    case E1: (KA pm par i j) => [a|] //=; case E2: (KA pm par (o_p o) i) => [b|] //=.
    case E3: (KA pm par (o_p o) j) => [c|] //=; case E4: (KA pm par (o_p o) (d_p dd)) => [f|] //=.
    case E5: (KA pm par (o_p o) (o_p o)) => [e|] //=; case E6: (KA pm par (d_p dd) (d_p dd)) => [g|] //= [<-].
    case E7: (KA pm par j i) => [a'|] //= [<-].
    by apply: tr_add; [apply: tr_post; [apply: IH E1 E7 | apply: (IH _ _ _ _ E5 E5) |] | apply: tr_sub; [apply: (IH _ _ _ _ E5 E5) |]].
  rewrite /post_k1; case: ifP => _ /=; rewrite /onk /onm !eqxx.
    case E1: (KA pm par i j) => [a|] //= [<-]; case E2: (KA pm par j i) => [b|] //= [<-]; exact: IH E1 E2.
  case E1: (KA pm par i j) => [a|] //=; case E2: (KA pm par (o_p o) i) => [b|] //=.
  case E3: (KA pm par (o_p o) j) => [c|] //=; case E4: (KA pm par (o_p o) (o_p o)) => [e|] //= [<-].
  case E5: (KA pm par j i) => [a'|] //= [<-].
  by apply: tr_post => //; [apply: IH E1 E5 | apply: (IH _ _ _ _ E4 E4)].
move=> [Hd Hrest]; have Er := ext_tail E.
have {}IH a b c c' : KA m rest a b = Some c -> KA m rest b a = Some c' -> tr n c c' by apply: IH.
have see a b c : KA m rest a b = Some c -> see_k w m a b = Some c by apply: see_ext.
have onE f a b : onk m f m a b = f a b by rewrite /onk /onm eqxx.
(* one new process and one old one *)
have mix q c c' : q <> p -> KA m (HAdd p d rest) p q = Some c -> KA m (HAdd p d rest) q p = Some c' -> tr n c c'.
  move/eqP/negbTE => ne; rewrite /KA -/(KA _ _) !eqxx ne; case: ifP => // Hq.
  have rev : right_of m p d q = (let* a := rk R m p q in Ret (KRev a)) ->
    pint (onk m (KA m rest)) (noM R) (left_of m d q) = Some c ->
    pint (onk m (fun a b => if a == p then pint (onk m (KA m rest)) (noM R) (left_of m d b) else KA m rest a b)) (noM R)
      (right_of m p d q) = Some c' -> tr n c c'.
    by move=> -> E1; rewrite /= onE eqxx E1 /= => -[<-]; apply: tr_rev.
  case: d rev {Hd E} => [mu k0|mu k0 lr|r|r c0|r f|r1 r2|r c0|r f|r t t0|r d0|ps] // rev; try exact: rev.
    by move=> /= [<-] [<-]; apply: tr_zero.
  rewrite /= !onE ne; case E1: (KA m rest r q) => [a|] //= [<-]; case E2: (KA m rest q r) => [b|] //= [<-]; exact: IH E1 E2.
case: (altP (i =P p)) => [->|ni]; case: (altP (j =P p)) => [->|nj].
- rewrite /KA -/(KA _ _) !eqxx => E1; rewrite E1 => -[<-] {k'}.
  case: d Hd E E1 mix => [mu k0|mu k0 lr|r|r c0|r f|r1 r2|r c0|r f|r t t0|r d0|ps] Hd E E1 _ /=; move: E1; rewrite /= ?onE.
  + case: Hd => [Hu|[f [g [k1 [k2 [k3 [k4 [h1 h2 h3 h4 h5]]]]]]]] [<-]; first exact: tr_user.
    rewrite h5; apply: tr_add; first by apply: tr_mul; [apply: (IH _ _ _ _ h1 h1) | apply: (IH _ _ _ _ h2 h2)].
    by apply: tr_mulC; [apply: IH h3 h4 | apply: IH h4 h3].
  + by move=> [<-]; apply: tr_user.
  + by case E1: (KA m rest r r) => [a|] //= [<-]; apply: (IH _ _ _ _ E1 E1).
  + by case E1: (KA m rest r r) => [a|] //= [<-]; apply: (IH _ _ _ _ E1 E1).
  + by case E1: (KA m rest r r) => [a|] //= [<-]; apply: (IH _ _ _ _ E1 E1).
  + case E1: (KA m rest r1 r1) => [a|] //=; rewrite ?onE; case E2: (KA m rest r2 r2) => [b|] //=; rewrite ?onE.
    case E3: (KA m rest r1 r2) => [c|] //=; rewrite ?onE; case E4: (KA m rest r2 r1) => [e|] //= [<-].
    by apply: tr_sum; [apply: (IH _ _ _ _ E1 E1) | apply: (IH _ _ _ _ E2 E2) | apply: IH E3 E4].
  + by case E1: (KA m rest r r) => [a|] //= [<-]; apply: tr_kscale; apply: (IH _ _ _ _ E1 E1).
  + by case E1: (KA m rest r r) => [a|] //= [<-]; apply: tr_mul; [exact: tr_tensor | apply: (IH _ _ _ _ E1 E1)].
  + by case E1: (KA m rest r r) => [a|] //= [<-]; apply: tr_kmap; apply: (IH _ _ _ _ E1 E1).
  + case E1: (KA m rest r r) => [a|] //= [<-]; apply: tr_diff; first exact: (IH _ _ _ _ E1 E1).
    move=> f s t Hf; apply: (HD (m := m) (p := r)) => // u v; have [n' [M [e1 e2]]] := Hf u v.
    by exists M => //; exists n'; rewrite /kernel_at (see _ _ _ E1).
  + move=> [<-]; apply: tr_mok => n' a b c c' lt'; exact: okn.
- exact: mix (elimN eqP nj).
- by move=> E1 E2; apply: tr_swap; apply: mix E2 E1; exact: (elimN eqP ni).
by rewrite /KA -/(KA _ _) (negbTE ni) (negbTE nj); apply: IH.
Qed.
Lemma ok_all n : okT n.
Proof.
elim/ltn_ind: n => n IH m i j k k'.
case lt: (m < nm)%N; last by rewrite /see_k lt.
by rewrite !read_k //; apply: log_tr => //; exact: ext_refl.
Qed.
Lemma all_symmetric m p q x y M M' : cov_is D w m p q x y M -> cov_is D w m q p y x M' -> transposed M M'.
Proof.
move=> [n]; rewrite /kernel_at; case E: (see_k w m p q) => [k|] //= e1 [n']; rewrite /kernel_at; case E': (see_k w m q p) => [k'|] //= e2.
have {}e1 := evk_fuel (leq_maxl n n') e1; have {}e2 := evk_fuel (leq_maxr n n') e2; exact: (ok_all E E' e1 e2).
Qed.
End SymThms.

(* Kernels and derivatives that meet the hypotheses. *)
Section Meet.
Variable R : fieldType.
Lemma elem_symmetric D (w : world R) f : (forall s t, f s t = f t s) -> symmetric_kernel D w (KElem f).
Proof.
move=> Hf n n' x y M M' /(evk_fuel (leq_maxl n n')) e1 /(evk_fuel (leq_maxr n n')) e2; move: e1 e2.
have : tr (see_k w) (see_m w) D (maxn n n') (KElem f) (KElem f).
  apply: tr_atr; case: (maxn n n') => // k {}x {}y {}M {}M'; case: x => // xs; case: y => // ys _ _ /= [<-] [<-].
  by split=> //= i j _ _; apply: Hf.
by apply.
Qed.
Lemma sums_commute (D : nat -> (point R -> R) -> point R -> R) (cs : nat -> seq (R * (point R -> point R))) ops :
  (forall d f x, D d f x = \sum_(c <- cs d) c.1 * f (c.2 x)) -> mixed_partials D ops.
Proof.
move=> H m p d f s t _ _; rewrite !H.
under eq_bigr => c _ do rewrite H mulr_sumr.
under [RHS]eq_bigr => c _ do rewrite H mulr_sumr.
by rewrite exchange_big /=; apply: eq_bigr => c _; apply: eq_bigr => c' _; rewrite !mulrA [_.1 * _.1]mulrC.
Qed.
End Meet.
