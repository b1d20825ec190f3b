(* Kernels whose evaluations have transposed shapes. *)
From Coq Require Import List FunctionalExtensionality.
From mathcomp Require Import all_ssreflect all_algebra.
From mathcomp Require Import zify.
From Verif Require Import Graph Machine Refine Worlds Eval GraphSpec GraphProofs GraphOps RV Sound ModelSpec SymSpec SymEval SymLogs ExactSpec.
Set Implicit Arguments. Unset Strict Implicit. Unset Printing Implicit Defensive.
Import GRing.Theory.
Local Open Scope ring_scope.

Section Matrices.
Variable R : fieldType.
Notation dmat := (dmat R).
Implicit Types (a b M : dmat).

Definition tsh a b : Prop := nr b = nc a /\ nc b = nr a.
Lemma tsh_sym a b : tsh a b -> tsh b a. Proof. by case. Qed.
Lemma dmap2_sh f a b M : dmap2 f a b = Some M -> [/\ nr M = nr a, nc M = nc a, nr M = nr b & nc M = nc b].
Proof. by rewrite /dmap2 /same_shape; case: ifP => // /andP [/eqP e1 /eqP e2] [<-]. Qed.
Lemma tsh_map2 f g a b a' b' M M' : tsh a a' -> dmap2 f a b = Some M -> dmap2 g a' b' = Some M' -> tsh M M'.
Proof. by move=> [a1 a2] /dmap2_sh [b1 b2 _ _] /dmap2_sh [c1 c2 _ _]; split; rewrite ?b1 ?b2 ?c1 ?c2. Qed.
Lemma tsh_vh a b a' b' M M' : tsh a a' -> tsh b b' -> dvcat a b = Some M -> dhcat a' b' = Some M' -> tsh M M'.
Proof.
move=> [a1 a2] [b1 b2]; rewrite /dvcat /dhcat; case: ifP => // /eqP e [<-]; case: ifP => // _ [<-].
by split; rewrite /= ?a1 ?a2 ?b2.
Qed.
Lemma tsh_hv a b a' b' M M' : tsh a a' -> tsh b b' -> dhcat a b = Some M -> dvcat a' b' = Some M' -> tsh M M'.
Proof. by move=> /tsh_sym h1 /tsh_sym h2 h3 h4; apply: tsh_sym; apply: tsh_vh h1 h2 h4 h3. Qed.

Section Grid.
Variables (T U : Type).
Lemma tsh_line (g : U -> option dmat) (g' : U -> option dmat) ys M M' :
  (forall y a a', In y ys -> g y = Some a -> g' y = Some a' -> tsh a a') ->
  ofold1 (@dhcat R) (map g ys) = Some M -> ofold1 (@dvcat R) (map g' ys) = Some M' -> tsh M M'.
Proof.
elim: ys M M' => [|y [|y' ys] IH] M M' H //; first by apply: H; left.
rewrite ![map _ (y :: _)]/=.
move=> E E'; have [a [b [e1 e2 e3]]] := fold2 E; have [a' [b' [e1' e2' e3']]] := fold2 E'.
apply: tsh_hv e3 e3'; first by apply: (H y) => //; left.
by apply: IH e2 e2' => z c c' Hz; apply: H; right.
Qed.
Lemma tsh_block (g : T -> U -> option dmat) (g' : U -> T -> option dmat) xs ys M M' :
  (forall x y a a', In x xs -> In y ys -> g x y = Some a -> g' y x = Some a' -> tsh a a') ->
  dblock [seq [seq g x y | y <- ys] | x <- xs] = Some M -> dblock [seq [seq g' y x | x <- xs] | y <- ys] = Some M' ->
  tsh M M'.
Proof.
elim: xs M M' => [|x [|x' xs] IH] M M' H //.
  rewrite /dblock /= => h1 h2; apply: (@tsh_line (g x) (fun y => g' y x) ys) => //; last by rewrite -map_comp in h2.
  by move=> y a a' Hy; apply: H => //; left.
rewrite {1}/dblock; rewrite ![map _ (x :: _)]/= => E0; have [r1 [r2 [e1 e2 e3]]] := fold2 E0.
rewrite /dblock -map_comp => E.
have [||C [L [h1 h2 h3 h4]]] := @peel R T U (fun y => g' y x) (fun y x => g' y x) ys (x' :: xs) (nr r1) M' _ _ E => //.
  move=> y a' Hy ea'; have [a ea <-] := row_nr e1 Hy.
  by have [_ ->] := H x y a a' (or_introl erefl) Hy ea ea'.
apply: tsh_vh e3 h4.
  by apply: tsh_line e1 h1 => y a a' Hy; apply: H => //; left.
by apply: IH e2 h3 => z y a a' Hz; apply: H; right.
Qed.
End Grid.
End Matrices.

Section Kernels.
Variable R : fieldType.
Variables (rdk : mid -> pid -> pid -> option (kexp R)) (rdm : mid -> pid -> option (mexp R)).
Variable D : nat -> (point R -> R) -> point R -> R.
Notation evk := (evk rdk rdm D). Notation evf := (evf rdk rdm D).
Implicit Types (k a b : kexp R) (x y : input R).

Definition ts n k k' := forall x y M M', evk n k x y = Some M -> evk n k' y x = Some M' -> tsh M M'.
Definition ats n k k' := forall x y M M', atom x -> atom y -> evk n k x y = Some M -> evk n k' y x = Some M' -> tsh M M'.

Lemma ts_swap n k k' : ts n k k' -> ts n k' k.
Proof. by move=> H x y M M' e1 e2; apply/tsh_sym/H; [exact: e2 | exact: e1]. Qed.
Lemma ts_le n n' k k' : (n <= n')%N -> ts n' k k' -> ts n k k'.
Proof. by move=> le H x y M M' /(evk_fuel le) e1 /(evk_fuel le) e2; apply: H e1 e2. Qed.
Lemma ts_ats n k k' : ats n k k' -> ts n k k'.
Proof.
elim: n => [|n IH] // H; have {}IH : ts n k k'.
  by apply: IH => x y M M' ax ay /(evk_fuel (leqnSn n)) e1 /(evk_fuel (leqnSn n)) e2; apply: H e1 e2.
move=> x y M M'; case ax: (atom x); case ay: (atom y); first exact: H.
- case: y ay => // ys _; rewrite at_tupr // at_tupl //; exact: IH.
- case: x ax => // xs _; rewrite at_tupl // at_tupr //; exact: IH.
case: x ax => // xs _; case: y ay => // ys _; rewrite !at_tup; apply: tsh_block => x y a a' _ _; exact: IH.
Qed.

Lemma ts_zero n : ts n KZero KZero.
Proof. by apply: ts_ats; case: n => // n x y M M' ax ay; rewrite !at_zero // => -[<-] [<-]. Qed.
Lemma ts_rev n k : ts n k (KRev k).
Proof.
apply: ts_ats; case: n => // n x y M M' ax ay e1; rewrite at_rev //.
by case E: (evk n k x y) => [A|] //= [<-]; move: e1; rewrite (evk_fuel (leqnSn n) E) => -[<-].
Qed.
Lemma ts_add n a a' b b' : ts n a a' -> ts n (KAdd a b) (KAdd a' b').
Proof.
move=> Ha; apply: ts_ats; case: n Ha => // n /(ts_le (leqnSn n)) Ha x y M M' ax ay.
rewrite !at_add // => /inv2 [A [B [e1 e2 e3]]] /inv2 [A' [B' [e1' e2' e3']]].
exact: tsh_map2 (Ha _ _ _ _ e1 e1') e3 e3'.
Qed.
Lemma ts_mul n a a' b b' : ts n a a' -> ts n (KMul a b) (KMul a' b').
Proof.
move=> Ha; apply: ts_ats; case: n Ha => // n /(ts_le (leqnSn n)) Ha x y M M' ax ay.
rewrite !at_mul // => /inv2 [A [B [e1 e2 e3]]] /inv2 [A' [B' [e1' e2' e3']]].
exact: tsh_map2 (Ha _ _ _ _ e1 e1') e3 e3'.
Qed.
Lemma ts_kscale n c a a' : ts n a a' -> ts n (KScale c a) (KScale c a').
Proof.
move=> Ha; apply: ts_ats; case: n Ha => // n /(ts_le (leqnSn n)) Ha x y M M' ax ay; rewrite !at_scale //.
case E: (evk n a x y) => [A|] //= [<-]; case E': (evk n a' y x) => [A'|] //= [<-].
exact: (Ha _ _ _ _ E E').
Qed.
Lemma ts_tensor n f : ts n (KTensor f f) (KTensor f f).
Proof.
apply: ts_ats; case: n => // n x y M M' ax ay; rewrite !at_tensor //.
by case: (evf n f x) => //= u; case: (evf n f y) => //= v [<-] [<-].
Qed.
Lemma ts_kmap n t a a' : ts n a a' -> ts n (KMap t t a) (KMap t t a').
Proof.
move=> Ha; apply: ts_ats; case: n Ha => // n /(ts_le (leqnSn n)) Ha x y M M' ax ay; rewrite !at_kmap //.
case: (imap t x) => //= x1; case: (imap t y) => //= y1; exact: Ha.
Qed.
Lemma ts_post n kij kji kzi kzj kzi' kzj' kz kz' z noise : ts n kij kji ->
  ts n (KPost kij kzi kzj kz z noise) (KPost kji kzi' kzj' kz' z noise).
Proof.
move=> Ha; apply: ts_ats; case: n Ha => // n /(ts_le (leqnSn n)) Ha x y M M' ax ay.
rewrite !at_post // => /inv2 [A [B [e1 e2 e3]]] /inv2 [A' [B' [e1' e2' e3']]].
exact: tsh_map2 (Ha _ _ _ _ e1 e1') e3 e3'.
Qed.
Lemma ts_diff n d a : ts n (KDiff (Some d) (Some d) a) (KDiff (Some d) (Some d) a).
Proof.
apply: ts_ats; case: n => // n x y M M' ax ay.
case: x ax => [[|x0 xs]|p x|] // _; case: y ay => [[|y0 ys]|q y|] // _.
by rewrite !at_diff2; case: ifP => // _ [<-]; case: ifP => // _ [<-].
Qed.
Lemma ts_mok n m ps : (forall n' i j k k', (n' < n)%N -> rdk m i j = Some k -> rdk m j i = Some k' -> ts n' k k') ->
  ts n (KMok m ps) (KMok m ps).
Proof.
elim: n => [|n IH] H; first by move=> x y M M'.
have {}IH : ts n (KMok m ps) (KMok m ps) by apply: IH => n' i j k k' lt; apply: H; apply: leq_trans lt _.
apply: ts_ats => x y M M' ax ay; case: x ax => [xs|p x|] // _; case: y ay => [ys|q y|] // _.
- by rewrite !at_mok_nn; apply: IH.
- by rewrite at_mok_nf at_mok_fn; apply: IH.
- by rewrite at_mok_nf at_mok_fn; apply: IH.
rewrite !at_mok_ff; case E: (rdk m p q) => [k|] //=; case E': (rdk m q p) => [k'|] //=.
exact: (H n p q k k' (ltnSn n) E E' x y M M').
Qed.
End Kernels.

Definition okS (R : fieldType) D (w : world R) n := forall m i j k k', see_k w m i j = Some k -> see_k w m j i = Some k' ->
  ts (see_k w) (see_m w) D n k k'.

Section Worlds.
Variable R : fieldType.
Variable D : nat -> (point R -> R) -> point R -> R.
Variable ops : seq (op R).
Let w := run_ops ops.
Hypothesis HU : forall k, given_kernel ops k -> shaped_kernel D w k.
Notation nm := (w_nm w). Notation l := (w_log w).
Notation ts := (@ts R (see_k w) (see_m w) D).
Implicit Types (h : hist R) (k : kexp R).
Let I : winv w := winv_run ops.
Notation ugood := (ugood (given_kernel ops) (fun _ => True) (fun _ _ => True)).
Let good : forall m, ugood m (l m).
Proof.
apply: uall_run => //.
- by move=> m mu k H; left; exists m, mu.
- by move=> m mu k l r H; right; exists m, mu, l, r.
Qed.
Notation okS := (okS D w).

Lemma ts_user n k : given_kernel ops k -> ts n k k.
Proof. by move=> H x y M M' e1 e2; have := HU H e1 e2. Qed.

Lemma log_ts n m h i j k k' : (forall n', (n' < n)%N -> okS n') -> (m < nm)%N -> ext h (l m) ->
  ugood m h -> KA m h i j = Some k -> KA m h j i = Some k' -> ts n k k'.
Proof.
move=> okn; elim: h m i j k k' => [|pm par IH o|p d rest IH] m i j k k' // lt E.
  case=> Ho Hpar; rewrite /KA -/(KA _ _); case: ifP => // /andP [Hi Hj]; rewrite Hj Hi /=.
  have [lt' E' _] := l_base (v_log I.1) lt (ext_base E).
  have {}IH a b c c' : KA pm par a b = Some c -> KA pm par b a = Some c' -> ts n c c'.
    by apply: IH => //; apply: ltn_trans lt' lt.
  rewrite /post_k; case: (o_data o) => [dd|].
    rewrite /= /onk /onm !eqxx.
    case E1: (KA pm par i j) => [a|] //=; case E2: (KA pm par (o_p o) i) => [b|] //=.
    case E3: (KA pm par (o_p o) j) => [c|] //=; case E4: (KA pm par (o_p o) (d_p dd)) => [f|] //=.
    case E5: (KA pm par (o_p o) (o_p o)) => [e|] //=; case E6: (KA pm par (d_p dd) (d_p dd)) => [g|] //= [<-].
    case E7: (KA pm par j i) => [a'|] //= [<-].
    by apply: ts_add; apply: ts_post; apply: IH E1 E7.
  rewrite /post_k1; case: ifP => _ /=; rewrite /onk /onm !eqxx.
    case E1: (KA pm par i j) => [a|] //= [<-]; case E2: (KA pm par j i) => [b|] //= [<-]; exact: IH E1 E2.
  case E1: (KA pm par i j) => [a|] //=; case E2: (KA pm par (o_p o) i) => [b|] //=.
  case E3: (KA pm par (o_p o) j) => [c|] //=; case E4: (KA pm par (o_p o) (o_p o)) => [e|] //= [<-].
  case E5: (KA pm par j i) => [a'|] //= [<-].
  by apply: ts_post; apply: IH E1 E5.
move=> [Hd Hrest]; have Er := ext_tail E.
have {}IH a b c c' : KA m rest a b = Some c -> KA m rest b a = Some c' -> ts n c c' by apply: IH.
have onE f a b : onk m f m a b = f a b by rewrite /onk /onm eqxx.
(* one new process and one old one *)
have mix q c c' : q <> p -> KA m (HAdd p d rest) p q = Some c -> KA m (HAdd p d rest) q p = Some c' -> ts n c c'.
  move/eqP/negbTE => ne; rewrite /KA -/(KA _ _) !eqxx ne; case: ifP => // Hq.
  have rev : right_of m p d q = (let* a := rk R m p q in Ret (KRev a)) ->
    pint (onk m (KA m rest)) (noM R) (left_of m d q) = Some c ->
    pint (onk m (fun a b => if a == p then pint (onk m (KA m rest)) (noM R) (left_of m d b) else KA m rest a b)) (noM R)
      (right_of m p d q) = Some c' -> ts n c c'.
    by move=> -> E1; rewrite /= onE eqxx E1 /= => -[<-]; apply: ts_rev.
  case: d rev {Hd E} => [mu k0|mu k0 lr|r|r c0|r f|r1 r2|r c0|r f|r t t0|r d0|ps] // rev; try exact: rev.
    by move=> /= [<-] [<-]; apply: ts_zero.
  rewrite /= !onE ne; case E1: (KA m rest r q) => [a|] //= [<-]; case E2: (KA m rest q r) => [b|] //= [<-]; exact: IH E1 E2.
case: (altP (i =P p)) => [->|ni]; case: (altP (j =P p)) => [->|nj].
- rewrite /KA -/(KA _ _) !eqxx => E1; rewrite E1 => -[<-] {k'}.
  case: d Hd E E1 mix => [mu k0|mu k0 lr|r|r c0|r f|r1 r2|r c0|r f|r t t0|r d0|ps] Hd E E1 _ /=; move: E1; rewrite /= ?onE.
  + case: Hd => [Hu|[f [g [k1 [k2 [k3 [k4 [h1 h2 h3 h4 h5]]]]]]]] [<-]; first exact: ts_user.
    by rewrite h5; apply: ts_add; apply: ts_mul; apply: (IH _ _ _ _ h1 h1).
  + by move=> [<-]; apply: ts_user.
  + by case E1: (KA m rest r r) => [a|] //= [<-]; apply: (IH _ _ _ _ E1 E1).
  + by case E1: (KA m rest r r) => [a|] //= [<-]; apply: (IH _ _ _ _ E1 E1).
  + by case E1: (KA m rest r r) => [a|] //= [<-]; apply: (IH _ _ _ _ E1 E1).
  + case E1: (KA m rest r1 r1) => [a|] //=; rewrite ?onE; case E2: (KA m rest r2 r2) => [b|] //=; rewrite ?onE.
    case E3: (KA m rest r1 r2) => [c|] //=; rewrite ?onE; case E4: (KA m rest r2 r1) => [e|] //= [<-].
    by apply: ts_add; apply: ts_add; apply: ts_add; apply: (IH _ _ _ _ E1 E1).
  + by case E1: (KA m rest r r) => [a|] //= [<-]; apply: ts_kscale; apply: (IH _ _ _ _ E1 E1).
  + by case E1: (KA m rest r r) => [a|] //= [<-]; apply: ts_mul; exact: ts_tensor.
  + by case E1: (KA m rest r r) => [a|] //= [<-]; apply: ts_kmap; apply: (IH _ _ _ _ E1 E1).
  + by case E1: (KA m rest r r) => [a|] //= [<-]; apply: ts_diff.
  + move=> [<-]; apply: ts_mok => n' a b c c' lt'; exact: okn.
- exact: mix (elimN eqP nj).
- by move=> E1 E2; apply: ts_swap; apply: mix E2 E1; exact: (elimN eqP ni).
by rewrite /KA -/(KA _ _) (negbTE ni) (negbTE nj); apply: IH.
Qed.
Lemma shapes n : okS n.
Proof.
elim/ltn_ind: n => n IH m i j k k'.
case lt: (m < nm)%N; last by rewrite /see_k lt.
by rewrite !read_k //; apply: log_ts => //; exact: ext_refl.
Qed.
End Worlds.
