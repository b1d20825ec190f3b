(* Random variables for all models, for the processes that are [covered]. *)
From Coq Require Import List.
From mathcomp Require Import all_ssreflect all_algebra.
From mathcomp Require Import zify ring.
From Verif Require Import Graph Machine Refine Worlds Eval GraphSpec GraphProofs GraphOps RV RVProofs Sound Typing ModelSpec Formal ModelFacts Plain PointFacts ModelThms MulFacts Total Schur ProdSpec ProdLogs Prod SymSpec SymEval ExactSpec Shape Exact ExactLogs.
Set Implicit Arguments. Unset Strict Implicit. Unset Printing Implicit Defensive.
Import GRing.Theory Num.Theory.
Local Open Scope ring_scope.

(* The shape of kernels of processes without several outputs. *)
Section Single.
Variable R : fieldType.
Variables (rdk : mid -> pid -> pid -> option (kexp R)) (rdm : mid -> pid -> option (mexp R)).
Variable D : nat -> (point R -> R) -> point R -> R.
Notation evk := (evk rdk rdm D).
Implicit Types (k a b : kexp R).
Definition ss n k := forall xs ys M, evk n k (Num xs) (Num ys) = Some M -> nr M = size xs /\ nc M = size ys.
Lemma ss_le n n' k : (n <= n')%N -> ss n' k -> ss n k.
Proof. by move=> le H xs ys M /(evk_fuel le); apply: H. Qed.
Lemma ss_zero n : ss n KZero.
Proof. by case: n => // n xs ys M; rewrite at_zero // => -[<-]. Qed.
Lemma ss_add n a b : ss n a -> ss n (KAdd a b).
Proof.
case: n => // n /(ss_le (leqnSn n)) H xs ys M; rewrite Sound.at_add // => /inv2 [A [B [/H [e1 e2] _ /dmap2_sh [-> -> _ _]]]].
by [].
Qed.
Lemma ss_mul1 n a b : ss n a -> ss n (KMul a b).
Proof.
case: n => // n /(ss_le (leqnSn n)) H xs ys M; rewrite at_mul // => /inv2 [A [B [/H [e1 e2] _ /dmap2_sh [-> -> _ _]]]].
by [].
Qed.
Lemma ss_mul2 n a b : ss n b -> ss n (KMul a b).
Proof.
case: n => // n /(ss_le (leqnSn n)) H xs ys M; rewrite at_mul // => /inv2 [A [B [_ /H [e1 e2] /dmap2_sh [_ _ -> ->]]]].
by [].
Qed.
Lemma ss_scale n c a : ss n a -> ss n (KScale c a).
Proof.
case: n => // n /(ss_le (leqnSn n)) H xs ys M; rewrite at_scale //.
by case E: (evk n a _ _) => [A|] //= [<-]; apply: H E.
Qed.
Lemma ss_rev n a : ss n a -> ss n (KRev a).
Proof.
case: n => // n /(ss_le (leqnSn n)) H xs ys M; rewrite at_rev //.
by case E: (evk n a _ _) => [A|] //= [<-]; have [] := H _ _ _ E.
Qed.
Lemma ss_kmap n t t' a : ss n a -> ss n (KMap t t' a).
Proof.
case: n => // n /(ss_le (leqnSn n)) H xs ys M; rewrite at_kmap //.
by case: t => [f|]; case: t' => [g|] /= /H; rewrite ?size_map.
Qed.
Lemma ss_diff n d d' a : ss n (KDiff (Some d) d' a).
Proof.
case: n => // n [|x xs] [|y ys] M //.
by case: d' => [d'|]; [rewrite at_diff2 | rewrite at_diff1]; case: ifP => // _ [<-].
Qed.
Lemma ss_post n kij kzi kzj kz z noise : ss n kij -> ss n (KPost kij kzi kzj kz z noise).
Proof.
case: n => // n /(ss_le (leqnSn n)) H xs ys M; rewrite at_post // => /inv2 [A [B [/H [e1 e2] _ /dmap2_sh [-> -> _ _]]]].
by [].
Qed.
End Single.

Section SingleLog.
Variable R : fieldType.
Variable D : nat -> (point R -> R) -> point R -> R.
Variables (w : world R) (P : mid -> pid -> Prop) (mu : pid -> point R -> R) (ka : pid -> point R -> point R -> R).
Hypotheses (I : winv w) (Rg : regular D w P mu ka).
Notation nm := (w_nm w). Notation l := (w_log w).
Notation ss := (ss (see_k w) (see_m w) D).
Lemma log_ss n m h i j k : (m < nm)%N -> ext h (l m) -> P m i -> P m j -> single h i -> single h j ->
  KA m h i j = Some k -> ss n k.
Proof.
elim: h m i j k => [|pm par IH o|p d rest IH] m i j k // lt E Pi Pj.
  rewrite /= => Si Sj; case: ifP => // /andP [Hi Hj].
  have [lt' E' _] := l_base (v_log I.1) lt (ext_base E).
  have [Qi _] := rg_base Rg lt (ext_base E) Pi Hi; have [Qj _] := rg_base Rg lt (ext_base E) Pj Hj.
  have {}IH a : KA pm par i j = Some a -> ss n a by apply: IH => //; apply: ltn_trans lt' lt.
  rewrite /post_k /post_k1 /post_k2; case: (o_data o) => [dd|]; last (case: ifP => _ /=); rewrite /= /onk /onm !eqxx.
    case E1: (KA pm par i j) => [a|] //=; case E2: (KA pm par (o_p o) i) => [b|] //=.
    case E3: (KA pm par (o_p o) j) => [c|] //=; case E4: (KA pm par (o_p o) (d_p dd)) => [e|] //=.
    case E5: (KA pm par (o_p o) (o_p o)) => [e'|] //=; case E6: (KA pm par (d_p dd) (d_p dd)) => [f|] //= [<-].
    by apply: ss_add; apply: ss_post; apply: IH.
    by case E1: (KA pm par i j) => [a|] //= [<-]; apply: IH.
  case E1: (KA pm par i j) => [a|] //=; case E2: (KA pm par (o_p o) i) => [b|] //=.
  case E3: (KA pm par (o_p o) j) => [c|] //=; case E4: (KA pm par (o_p o) (o_p o)) => [e|] //= [<-].
  by apply: ss_post; apply: IH.
have Er := ext_tail E.
have nP a : P m p -> a \in needs d -> P m a by move=> Pp; apply: (rg_needs Rg lt E Pp).
have {}IH a b c : P m a -> P m b -> single rest a -> single rest b -> KA m rest a b = Some c -> ss n c.
  by apply: IH.
have onE f a b : onk m f m a b = f a b by rewrite /onk /onm eqxx.
have left a c : P m p -> P m a -> single (HAdd p d rest) p -> single rest a ->
    pint (onk m (KA m rest)) (noM R) (left_of m d a) = Some c -> ss n c.
  move=> Pp Pa /=; rewrite eqxx => -[nc Sd] Sa.
  case: d E nP nc Sd => [mu' k0|mu' k0 lr|r|r c0|r f|r1 r2|r c0|r f|r t t0|r d0|ps] E nP // _ Sd; rewrite /= ?onE.
  - by move=> [<-]; apply: ss_zero.
  - by case: (rg_user Rg lt E Pp).
  - case E1: (KA m rest r a) => [b|] //= [<-]; apply: IH E1 => //; [apply: nP | apply: Sd] => //; exact: mem_head.
  - case E1: (KA m rest r a) => [b|] //= [<-]; apply: IH E1 => //; [apply: nP | apply: Sd] => //; exact: mem_head.
  - case E1: (KA m rest r a) => [b|] //= [<-]; apply: IH E1 => //; [apply: nP | apply: Sd] => //; exact: mem_head.
  - case E1: (KA m rest r1 a) => [b|] //=; rewrite ?onE; case E2: (KA m rest r2 a) => [b'|] //= [<-].
    apply: ss_add; apply: IH E1 => //; [apply: nP | apply: Sd] => //; exact: mem_head.
  - case E1: (KA m rest r a) => [b|] //= [<-]; apply: ss_scale; apply: IH E1 => //; [apply: nP | apply: Sd] => //; exact: mem_head.
  - case E1: (KA m rest r a) => [b|] //= [<-]; apply: ss_mul2; apply: IH E1 => //; [apply: nP | apply: Sd] => //;
      case: (f) => *; exact: mem_head.
  - case E1: (KA m rest r a) => [b|] //= [<-]; apply: ss_kmap; apply: IH E1 => //; [apply: nP | apply: Sd] => //; exact: mem_head.
  - by case E1: (KA m rest r a) => [b|] //= [<-]; apply: ss_diff.
case: (altP (i =P p)) => [ei|ni]; case: (altP (j =P p)) => [ej|nj] Si Sj.
- subst i j; rewrite /KA -/(KA _ _) !eqxx.
  move: Si; rewrite /= eqxx => -[nc Sd] {left Sj Pj}.
  case: d E nP nc Sd => [mu' k0|mu' k0 lr|r|r c0|r f|r1 r2|r c0|r f|r t t0|r d0|ps] E nP // _ Sd; rewrite /= ?onE.
  - by move=> [<-] xs ys M Ev; have [] := rg_cov Rg lt E Pi Ev.
  - by case: (rg_user Rg lt E Pi).
  - case E1: (KA m rest r r) => [b|] //= [<-]; apply: IH E1 => //; (try apply: nP); (try apply: Sd) => //; exact: mem_head.
  - case E1: (KA m rest r r) => [b|] //= [<-]; apply: IH E1 => //; (try apply: nP); (try apply: Sd) => //; exact: mem_head.
  - case E1: (KA m rest r r) => [b|] //= [<-]; apply: IH E1 => //; (try apply: nP); (try apply: Sd) => //; exact: mem_head.
  - case E1: (KA m rest r1 r1) => [b|] //=; rewrite ?onE; case E2: (KA m rest r2 r2) => [b'|] //=; rewrite ?onE.
    case E3: (KA m rest r1 r2) => [c|] //=; rewrite ?onE; case E4: (KA m rest r2 r1) => [c'|] //= [<-].
    do 3 apply: ss_add; apply: IH E1 => //; (try apply: nP); (try apply: Sd) => //; exact: mem_head.
  - case E1: (KA m rest r r) => [b|] //= [<-]; apply: ss_scale; apply: IH E1 => //; (try apply: nP); (try apply: Sd) => //; exact: mem_head.
  - case E1: (KA m rest r r) => [b|] //= [<-]; apply: ss_mul2; apply: IH E1 => //; (try apply: nP); (try apply: Sd) => //;
      case: (f) => *; exact: mem_head.
  - case E1: (KA m rest r r) => [b|] //= [<-]; apply: ss_kmap; apply: IH E1 => //; (try apply: nP); (try apply: Sd) => //; exact: mem_head.
  - by case E1: (KA m rest r r) => [b|] //= [<-]; apply: ss_diff.
- subst i; rewrite /KA -/(KA _ _) eqxx (negbTE nj); case: ifP => // _; apply: left => //.
  by move: Sj => /=; rewrite (negbTE nj).
- subst j; rewrite /KA -/(KA _ _) eqxx (negbTE ni); case: ifP => // Hi.
  have Si' : single rest i by move: Si => /=; rewrite (negbTE ni).
  have rev : pint (onk m (fun a b => if a == p then pint (onk m (KA m rest)) (noM R) (left_of m d b) else KA m rest a b)) (noM R)
      (let* a := rk R m p i in Ret (KRev a)) = Some k -> ss n k.
    rewrite /= onE eqxx; case E1: (pint _ _ _) => [a|] //= [<-]; apply: ss_rev; exact: left Sj Si' E1.
  case: d E nP left Sj rev {Si} => [mu' k0|mu' k0 lr|r|r c0|r f|r1 r2|r c0|r f|r t t0|r d0|ps] E nP left Sj rev //.
    by move=> /= [<-]; apply: ss_zero.
  rewrite /= onE (negbTE ni); case E1: (KA m rest i r) => [b|] //= [<-]; move: Sj; rewrite /= eqxx => -[_ Sd].
  apply: IH E1 => //; (try apply: nP); (try apply: Sd) => //; exact: mem_head.
by move: Si Sj; rewrite /= (negbTE ni) (negbTE nj); apply: IH.
Qed.
End SingleLog.

Section WidthSingle.
Variable R : fieldType.
Variable dif : bool.
Lemma width_single (h : hist R) p xs : single h p -> width dif h p (Num [:: [::]]) = Some 1%N -> width dif h p (Num xs) = Some (size xs).
Proof.
elim: h p xs => [|pm par IH o|r d rest IH] p xs //=.
  by move=> nc; case: ifP => // _; apply: IH.
case: eqP => _; last exact: IH.
case=> Hd Sd.
have one q : q \in needs d -> width dif rest q (Num [:: [::]]) = Some 1%N -> forall ys, width dif rest q (Num ys) = Some (size ys).
  by move=> Hq H ys; apply: IH => //; apply: Sd.
case: d Hd one {Sd} => [mu k|mu k lr|q|q c|q f|a b|q c|q f|q t t0|q dd|ps] _ one //.
- by move=> /one -> //; rewrite mem_head.
- by move=> /one -> //; rewrite mem_head.
- by case: eqP => // H _; rewrite (one q) ?mem_head // eqxx.
- by case: eqP => // e H; rewrite (one a _ H) ?mem_head // (one b) ?eqxx //= ?inE ?eqxx ?orbT // -e.
- by move=> /one -> //; rewrite mem_head.
- case: f one => [g|//|m' b] one /=; first by case: eqP => // H _; rewrite (one q) ?mem_head // eqxx.
  by case: eqP => // e H; rewrite (one q _ H) ?mem_head // (one b) ?eqxx //= ?inE ?eqxx ?orbT // -e.
- rewrite (@width_num _ dif rest q (map t [:: [::]]) [:: [::]]) // => /one ->; rewrite ?mem_head //.
  by rewrite size_map.
- by case: ifP => // _; case: (dif && _).
Qed.
End WidthSingle.
