(* Pseudo-point approximations in the graph at nested inputs. *)
From Coq Require Import List.
From mathcomp Require Import all_ssreflect all_algebra.
From mathcomp Require Import zify.
From Verif Require Import Graph Machine Refine Worlds Eval GraphSpec GraphProofs GraphOps GraphFacts RV RVProofs Sound Typing ModelSpec Formal ModelFacts Plain Cond PostDefined PseudoSpec PseudoGraph SymSpec SymThms PseudoMain Leaves.
Set Implicit Arguments. Unset Strict Implicit. Unset Printing Implicit Defensive.
Import GRing.Theory Num.Theory.
Local Open Scope ring_scope.

Section Entry.
Variables (R : fieldType) (k : nat).
Lemma mul3_entry a b a' b' (T : 'M[R]_k) (A : 'M[R]_(k, a)) (B : 'M[R]_(k, b)) (A' : 'M[R]_(k, a')) (B' : 'M[R]_(k, b')) i j i' j' :
  (forall t, A t i = A' t i') -> (forall t, B t j = B' t j') -> (A^T *m T *m B) i j = (A'^T *m T *m B') i' j'.
Proof.
move=> HA HB; rewrite !mxE; apply: eq_bigr => t _; rewrite HB; congr (_ * _); rewrite !mxE.
by apply: eq_bigr => s _; rewrite !mxE HA.
Qed.
Variables (n : nat) (S : 'M[R]_k) (C : 'M[R]_(k, n)) (d : 'I_n -> R).
Lemma model_cov_entry a b a' b' (K : 'M[R]_(a, b)) (A : 'M[R]_(k, a)) (B : 'M[R]_(k, b))
    (K' : 'M[R]_(a', b')) (A' : 'M[R]_(k, a')) (B' : 'M[R]_(k, b')) i j i' j' :
  K i j = K' i' j' -> (forall t, A t i = A' t i') -> (forall t, B t j = B' t j') ->
  model_cov S C d K A B i j = model_cov S C d K' A' B' i' j'.
Proof.
move=> HK HA HB; rewrite /model_cov /nystrom mxE [RHS]mxE HK; congr (_ + _); rewrite mxE [RHS]mxE; congr (- _).
set V := invmx (model_var _ _ _).
have E c e (P : 'M_(k, c)) (Q : 'M_(k, e)) : P^T *m invmx S *m C *m V *m (C^T *m invmx S *m Q) = P^T *m (invmx S *m C *m V *m C^T *m invmx S) *m Q.
  by rewrite !mulmxA.
by rewrite !E; apply: mul3_entry.
Qed.
End Entry.

Section Nested.
Variable R : fieldType.
Variable D : nat -> (point R -> R) -> point R -> R.
Variable ops : seq (op R).
Let w := run_ops ops.
Notation cov_is := (cov_is D w). Notation mean_is := (mean_is D w).
Variables (m' m : mid) (o : obs R) (d : pdata R) (ps : seq pid).
Hypotheses (C : approximated w m' m o d ps) (Ho : o_p o \in ps) (Hd : d_p d \in ps).
Variables (Kz Kzx Kx : dmat R).
Hypotheses (HKz : cov_is m (o_p o) (o_p o) (o_x o) (o_x o) Kz) (HKzx : cov_is m (o_p o) (d_p d) (o_x o) (d_x d) Kzx).
Hypotheses (HKx : cov_is m (d_p d) (d_p d) (d_x d) (d_x d) Kx).
Let k := nr Kz.
Let n := size (d_noise d).
Let S : 'M[R]_k := mx_at Kz k k + mx_at (o_noise o) k k.
Let Cx : 'M[R]_(k, n) := mx_at Kzx k n.
Let dn : 'I_n -> R := model_noise S Cx (d_method d) (fun i => nth 0 (d_noise d) i) (fun i => ent Kx i i).

Lemma atom_cov p q x y K A B M : p \in ps -> q \in ps -> atom x -> atom y ->
  cov_is m p q x y K -> cov_is m (o_p o) p (o_x o) x A -> cov_is m (o_p o) q (o_x o) y B -> cov_is m' p q x y M ->
  [/\ S \in unitmx /\ model_var S Cx dn \in unitmx, [/\ nr A = k, nr B = k, nr K = nc A & nc K = nc B], nr M = nr K /\ nc M = nc K &
    mx_at M (nr K) (nc K) = model_cov S Cx dn (mx_at K (nr K) (nc K)) (mx_at A k (nr K)) (mx_at B k (nc K))].
Proof.
move=> Hp Hq ax ay H1 H2 H3 [f Ef]; have [N HN] := approx_kernel C Ho Hd HKz HKzx HKx Hp Hq ax ay H1 H2 H3.
have := kernel_more (leq_addl N f) Ef; rewrite HN ?leq_addr // => /g_value [[_ _ _ _ [U _]] sh UV s E].
by split.
Qed.

Lemma atom_fits p q x y K A B M : p \in ps -> q \in ps -> atom x -> atom y ->
  cov_is m p q x y K -> cov_is m (o_p o) p (o_x o) x A -> cov_is m (o_p o) q (o_x o) y B -> cov_is m' p q x y M ->
  gfits (d_method d) (d_noise d) Kz (o_noise o) Kzx Kx.
Proof.
move=> Hp Hq ax ay H1 H2 H3 [f Ef]; have [N HN] := approx_kernel C Ho Hd HKz HKzx HKx Hp Hq ax ay H1 H2 H3.
by have := kernel_more (leq_addl N f) Ef; rewrite HN ?leq_addr // => /g_value [].
Qed.

Section At.
Variables (p q : pid) (x y : input R) (K A B M : dmat R).
Hypotheses (Hp : p \in ps) (Hq : q \in ps).
Hypotheses (HK : cov_is m p q x y K) (HA : cov_is m (o_p o) p (o_x o) x A) (HB : cov_is m (o_p o) q (o_x o) y B).
Hypothesis HM : cov_is m' p q x y M.
(* The values at the components, and their shapes. *)
Lemma nested_parts : exists (Kf : input R -> input R -> dmat R) (Af Bf : input R -> dmat R) (Mf : input R -> input R -> dmat R),
  [/\ forall a b, In a (leaves x) -> In b (leaves y) ->
        [/\ cov_is m p q a b (Kf a b), cov_is m (o_p o) p (o_x o) a (Af a), cov_is m (o_p o) q (o_x o) b (Bf b) & cov_is m' p q a b (Mf a b)],
      Blk (fun a => nc (Af a)) (fun b => nc (Bf b)) Kf (leaves x) (leaves y) K,
      Blk (fun a => nc (Af a)) (fun b => nc (Bf b)) Mf (leaves x) (leaves y) M,
      Hc (leaves x) Af A & Hc (leaves y) Bf B] /\ exists a b, In a (leaves x) /\ In b (leaves y).
Proof.
have [k0 [n1 [e1 E1]]] := kern_see HK; have [kp [n2 [e2 E2]]] := kern_see HA; have [kq [n3 [e3 E3]]] := kern_see HB.
have [kz [n4 [e4 E4]]] := kern_see HKz; have [kzx [n5 [e5 E5]]] := kern_see HKzx; have [kx [n6 [e6 E6]]] := kern_see HKx.
have See := approx_see_k C Ho Hd Hp Hq e1 e2 e3 e5 e4 e6; case: HM => f.
rewrite /kernel_at See /=; set PK := KAdd _ _ => Ef; pose F := (f + n1 + n2 + n3)%N; pose d0 := dzero R 0 0.
have EM : evk (see_k w) (see_m w) D F.+2 PK x y = Some M by apply: evk_fuel Ef; rewrite /F; lia.
have lf : forall a b, In a (leaves x) -> In b (leaves y) -> exists Mab Kab Aa Bb,
    [/\ evk (see_k w) (see_m w) D F.+2 PK a b = Some Mab, evk (see_k w) (see_m w) D F k0 a b = Some Kab,
        evk (see_k w) (see_m w) D F kp (o_x o) a = Some Aa & evk (see_k w) (see_m w) D F kq (o_x o) b = Some Bb].
  move=> a b Ha Hb; have [Mab Eab] := leaf_some EM Ha Hb; exists Mab; rewrite Eab.
  move: Eab; rewrite /PK Sound.at_add ?at_post ?(leaf_atom Ha) ?(leaf_atom Hb) //.
  case: (evk _ _ _ F k0 a b) => [Kab|] //=; case: (obind _ (evk _ _ _ F kz _ _)) => [S'|] //=.
  case: (evk _ _ _ F kp _ a) => [Aa|] //=; case: (evk _ _ _ F kq _ b) => [Bb|] //= _.
  by exists Kab, Aa, Bb.
pose Kf a b := odflt d0 (evk (see_k w) (see_m w) D F k0 a b); pose Mf a b := odflt d0 (evk (see_k w) (see_m w) D F.+2 PK a b).
pose Af a := odflt d0 (evk (see_k w) (see_m w) D F kp (o_x o) a); pose Bf b := odflt d0 (evk (see_k w) (see_m w) D F kq (o_x o) b).
have L a b : In a (leaves x) -> In b (leaves y) ->
    [/\ evk (see_k w) (see_m w) D F.+2 PK a b = Some (Mf a b), evk (see_k w) (see_m w) D F k0 a b = Some (Kf a b),
        evk (see_k w) (see_m w) D F kp (o_x o) a = Some (Af a) & evk (see_k w) (see_m w) D F kq (o_x o) b = Some (Bf b)].
  by move=> Ha Hb; have [Mab [Kab [Aa [Bb [h1 h2 h3 h4]]]]] := lf a b Ha Hb; rewrite /Mf /Kf /Af /Bf h1 h2 h3 h4.
have P a b : In a (leaves x) -> In b (leaves y) ->
    [/\ cov_is m p q a b (Kf a b), cov_is m (o_p o) p (o_x o) a (Af a), cov_is m (o_p o) q (o_x o) b (Bf b) & cov_is m' p q a b (Mf a b)].
  move=> Ha Hb; have [h1 h2 h3 h4] := L a b Ha Hb.
  by split; [exists F|exists F|exists F|exists F.+2]; rewrite /kernel_at ?See ?e1 ?e2 ?e3.
have [a0 [b0 [Ha0 Hb0]]] := leaves_ne EM.
exists Kf, Af, Bf, Mf; split; last by exists a0, b0.
have Sh a b : In a (leaves x) -> In b (leaves y) -> [/\ nr (Kf a b) = nc (Af a), nc (Kf a b) = nc (Bf b), nr (Mf a b) = nc (Af a) & nc (Mf a b) = nc (Bf b)].
  move=> Ha Hb; have [h1 h2 h3 h4] := P a b Ha Hb.
  by have [_ [_ _ s1 s2] [s3 s4] _] := atom_cov Hp Hq (leaf_atom Ha) (leaf_atom Hb) h1 h2 h3 h4; rewrite s3 s4.
split=> //.
- apply: grid (E1 n1 (leqnn _)) => a b Ha Hb N M0 E0; have [h1 h2 h3 h4] := L a b Ha Hb; have [s1 s2 _ _] := Sh a b Ha Hb.
  by rewrite (evk_det E0 h2).
- apply: grid EM => a b Ha Hb N M0 E0; have [h1 h2 h3 h4] := L a b Ha Hb; have [_ _ s1 s2] := Sh a b Ha Hb.
  by rewrite (evk_det E0 h1).
- by apply: cols (E2 n2 (leqnn _)) => a Ha; have [_ _ h _] := L a b0 Ha Hb0; exact: h.
by apply: cols (E3 n3 (leqnn _)) => b Hb; have [_ _ _ h] := L a0 b Ha0 Hb; exact: h.
Qed.

Lemma nested_cov : [/\ S \in unitmx, model_var S Cx dn \in unitmx, nr M = nr K /\ nc M = nc K &
    mx_at M (nr K) (nc K) = model_cov S Cx dn (mx_at K (nr K) (nc K)) (mx_at A k (nr K)) (mx_at B k (nc K))].
Proof.
have [Kf [Af [Bf [Mf [[P [k1 k2 k3] [s1 s2 s3] [a1 a2 a3] [b1 b2 b3]] [a0 [b0 [Ha0 Hb0]]]]]]]] := nested_parts.
have [h1 h2 h3 h4] := P a0 b0 Ha0 Hb0.
have [[U V] [rA rB _ _] _ _] := atom_cov Hp Hq (leaf_atom Ha0) (leaf_atom Hb0) h1 h2 h3 h4.
split=> //; first by rewrite k1 k2.
apply/matrixP => i j; have := ltn_ord i; rewrite {2}k1 => /find_row [u [a [v [i' [ex ei li]]]]].
have := ltn_ord j; rewrite {2}k2 => /find_row [u' [b [v' [j' [ey ej lj]]]]].
have Ha : In a (leaves x) by rewrite ex; apply: in_or_app; right; left.
have Hb : In b (leaves y) by rewrite ey; apply: in_or_app; right; left.
have {h1 h2 h3 h4} [h1 h2 h3 h4] := P a b Ha Hb.
have [_ [ra rb t1 t2] [t3 t4] E] := atom_cov Hp Hq (leaf_atom Ha) (leaf_atom Hb) h1 h2 h3 h4.
have li' : (i' < nr (Kf a b))%N by rewrite t1. have lj' : (j' < nc (Kf a b))%N by rewrite t2.
have := congr1 (fun X : 'M_(_, _) => X (Ordinal li') (Ordinal lj')) E; rewrite [in LHS]mxE /= => E'.
rewrite mxE ei ej (s3 _ _ _ _ _ _ _ _ ex ey li lj) E'; apply: model_cov_entry => [|t|t]; rewrite !mxE /= ?ei ?ej.
- by rewrite (k3 _ _ _ _ _ _ _ _ ex ey li lj).
- by rewrite (a3 _ _ _ _ _ ex _ li) // -(a2 a Ha) ra.
by rewrite (b3 _ _ _ _ _ ey _ lj) // -(b2 b Hb) rb.
Qed.
Lemma nested_shapes : [/\ nc Kz = k, nr (o_noise o) = k /\ nc (o_noise o) = k, nr Kzx = k /\ nc Kzx = n, nr Kx = n /\ nc Kx = n &
  [/\ forall i, dn i != 0, nr A = k, nr B = k, nc A = nr K & nc B = nc K]].
Proof.
have [Kf [Af [Bf [Mf [[P [k1 k2 k3] [s1 s2 s3] [a1 a2 a3] [b1 b2 b3]] [a0 [b0 [Ha0 Hb0]]]]]]]] := nested_parts.
have [h1 h2 h3 h4] := P a0 b0 Ha0 Hb0.
have [_ [rA rB _ _] _ _] := atom_cov Hp Hq (leaf_atom Ha0) (leaf_atom Hb0) h1 h2 h3 h4.
have [g1 g2 g3 g4 [_ g5]] := atom_fits Hp Hq (leaf_atom Ha0) (leaf_atom Hb0) h1 h2 h3 h4.
by split=> //; split=> //; rewrite -?(a2 a0) -?(b2 b0) // ?a1 ?b1.
Qed.
End At.
End Nested.

(* Inducing points at the data. *)
Section AtData.
Variables (R : fieldType) (D : nat -> (point R -> R) -> point R -> R) (ops : seq (op R)).
Let w := run_ops ops.
Notation cov_is := (cov_is D w).
Hypotheses (HU : forall k, given_kernel ops k -> symmetric_kernel D w k)
  (HN : forall m o, In (OCond m o) ops -> square_sym (o_noise o)) (HD : mixed_partials D ops).
Variables (m1 m2 m : mid) (d : pdata R) (N0 : dmat R) (y0 : seq R) (ps1 ps2 : seq pid).
Let o1 := MkObs (d_p d) (d_x d) N0 y0 (Some d).
Let o2 := Obs (d_p d) (d_x d) (ddiag (d_noise d)) (d_y d).
Hypotheses (C1 : approximated w m1 m o1 d ps1) (C2 : conditioned w m2 m o2 ps2).
Hypotheses (H1 : d_p d \in ps1) (H2 : d_p d \in ps2) (n0 : ne (d_x d) <> 0%N).
Hypothesis (Z : forall i j, (i < nr N0)%N -> (j < nc N0)%N -> ent N0 i j = 0).
Variable Kz : dmat R.
Hypothesis HKz : cov_is m (d_p d) (d_p d) (d_x d) (d_x d) Kz.

Lemma nested_at_data p q x y K A B M1 M2 : p \in ps1 -> p \in ps2 -> q \in ps1 -> q \in ps2 ->
  cov_is m p q x y K -> cov_is m (d_p d) p (d_x d) x A -> cov_is m (d_p d) q (d_x d) y B ->
  cov_is m1 p q x y M1 -> cov_is m2 p q x y M2 -> same_matrix M1 M2.
Proof.
move=> p1 p2 q1 q2 E1 E2 E3 E4 E5.
have [Kf [Af [Bf [Mf [[P _ [s1 s2 s3] _ _] _]]]]] := nested_parts (o := o1) C1 H1 H1 HKz HKz HKz p1 q1 E1 E2 E3 E4.
have [k2 [f2 [e2 F2]]] := kern_see E5; pose M2f a b := odflt (dzero R 0 0) (evk (see_k w) (see_m w) D f2 k2 a b).
have L a b : In a (leaves x) -> In b (leaves y) -> evk (see_k w) (see_m w) D f2 k2 a b = Some (M2f a b) /\ same_matrix (Mf a b) (M2f a b).
  move=> Ha Hb; have [M' E'] := leaf_some (F2 f2 (leqnn _)) Ha Hb; rewrite /M2f E' /=; split=> //; have [h1 h2 h3 h4] := P a b Ha Hb.
  apply: (at_data_cov HU HN HD C1 C2 H1 H2 n0 Z HKz p1 p2 q1 q2 (leaf_atom Ha) (leaf_atom Hb) h1 h2 h3 h4).
  by exists f2; rewrite /kernel_at e2.
have Sh a b : In a (leaves x) -> In b (leaves y) -> nr (Mf a b) = nc (Af a) /\ nc (Mf a b) = nc (Bf b).
  move=> Ha Hb; have [h1 h2 h3 h4] := P a b Ha Hb.
  by have [_ [_ _ t1 t2] [t3 t4] _] := atom_cov (o := o1) C1 H1 H1 HKz HKz HKz p1 q1 (leaf_atom Ha) (leaf_atom Hb) h1 h2 h3 h4; rewrite t3 t4.
have [t1 t2 t3] : Blk (fun a => nc (Af a)) (fun b => nc (Bf b)) M2f (leaves x) (leaves y) M2.
  apply: grid (F2 f2 (leqnn _)) => a b Ha Hb N M0 E0; have [h [g1 g2 _]] := L a b Ha Hb; have [u1 u2] := Sh a b Ha Hb.
  by rewrite (evk_det E0 h) -g1 -g2.
split; rewrite ?t1 ?t2 // => i j; rewrite s1 s2 => /find_row [u [a [v [i' [ex -> li]]]]] /find_row [u' [b [v' [j' [ey -> lj]]]]].
have Ha : In a (leaves x) by rewrite ex; apply: in_or_app; right; left.
have Hb : In b (leaves y) by rewrite ey; apply: in_or_app; right; left.
rewrite (s3 _ _ _ _ _ _ _ _ ex ey li lj) (t3 _ _ _ _ _ _ _ _ ex ey li lj).
have [_ [_ _ g]] := L a b Ha Hb; have [u1 u2] := Sh a b Ha Hb; apply: g; by rewrite ?u1 ?u2.
Qed.
End AtData.

Lemma cov_doubled (R : fieldType) D (w : world R) m p q x y :
  (exists M, ModelSpec.cov_is D w m p q x y M) -> exists M, ModelSpec.cov_is D w m p q (Tup [:: x; x]) (Tup [:: y; y]) M.
Proof.
case=> M [n]; rewrite /kernel_at /ModelSpec.cov_is /kernel_at; case: (see_k w m p q) => [k|] //= E.
have [N EN] : exists N, evk (see_k w) (see_m w) D n.+1 k (Tup [:: x; x]) (Tup [:: y; y]) = Some N; last by exists N, n.+1.
by rewrite at_tup /dblock /= E /= /dhcat eqxx /= /dvcat /= eqxx; eexists.
Qed.
