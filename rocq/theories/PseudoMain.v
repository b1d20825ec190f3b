(* Pseudo-point approximations in the graph: definedness, and inducing points at the data. *)
From Coq Require Import List.
From mathcomp Require Import all_ssreflect all_algebra.
From mathcomp Require Import zify.
From Verif Require Import Graph Machine Refine Worlds Eval GraphSpec GraphProofs GraphOps GraphFacts RV RVProofs Sound Typing ModelSpec Formal ModelFacts Plain Cond PostDefined PseudoSpec PseudoGraph SymSpec SymThms.
Set Implicit Arguments. Unset Strict Implicit. Unset Printing Implicit Defensive.
Import GRing.Theory Num.Theory.
Local Open Scope ring_scope.

Section Det.
Variables (R : fieldType) (D : nat -> (point R -> R) -> point R -> R) (w : world R).
Lemma cov_is_det m p q x y M M' : cov_is D w m p q x y M -> cov_is D w m p q x y M' -> M = M'.
Proof.
rewrite /cov_is /kernel_at; case: (see_k _ _ _ _) => [k|] [n e] [n' e'] //=.
have := evk_fuel (leq_addr n' n) e; rewrite addnC => E; have := evk_fuel (leq_addr n n') e'.
by rewrite E => -[].
Qed.
Lemma mean_is_det m p x e e' : mean_is D w m p x e -> mean_is D w m p x e' -> e = e'.
Proof.
rewrite /mean_is /mean_at; case: (see_m _ _ _) => [k|] [n h] [n' h'] //=.
have := evm_fuel (leq_addr n' n) h; rewrite addnC => E; have := evm_fuel (leq_addr n n') h'.
by rewrite E => -[].
Qed.
End Det.

Section Exact.
Variable R : fieldType.
Variable D : nat -> (point R -> R) -> point R -> R.
Variable ops : seq (op R).
Let w := run_ops ops.
Notation cov_is := (cov_is D w). Notation mean_is := (mean_is D w).
Variables (m' m : mid) (o : obs R) (ps : seq pid).
Hypothesis (C : conditioned w m' m o ps) (Ho : o_p o \in ps) (n0 : ne (o_x o) <> 0%N).
Variable Kz : dmat R.
Hypothesis HKz : cov_is m (o_p o) (o_p o) (o_x o) (o_x o) Kz.
Let k := nr Kz.
Let S : 'M[R]_k := mx_at Kz k k + mx_at (o_noise o) k k.

Lemma exact_cov_is p q x y K A B M : p \in ps -> q \in ps -> atom x -> atom y ->
  cov_is m p q x y K -> cov_is m (o_p o) p (o_x o) x A -> cov_is m (o_p o) q (o_x o) y B -> cov_is m' p q x y M ->
  [/\ S \in unitmx, nr M = nr K /\ nc M = nc K &
    mx_at M (nr K) (nc K) = exact_cov S (mx_at K (nr K) (nc K)) (mx_at A k (nr K)) (mx_at B k (nc K))].
Proof.
move=> Hp Hq ax ay /kern_see [kk [n1 [e1 E1]]] /kern_see [kp [n2 [e2 E2]]] /kern_see [kq [n3 [e3 E3]]].
have [kz [n4 [e4 E4]]] := kern_see HKz; have See := post_see_k C Ho Hp Hq n0 e1 e2 e3 e4; case=> f.
rewrite /kernel_at See /= => Ef; have := evk_fuel (leq_addl (n1 + n2 + n3 + n4).+1 f) Ef; rewrite addSn at_post //.
rewrite E1 ?E2 ?E3 ?E4 /=; try lia.
case Ed: (dadd Kz (o_noise o)) => [S'|] //=.
have eS : S' = gS Kz (o_noise o) by move: Ed; rewrite /dadd /dmap2; case: ifP => // _ [<-].
rewrite eS /iqf; have -> : nr (gS Kz (o_noise o)) = k by []. rewrite gS_at -/S.
case: ifP => //= /and4P [_ /eqP a1 /eqP b1 U]; rewrite /dsub /dmap2; case: ifP => //= /andP [/= /eqP s1 /eqP s2] [<-] /=.
split=> //; apply/matrixP => i j; rewrite [LHS]mxE /= -s1 -s2 !valK /=.
rewrite [RHS]mxE [X in _ = X + _]mxE; congr (_ + _); by rewrite [RHS]mxE.
Qed.
Lemma exact_mean_is p x e ez A e' : p \in ps ->
  mean_is m p x e -> mean_is m (o_p o) (o_x o) ez -> cov_is m (o_p o) p (o_x o) x A -> mean_is m' p x e' ->
  [/\ S \in unitmx, size e' = size e, size (o_y o) = k /\ size ez = k &
    vcol (size e) e' = exact_mean S (vcol k ez) (vcol k (o_y o)) (vcol (size e) e) (mx_at A k (size e))].
Proof.
move=> Hp /mean_see [kk [n1 [e1 E1]]] /mean_see [mz [n2 [e2 E2]]] /kern_see [kp [n3 [e3 E3]]].
have [kz [n4 [e4 E4]]] := kern_see HKz; have See := post_see_m C Ho Hp n0 e1 e3 e2 e4; case=> f.
rewrite /mean_at See /= => Ef; have := evm_fuel (leq_addl (n1 + n2 + n3 + n4).+1 f) Ef; rewrite addSn at_mpost //.
rewrite E1 ?E2 ?E3 ?E4 /=; try lia.
case Ed: (dadd Kz (o_noise o)) => [S'|] //=.
have eS : S' = gS Kz (o_noise o) by move: Ed; rewrite /dadd /dmap2; case: ifP => // _ [<-].
case Ey: (vmap2 _ (o_y o) ez) => [dl|] //=; have [sy sd Hd] := vmap2_inv Ey.
rewrite eS /iqf; have -> : nr (gS Kz (o_noise o)) = k by []. rewrite gS_at -/S.
case: ifP => //= /and4P [_ /eqP a1 /eqP b1 U]; rewrite /col_seq /=.
move/vmap2_inv => [se se' He']; rewrite size_mkseq in se.
rewrite (_ : size e = nc A) //.
split=> //; [by rewrite se' se | by split; rewrite -?sy -sd | ].
have dE : mx_at (dcol dl) k 1 = vcol k (o_y o) - vcol k ez.
  by apply/matrixP => i j; rewrite !mxE /= Hd // -sd b1.
apply/colP => i; rewrite mxE He' ?se // nth_mkseq // valK (_ : insub 0%N = Some (0 : 'I_1)); last exact: (valK (0 : 'I_1)).
by rewrite /= dE /exact_mean [RHS]mxE [X in _ = X + _]mxE.
Qed.
End Exact.

Section Alg.
Variables (R : fieldType) (Kz N0 : dmat R) (me : method) (s : seq R) (k n : nat).
Hypotheses (nk : n = k) (sz : size s = k).
Let S := mx_at Kz k k + mx_at N0 k k.
Hypotheses (Z : forall i j, (i < k)%N -> (j < k)%N -> ent N0 i j = 0).
Hypotheses (Sy : forall i j, (i < k)%N -> (j < k)%N -> ent Kz i j = ent Kz j i) (U : S \in unitmx).
Let C : 'M[R]_(k, n) := mx_at Kz k n.
Let dn : 'I_n -> R := model_noise S C me (fun i => nth 0 s i) (fun i => ent Kz i i).
Let S2 := mx_at Kz k k + mx_at (ddiag s) k k.
Lemma alg_S : S = mx_at Kz k k.
Proof. by apply/matrixP => i j; rewrite !mxE Z // addr0. Qed.
Lemma alg_sym : (mx_at Kz k k)^T = mx_at Kz k k.
Proof. by apply/matrixP => i j; rewrite !mxE Sy. Qed.
Lemma alg_cov a b (K : 'M[R]_(a, b)) (A : 'M[R]_(k, a)) (B : 'M[R]_(k, b)) : model_cov S C dn K A B = exact_cov S2 K A B.
Proof.
rewrite /dn /C; subst n; rewrite -alg_S.
have sS : S^T = S by rewrite alg_S alg_sym.
have nl c (X : 'M_(k, c)) : nystrom S S X = X by rewrite /nystrom sS mulmxV ?mul1mx.
have nr c (X : 'M_(k, c)) : nystrom S X S = X^T by rewrite /nystrom mulmxKV.
rewrite /model_cov nl nr /exact_cov; congr (_ - _ *m invmx _ *m _).
rewrite /model_var nl /S2 -alg_S; congr (_ + _); apply/matrixP => i j; rewrite !mxE /=; rewrite -val_eqE.
case: eqP => //= _; rewrite mulr1n /model_noise nl; case: me => //.
by rewrite alg_S mxE subrr addr0.
Qed.
Lemma alg_mean a (mx y : 'cV[R]_k) (mx' y' : 'cV[R]_n) (m : 'cV[R]_a) (A : 'M[R]_(k, a)) :
  (forall i j, val i = val j -> mx i 0 = mx' j 0) -> (forall i j, val i = val j -> y i 0 = y' j 0) ->
  model_mean S C dn mx' y' m A = exact_mean S2 mx y m A.
Proof.
rewrite /dn /C; subst n; rewrite -alg_S => E1 E2.
have sS : S^T = S by rewrite alg_S alg_sym.
have nl c (X : 'M_(k, c)) : nystrom S S X = X by rewrite /nystrom sS mulmxV ?mul1mx.
have nr c (X : 'M_(k, c)) : nystrom S X S = X^T by rewrite /nystrom mulmxKV.
rewrite /model_mean nr /exact_mean; congr (_ + _ *m invmx _ *m (_ - _)).
- rewrite /model_var nl /S2 -alg_S; congr (_ + _); apply/matrixP => i j; rewrite !mxE /=; rewrite -val_eqE.
  case: eqP => //= _; rewrite mulr1n /model_noise nl; case: me => //.
  by rewrite alg_S mxE subrr addr0.
- by apply/colP => i; rewrite -(E2 i).
- by apply/colP => i; rewrite -(E1 i).
Qed.
End Alg.

Section Graph.
Variable R : fieldType.
Variable D : nat -> (point R -> R) -> point R -> R.
Variable ops : seq (op R).
Let w := run_ops ops.
Notation cov_is := (cov_is D w). Notation mean_is := (mean_is D w).

(* Definedness. *)
Section Defined.
Variables (m' m : mid) (o : obs R) (d : pdata R) (ps : seq pid) (Kz Kzx Kx : dmat R).
Hypothesis (C : approximated w m' m o d ps) (Ho : o_p o \in ps) (Hd : d_p d \in ps).
Hypotheses (HKz : cov_is m (o_p o) (o_p o) (o_x o) (o_x o) Kz) (HKzx : cov_is m (o_p o) (d_p d) (o_x o) (d_x d) Kzx).
Hypotheses (HKx : cov_is m (d_p d) (d_p d) (d_x d) (d_x d) Kx).
Let k := nr Kz.
Let n := size (d_noise d).
Let S : 'M[R]_k := mx_at Kz k k + mx_at (o_noise o) k k.
Let Cx : 'M[R]_(k, n) := mx_at Kzx k n.
Let dn : 'I_n -> R := model_noise S Cx (d_method d) (fun i => nth 0 (d_noise d) i) (fun i => ent Kx i i).
Hypotheses (c1 : nc Kz = k) (c2 : nr (o_noise o) = k) (c3 : nc (o_noise o) = k) (c4 : nr Kzx = k) (c5 : nc Kzx = n)
  (c6 : nr Kx = n) (c7 : nc Kx = n).
Hypotheses (US : S \in unitmx) (Ud : forall i, dn i != 0) (UV : model_var S Cx dn \in unitmx).
Let F : gfits (d_method d) (d_noise d) Kz (o_noise o) Kzx Kx. Proof. by split. Qed.
Lemma approx_cov_defined p q x y K A B : p \in ps -> q \in ps -> atom x -> atom y ->
  cov_is m p q x y K -> cov_is m (o_p o) p (o_x o) x A -> cov_is m (o_p o) q (o_x o) y B ->
  nr A = k -> nr B = k -> nr K = nc A -> nc K = nc B -> exists M, cov_is m' p q x y M.
Proof.
move=> Hp Hq ax ay H1 H2 H3 a1 b1 s1 s2; have [N HN] := approx_kernel C Ho Hd HKz HKzx HKx Hp Hq ax ay H1 H2 H3.
have [M E] := g_value_some F a1 b1 s1 s2 UV; exists M, N; by rewrite HN.
Qed.
Lemma approx_mean_defined p x e ez ex A : p \in ps ->
  mean_is m p x e -> mean_is m (o_p o) (o_x o) ez -> mean_is m (d_p d) (d_x d) ex -> cov_is m (o_p o) p (o_x o) x A ->
  nr A = k -> nc A = size e -> size ez = k -> size ex = n -> size (d_y d) = n -> exists e', mean_is m' p x e'.
Proof.
move=> Hp H1 H2 H3 H4 a1 a2 a3 a4 a5; have [N HN] := approx_mean C Ho Hd HKz HKzx HKx Hp H1 H2 H3 H4.
have [M E] := g_mean_some F a1 a2 a3 a4 a5 UV; exists M, N; by rewrite HN.
Qed.
End Defined.

(* Inducing points at the data. *)
Section AtData.
Hypotheses (HU : forall k, given_kernel ops k -> symmetric_kernel D w k)
  (HN : forall m o, In (OCond m o) ops -> square_sym (o_noise o)) (HD : mixed_partials D ops).
Variables (m1 m2 m : mid) (d : pdata R) (N0 : dmat R) (y0 : seq R) (ps1 ps2 : seq pid).
Let o1 := MkObs (d_p d) (d_x d) N0 y0 (Some d).
Let o2 := Obs (d_p d) (d_x d) (ddiag (d_noise d)) (d_y d).
Hypotheses (C1 : approximated w m1 m o1 d ps1) (C2 : conditioned w m2 m o2 ps2).
Hypotheses (H1 : d_p d \in ps1) (H2 : d_p d \in ps2) (n0 : ne (d_x d) <> 0%N).
Hypothesis (Z : forall i j, (i < nr N0)%N -> (j < nc N0)%N -> ent N0 i j = 0).
Variable Kz : dmat R.
Hypothesis HKz : cov_is m (d_p d) (d_p d) (d_x d) (d_x d) Kz.
Let k := nr Kz.
Lemma at_sym i j : (i < nr Kz)%N -> (j < nc Kz)%N -> ent Kz i j = ent Kz j i.
Proof. by have [_ _ E] := all_symmetric HU HN HD HKz HKz; apply: E. Qed.

Lemma at_data_cov p q x y K A B M1 M2 : p \in ps1 -> p \in ps2 -> q \in ps1 -> q \in ps2 -> atom x -> atom y ->
  cov_is m p q x y K -> cov_is m (d_p d) p (d_x d) x A -> cov_is m (d_p d) q (d_x d) y B ->
  cov_is m1 p q x y M1 -> cov_is m2 p q x y M2 -> same_matrix M1 M2.
Proof.
move=> p1 p2 q1 q2 ax ay E1 E2 E3 E4 E5.
have [N NH] := approx_kernel (o := o1) C1 H1 H1 HKz HKz HKz p1 q1 ax ay E1 E2 E3.
case: (E4) => f Ef; have := kernel_more (leq_addl N f) Ef; rewrite NH ?leq_addr // => /g_value [].
case=> c1 [c2 c3] [_ c5] _ [US _] _ UV [s1 s2] EM.
have [_ [t1 t2] EM2] := exact_cov_is (o := o2) C2 H2 n0 HKz p2 q2 ax ay E1 E2 E3 E5.
have sk : size (d_noise d) = nr Kz by rewrite -c5 c1.
have EE : mx_at M1 (nr K) (nc K) = mx_at M2 (nr K) (nc K).
  rewrite EM EM2; apply: alg_cov => //.
  - by move=> i j li lj; apply: Z; rewrite ?c2 ?c3.
  - by move=> i j li lj; apply: at_sym; rewrite ?c1.
split; rewrite ?t1 ?t2 // => i j; rewrite s1 s2 => li lj.
by have := congr1 (fun X : 'M_(nr K, nc K) => X (Ordinal li) (Ordinal lj)) EE; rewrite !mxE.
Qed.
Lemma at_data_mean p x e ez A e1 e2 : p \in ps1 -> p \in ps2 ->
  mean_is m p x e -> mean_is m (d_p d) (d_x d) ez -> cov_is m (d_p d) p (d_x d) x A ->
  mean_is m1 p x e1 -> mean_is m2 p x e2 -> e1 = e2.
Proof.
move=> p1 p2 E1 E2 E3 E4 E5.
have [N NH] := approx_mean (o := o1) C1 H1 H1 HKz HKz HKz p1 E1 E2 E2 E3.
case: (E4) => f Ef; have := mean_more (leq_addl N f) Ef; rewrite NH ?leq_addr // => /g_mean_value [].
case=> c1 [c2 c3] [_ c5] _ [US _] _ UV s1 EM.
have [_ t1 _ EM2] := exact_mean_is (o := o2) C2 H2 n0 HKz p2 E1 E2 E3 E5.
have sk : size (d_noise d) = nr Kz by rewrite -c5 c1.
have EE : vcol (size e) e1 = vcol (size e) e2.
  rewrite EM EM2; apply: alg_mean => //.
  - by move=> i j li lj; apply: Z; rewrite ?c2 ?c3.
  - by move=> i j li lj; apply: at_sym; rewrite ?c1.
  - by move=> i j h; rewrite !mxE h.
  - by move=> i j h; rewrite !mxE h.
apply: (@eq_from_nth _ 0); rewrite ?s1 ?t1 // => i li.
by have := congr1 (fun X : 'cV_(size e) => X (Ordinal li) 0) EE; rewrite !mxE.
Qed.
End AtData.
End Graph.
