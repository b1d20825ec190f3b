(* Posterior kernels and means have values where those of the prior have values of the right
   shapes and the variance of the data is invertible. *)
From Coq Require Import List.
From mathcomp Require Import all_ssreflect all_algebra.
From mathcomp Require Import zify.
From Verif Require Import Graph Machine Refine Worlds Eval GraphSpec GraphProofs GraphOps GraphFacts RV RVProofs Sound Typing ModelSpec Formal ModelFacts Plain Cond.
Set Implicit Arguments. Unset Strict Implicit. Unset Printing Implicit Defensive.
Import GRing.Theory Num.Theory.
Local Open Scope ring_scope.

Section PostDefined.
Variable R : fieldType.
Variable D : nat -> (point R -> R) -> point R -> R.
Variable ops : seq (op R).
Let w := run_ops ops.
Let I : winv w := winv_run ops.
Notation cov_is := (cov_is D w). Notation mean_is := (mean_is D w).
Variables (m' m : mid) (o : obs R) (ps : seq pid).
Hypothesis (C : conditioned w m' m o ps) (Ho : o_p o \in ps).

Lemma post_par : exists2 par, pids par = ps &
  [/\ (m' < w_nm w)%N, ext (HPost m par o) (w_log w m'),
      forall i j, i \in ps -> j \in ps -> see_k w m i j = KA m par i j,
      forall i, i \in ps -> see_m w m i = MA m par i & o_data o = None].
Proof.
have [par ep [lm lt eb X X']] := cond_log C; exists par => //; have Wf := l_wf (v_log I.1) lt.
split=> //; [by case: C | .. | by case: C].
- by move=> i j Hi Hj; rewrite see_k_log // lt (proj1 (KA_ext m X Wf _ _)) // => _; rewrite ep.
- by move=> i Hi; rewrite see_m_log // lt (MA_ext m X Wf) // => _; rewrite ep.
Qed.
Lemma post_see_k p q k kp kq kz : p \in ps -> q \in ps -> ne (o_x o) <> 0%N ->
  see_k w m p q = Some k -> see_k w m (o_p o) p = Some kp -> see_k w m (o_p o) q = Some kq ->
  see_k w m (o_p o) (o_p o) = Some kz -> see_k w m' p q = Some (KPost k kp kq kz (o_x o) (o_noise o)).
Proof.
move=> Hp Hq /eqP /negbTE n0; have [par ep [lt X Ek Em Eo]] := post_par; rewrite !Ek // => e1 e2 e3 e4.
have Wf := l_wf (v_log I.1) lt.
rewrite see_k_log // lt (proj1 (KA_ext m' X Wf _ _)) ?ep; try by move=> _; rewrite /= ep.
by rewrite /= ep Hp Hq /= /post_k Eo /post_k1 n0 /= /onk /onm eqxx e1 /= e2 /= e3 /= e4.
Qed.
Lemma post_see_m p k kp kz mz : p \in ps -> ne (o_x o) <> 0%N ->
  see_m w m p = Some k -> see_k w m (o_p o) p = Some kp -> see_m w m (o_p o) = Some mz ->
  see_k w m (o_p o) (o_p o) = Some kz -> see_m w m' p = Some (MPost k mz kp kz (o_x o) (o_noise o) (o_y o)).
Proof.
move=> Hp /eqP /negbTE n0; have [par ep [lt X Ek Em Eo]] := post_par; rewrite !Ek // !Em // => e1 e2 e3 e4.
have Wf := l_wf (v_log I.1) lt.
rewrite see_m_log // lt (MA_ext m' X Wf) ?ep; last by move=> _; rewrite /= ep.
by rewrite /= ep Hp /= /post_m Eo /post_m1 n0 /= /onk /onM /onm eqxx e1 /= e3 /= e2 /= e4.
Qed.

Lemma mx_at_sum a b (K N : dmat R) k l : mx_at (DMat a b (fun i j => ent K i j + ent N i j)) k l = mx_at K k l + mx_at N k l.
Proof. by apply/matrixP => i j; rewrite !mxE. Qed.
Lemma kern_see p q x y M : cov_is m p q x y M -> exists k n, see_k w m p q = Some k /\
  forall n', (n <= n')%N -> evk (see_k w) (see_m w) D n' k x y = Some M.
Proof.
case=> n; rewrite /kernel_at; case E: (see_k _ _ _ _) => [k|] //= Ek; exists k, n; split=> // n' le.
by have := @evk_fuel R (see_k w) (see_m w) D n n' k x y le; rewrite Ek => /(_ _ erefl).
Qed.
Lemma mean_see p x e : mean_is m p x e -> exists k n, see_m w m p = Some k /\
  forall n', (n <= n')%N -> evm (see_k w) (see_m w) D n' k x = Some e.
Proof.
case=> n; rewrite /mean_at; case E: (see_m _ _ _) => [k|] //= Ek; exists k, n; split=> // n' le.
by have := @evm_fuel R (see_k w) (see_m w) D n n' k x le; rewrite Ek => /(_ _ erefl).
Qed.

Lemma post_cov_defined p q x y K A B Kz : p \in ps -> q \in ps -> ne (o_x o) <> 0%N -> atom x -> atom y ->
  cov_is m p q x y K -> cov_is m (o_p o) p (o_x o) x A -> cov_is m (o_p o) q (o_x o) y B ->
  cov_is m (o_p o) (o_p o) (o_x o) (o_x o) Kz ->
  let n := nr Kz in [&& nc Kz == n, nr (o_noise o) == n, nc (o_noise o) == n, nr A == n & nr B == n] ->
  nr K = nc A -> nc K = nc B -> mx_at Kz n n + mx_at (o_noise o) n n \in unitmx ->
  exists M, cov_is m' p q x y M.
Proof.
move=> Hp Hq n0 ax ay /kern_see [k [n1 [e1 E1]]] /kern_see [kp [n2 [e2 E2]]] /kern_see [kq [n3 [e3 E3]]] /kern_see [kz [n4 [e4 E4]]] n.
case/and5P=> /eqP c1 /eqP c2 /eqP c3 /eqP c4 /eqP c5 c6 c7 U.
have S := post_see_k Hp Hq n0 e1 e2 e3 e4; pose N := (n1 + n2 + n3 + n4)%N.
have : evk (see_k w) (see_m w) D N.+1 (KPost k kp kq kz (o_x o) (o_noise o)) x y <> None.
  rewrite at_post // E1 ?E2 ?E3 ?E4 /=; try by rewrite /N; lia.
  rewrite /dadd /dmap2 /same_shape c2 c3 c1 !eqxx /= /iqf /= ?c1 c4 c5 !eqxx /=.
  rewrite ifT /= /dsub /dmap2 /same_shape /= ?c6 ?c7 ?eqxx //; by rewrite mx_at_sum.
case EM: (evk _ _ _ _ _ _ _) => [M|] // _; exists M, N.+1; by rewrite /kernel_at S.
Qed.
Lemma post_mean_defined p x e ez A Kz : p \in ps -> ne (o_x o) <> 0%N -> atom x ->
  mean_is m p x e -> mean_is m (o_p o) (o_x o) ez -> cov_is m (o_p o) p (o_x o) x A ->
  cov_is m (o_p o) (o_p o) (o_x o) (o_x o) Kz ->
  let n := nr Kz in [&& nc Kz == n, nr (o_noise o) == n, nc (o_noise o) == n, nr A == n & size ez == n] ->
  size (o_y o) = n -> size e = nc A -> mx_at Kz n n + mx_at (o_noise o) n n \in unitmx ->
  exists e', mean_is m' p x e'.
Proof.
move=> Hp n0 ax /mean_see [k [n1 [e1 E1]]] /mean_see [mz [n2 [e2 E2]]] /kern_see [kp [n3 [e3 E3]]] /kern_see [kz [n4 [e4 E4]]] n.
case/and5P=> /eqP c1 /eqP c2 /eqP c3 /eqP c4 /eqP c5 c6 c7 U.
have S := post_see_m Hp n0 e1 e3 e2 e4; pose N := (n1 + n2 + n3 + n4)%N.
have : evm (see_k w) (see_m w) D N.+1 (MPost k mz kp kz (o_x o) (o_noise o) (o_y o)) x <> None.
  rewrite at_mpost // E1 ?E2 ?E3 ?E4 /=; try by rewrite /N; lia.
  rewrite /dadd /dmap2 /same_shape c2 c3 c1 !eqxx /= /vmap2 c5 c6 eqxx /=.
  rewrite /= /iqf /= ?c1 c4 size_mkseq ?c6 !eqxx /=.
  rewrite ifT /= /col_seq /= ?size_mkseq ?c7 ?eqxx //; by rewrite mx_at_sum.
case EM: (evm _ _ _ _ _ _) => [M|] // _; exists M, N.+1; by rewrite /mean_at S.
Qed.
End PostDefined.
