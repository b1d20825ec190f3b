(* Pseudo-point approximations in the graph: C54, C55, C56.  The measure, the processes and their
   kernels are those of any program.  The closed forms are in PseudoSpec.v, densities and definite
   matrices in NormalSpec.v, measures and models in ModelSpec.v; all proofs are elsewhere. *)
From Coq Require Import List.
From mathcomp Require Import all_ssreflect all_algebra.
From Verif Require Import Graph Machine Refine GraphSpec RV Sound Typing ModelSpec Plain NormalSpec LogPdf Infer InferSpec SymSpec.
From Verif Require Import Pseudo PseudoSpec PseudoGraph PseudoMain PseudoTup Elbo PseudoElbo ExModel ExPseudoGraph Reals_field.
Set Implicit Arguments. Unset Strict Implicit. Unset Printing Implicit Defensive.
Import Order.TTheory GRing.Theory Num.Theory.
Local Open Scope ring_scope.

Implicit Types (m : mid) (p q : pid).

(* C54.  Measure [m'] is measure [m] conditioned on pseudo-observations: inducing points
   [o_x o] of process [o_p o] and data [d].  The numbers that [m] gives at the inducing points and
   at the data are [Kz], [Kzx] and [Kx]; [dn] is the noise of the approximate model. *)
Section ClosedForm.
Variables (R : fieldType) (D : nat -> (point R -> R) -> point R -> R) (ops : seq (op R)).
Let w := run_ops ops.
Variables (m' m : mid) (o : Machine.obs R) (d : pdata R) (ps : seq pid) (Kz Kzx Kx : dmat R).
Hypotheses (C : approximated w m' m o d ps) (Ho : o_p o \in ps) (Hd : d_p d \in ps).
Hypotheses (HKz : cov_is D w m (o_p o) (o_p o) (o_x o) (o_x o) Kz) (HKzx : cov_is D w m (o_p o) (d_p d) (o_x o) (d_x d) Kzx)
  (HKx : cov_is D w m (d_p d) (d_p d) (d_x d) (d_x d) Kx).
Let k := nr Kz.
Let n := size (d_noise d).
Let S : 'M[R]_k := mx_at Kz k k + mx_at (o_noise o) k k.
Let Cx : 'M[R]_(k, n) := mx_at Kzx k n.
Let dn : 'I_n -> R := model_noise S Cx (d_method d) (fun i => nth 0 (d_noise d) i) (fun i => ent Kx i i).

Theorem C54_graph_covariance p q x y K A B M : p \in ps -> q \in ps ->
  cov_is D w m p q x y K -> cov_is D w m (o_p o) p (o_x o) x A -> cov_is D w m (o_p o) q (o_x o) y B ->
  cov_is D w m' p q x y M ->
  [/\ S \in unitmx, model_var S Cx dn \in unitmx, nr M = nr K /\ nc M = nc K &
      mx_at M (nr K) (nc K) = model_cov S Cx dn (mx_at K (nr K) (nc K)) (mx_at A k (nr K)) (mx_at B k (nc K))].
Proof. exact (fun Hp Hq => @nested_cov R D ops m' m o d ps C Ho Hd Kz Kzx Kx HKz HKzx HKx p q x y K A B M Hp Hq). Qed.

(* They exist only where all shapes fit and the noise can be divided by. *)
Theorem C54_graph_shapes p q x y K A B M : p \in ps -> q \in ps ->
  cov_is D w m p q x y K -> cov_is D w m (o_p o) p (o_x o) x A -> cov_is D w m (o_p o) q (o_x o) y B ->
  cov_is D w m' p q x y M ->
  [/\ nc Kz = k, nr (o_noise o) = k /\ nc (o_noise o) = k, nr Kzx = k /\ nc Kzx = n, nr Kx = n /\ nc Kx = n &
    [/\ forall i, dn i != 0, nr A = k, nr B = k, nc A = nr K & nc B = nc K]].
Proof. exact (fun Hp Hq => @nested_shapes R D ops m' m o d ps C Ho Hd Kz Kzx Kx HKz HKzx HKx p q x y K A B M Hp Hq). Qed.

Theorem C54_graph_mean p x e ez ex A e' : p \in ps -> mean_is D w m p x e ->
  mean_is D w m (o_p o) (o_x o) ez -> mean_is D w m (d_p d) (d_x d) ex -> cov_is D w m (o_p o) p (o_x o) x A ->
  mean_is D w m' p x e' ->
  [/\ S \in unitmx, model_var S Cx dn \in unitmx, size e' = size e &
      \col_(i < size e) nth 0 e' i =
      model_mean S Cx dn (\col_(i < n) nth 0 ex i) (\col_(i < n) nth 0 (d_y d) i) (\col_(i < size e) nth 0 e i) (mx_at A k (size e))].
Proof. exact (@approx_means R D ops m' m o d ps C Ho Hd Kz Kzx Kx HKz HKzx HKx p x e ez ex A e'). Qed.

(* The numbers exist when the shapes fit and the matrices to invert are invertible. *)
Section Defined.
Hypotheses (c1 : nc Kz = k) (c2 : nr (o_noise o) = k) (c3 : nc (o_noise o) = k) (c4 : nr Kzx = k) (c5 : nc Kzx = n)
  (c6 : nr Kx = n) (c7 : nc Kx = n).
Hypotheses (US : S \in unitmx) (Ud : forall i, dn i != 0) (UV : model_var S Cx dn \in unitmx).
Theorem C54_graph_covariance_defined p q x y K A B : p \in ps -> q \in ps -> atom x -> atom y ->
  cov_is D w m p q x y K -> cov_is D w m (o_p o) p (o_x o) x A -> cov_is D w m (o_p o) q (o_x o) y B ->
  nr A = k -> nr B = k -> nr K = nc A -> nc K = nc B -> exists M, cov_is D w m' p q x y M.
Proof.
exact (@approx_cov_defined R D ops m' m o d ps Kz Kzx Kx C Ho Hd HKz HKzx HKx c1 c2 c3 c4 c5 c6 c7 US Ud UV p q x y K A B).
Qed.
Theorem C54_graph_mean_defined p x e ez ex A : p \in ps -> mean_is D w m p x e ->
  mean_is D w m (o_p o) (o_x o) ez -> mean_is D w m (d_p d) (d_x d) ex -> cov_is D w m (o_p o) p (o_x o) x A ->
  nr A = k -> nc A = size e -> size ez = k -> size ex = n -> size (d_y d) = n -> exists e', mean_is D w m' p x e'.
Proof.
exact (@approx_mean_defined R D ops m' m o d ps Kz Kzx Kx C Ho Hd HKz HKzx HKx c1 c2 c3 c4 c5 c6 c7 US Ud UV p x e ez ex A).
Qed.
End Defined.
End ClosedForm.
Print Assumptions C54_graph_covariance.
Print Assumptions C54_graph_shapes.
Print Assumptions C54_graph_mean.
Print Assumptions C54_graph_covariance_defined.
Print Assumptions C54_graph_mean_defined.

(* Data of f + e at 0 and 1, and an inducing point of f at 0, with noise, for each of the three
   methods. *)
Example C54_graph_example (R : rcfType) me :
  [/\ approximated (qw R me) 1 0 (qo R me) (qd R me) qps, [&& 0 \in qps & 2 \in qps]%N,
      exists Kz Kzx Kx, let S := mx_at Kz 1 1 + mx_at (one1 R) 1 1 in
        [/\ cov_is (@xD R) (qw R me) 0 0 0 (X0 R) (X0 R) Kz, cov_is (@xD R) (qw R me) 0 0 2 (X0 R) (X01 R) Kzx,
            cov_is (@xD R) (qw R me) 0 2 2 (X01 R) (X01 R) Kx, pd S &
            forall i : 'I_2, 0 < model_noise S (mx_at Kzx 1 2) me (fun i => nth 0 [:: 1; 1] i) (fun i => ent Kx i i) i],
      exists M, cov_is (@xD R) (qw R me) 1 2 2 (X01 R) (X01 R) M &
      exists e, mean_is (@xD R) (qw R me) 1 2 (X01 R) e].
Proof.
exact (And5 (qapprox1 R me) isT
  (ex_intro _ _ (ex_intro _ _ (ex_intro _ _ (And5 (qcov (qk00 R me)) (qcov (qk02 R me)) (qcov (qk22 R me)) (qpdS R me) (@qd0 R me)))))
  (qcov1 R me) (qmean1 R me)).
Qed.

Example C54_graph_nested (R : rcfType) me : let x := Tup [:: X01 R; X01 R] in exists M, cov_is (@xD R) (qw R me) 1 2 2 x x M.
Proof. exact (cov_doubled (qcov1 R me)). Qed.

(* C55.  Measure [m1] is measure [m] conditioned on pseudo-observations with the data as inducing
   points; [m2] is [m] conditioned on the data.  As in C12, the kernels and noise matrices that
   the user gives are symmetric. *)
Section AtData.
Variables (R : fieldType) (D : nat -> (point R -> R) -> point R -> R) (ops : seq (op R)).
Let w := run_ops ops.
Hypotheses (HU : forall k, given_kernel ops k -> symmetric_kernel D w k)
  (HN : forall m o, In (OCond m o) ops -> square_sym (o_noise o)) (HD : mixed_partials D ops).
Variables (m1 m2 m : mid) (d : pdata R) (N0 : dmat R) (y0 : seq R) (ps1 ps2 : seq pid).
Hypotheses (C1 : approximated w m1 m (MkObs (d_p d) (d_x d) N0 y0 (Some d)) d ps1)
  (C2 : conditioned w m2 m (Obs (d_p d) (d_x d) (ddiag (d_noise d)) (d_y d)) ps2).
Hypotheses (H1 : d_p d \in ps1) (H2 : d_p d \in ps2) (n0 : ne (d_x d) <> 0%N) (Z : zero_within N0).
Variable Kz : dmat R.
Hypothesis HKz : cov_is D w m (d_p d) (d_p d) (d_x d) (d_x d) Kz.
Theorem C55_graph_covariance p q x y K A B M1 M2 : p \in ps1 -> p \in ps2 -> q \in ps1 -> q \in ps2 ->
  cov_is D w m p q x y K -> cov_is D w m (d_p d) p (d_x d) x A -> cov_is D w m (d_p d) q (d_x d) y B ->
  cov_is D w m1 p q x y M1 -> cov_is D w m2 p q x y M2 -> same_matrix M1 M2.
Proof. exact (@nested_at_data R D ops HU HN HD m1 m2 m d N0 y0 ps1 ps2 C1 C2 H1 H2 n0 Z Kz HKz p q x y K A B M1 M2). Qed.
Theorem C55_graph_mean p x e ez A e1 e2 : p \in ps1 -> p \in ps2 ->
  mean_is D w m p x e -> mean_is D w m (d_p d) (d_x d) ez -> cov_is D w m (d_p d) p (d_x d) x A ->
  mean_is D w m1 p x e1 -> mean_is D w m2 p x e2 -> e1 = e2.
Proof. exact (@at_data_mean R D ops HU HN HD m1 m2 m d N0 y0 ps1 ps2 C1 C2 H1 H2 n0 Z Kz HKz p x e ez A e1 e2). Qed.
End AtData.
Print Assumptions C55_graph_covariance.
Print Assumptions C55_graph_mean.

Example C55_graph_example (R : rcfType) me :
  [/\ [/\ forall k, given_kernel (qops R me) k -> symmetric_kernel (@xD R) (qw R me) k,
          forall m o, In (OCond m o) (qops R me) -> square_sym (o_noise o) & mixed_partials (@xD R) (qops R me)],
      approximated (qw R me) 2 0 (MkObs 2 (X01 R) (dzero R 2 2) [::] (Some (qd R me))) (qd R me) qps,
      conditioned (qw R me) 3 0 (Obs 2 (X01 R) (ddiag [:: 1; 1]) [:: 1; 2%:R]) qps,
      (exists M, cov_is (@xD R) (qw R me) 2 2 2 (X01 R) (X01 R) M) /\ (exists M, cov_is (@xD R) (qw R me) 3 2 2 (X01 R) (X01 R) M) &
      (exists e, mean_is (@xD R) (qw R me) 2 2 (X01 R) e) /\ (exists e, mean_is (@xD R) (qw R me) 3 2 (X01 R) e)].
Proof.
exact (And5 (And3 (@q_sym R me) (@q_noise R me) (@q_partials R me)) (qapprox2 R me) (qcond3 R me)
  (conj (qcov2 R me) (qcov3 R me)) (conj (qmean2 R me) (qmean3 R me))).
Qed.

(* The evidence lower bound, in a model: [meant] processes have a random variable at each input. *)
Section Elbo.
Variables (R : rcfType) (ln : R -> R) (pi : R).
Hypotheses (LN : logarithm ln) (pi0 : 0 < pi).
Variables (W : space R) (D : nat -> (point R -> R) -> point R -> R) (G : pid -> point R -> rv W) (eps : mid -> nat -> rv W).
Variables (ops : seq (op R)) (P : mid -> pid -> Prop).
Let w := run_ops ops.
Hypotheses (Mo : model D G eps w P) (Ba : forall m p d, defined w m p d -> P m p -> basic_def d).
Variables (m : mid) (o : Machine.obs R) (d : pdata R).
Hypotheses (Zz : meant D G eps w P m (o_p o) (o_x o)) (Zx : meant D G eps w P m (d_p d) (d_x d)).

(* C54 *)
Theorem C54_graph_elbo Kz Kzx Kx ex v : cov_is D w m (o_p o) (o_p o) (o_x o) (o_x o) Kz ->
  cov_is D w m (o_p o) (d_p d) (o_x o) (d_x d) Kzx -> cov_is D w m (d_p d) (d_p d) (d_x d) (d_x d) Kx ->
  mean_is D w m (d_p d) (d_x d) ex ->
  let k := nr Kz in let n := size (d_noise d) in
  let S := mx_at Kz k k + mx_at (o_noise o) k k in let Cx := mx_at Kzx k n in
  let noise (i : 'I_n) := nth 0 (d_noise d) i in let kxd (i : 'I_n) := ent Kx i i in
  let dn := model_noise S Cx (d_method d) noise kxd in
  pd S -> (forall i, 0 < dn i) -> elbo_is ln pi D w m o d v ->
  v = mvn_logpdf ln pi (\col_i nth 0 ex i) (model_var S Cx dn) (\col_i nth 0 (d_y d) i)
      - trace_term S Cx (d_method d) noise kxd / 2%:R.
Proof. exact (fun a b c e PS d0 => @elbo_closed R ln pi LN pi0 W D G eps ops P Mo Ba m o d Zx Kz Kzx Kx ex a b c e PS d0 v). Qed.

(* The log-density of the data, with [r] the process of its finite-dimensional distribution. *)
Variables (r : pid) (Kz : dmat R) (v l : R).
Hypotheses (Dr : defined w m r (DCopy (d_p d))) (Zr : meant D G eps w P m r (d_x d)).
Hypotheses (HKz : cov_is D w m (o_p o) (o_p o) (o_x o) (o_x o) Kz) (N0 : all (fun a => 0 < a) (d_noise d)).
Hypotheses (Ev : elbo_is ln pi D w m o d v)
  (El : logpdf_is ln pi D w m r (d_x d) (ddiag (d_noise d)) (map Some (d_y d)) l).
(* C55 *)
Theorem C55_graph_elbo : o_p o = d_p d -> o_x o = d_x d -> zero_within (o_noise o) -> pd (mx_at Kz (nr Kz) (nr Kz)) -> v = l.
Proof. exact (fun ep ex Z PK => @elbo_equal R ln pi LN pi0 W D G eps ops P Mo Ba m o d Zz Zx r Kz Dr Zr ep ex Z HKz PK N0 v l Ev El). Qed.
(* C56 *)
Theorem C56_graph_lower_bound : nonneg W -> d_method d = VFE -> psd (mx_at (o_noise o) (nr Kz) (nr Kz)) ->
  pd (mx_at Kz (nr Kz) (nr Kz) + mx_at (o_noise o) (nr Kz) (nr Kz)) -> v <= l.
Proof. exact (fun NN me PN PS => @elbo_below R ln pi LN pi0 W D G eps ops P Mo Ba m o d Zz Zx r Kz Dr Zr HKz N0 v l NN me PN PS Ev El). Qed.
End Elbo.
Print Assumptions C54_graph_elbo.
Print Assumptions C55_graph_elbo.
Print Assumptions C56_graph_lower_bound.

(* The same model; [pseudo_logarithm] of P_Pseudo.v shows that there is a logarithm. *)
Example elbo_graph_example (R : rcfType) (ln : R -> R) (pi : R) me :
  [/\ exists (W : space R) G (eps : mid -> nat -> rv W),
        [/\ nonneg W, model (@xD R) G eps (qw R me) everywhere,
            meant (@xD R) G eps (qw R me) everywhere 0 0 (X0 R), meant (@xD R) G eps (qw R me) everywhere 0 2 (X01 R) &
            meant (@xD R) G eps (qw R me) everywhere 0 3 (X01 R)],
      (forall m p d, defined (qw R me) m p d -> basic_def d) /\ defined (qw R me) 0 3 (DCopy 2),
      (exists v, elbo_is ln pi (@xD R) (qw R me) 0 (qo R me) (qd R me) v) /\
      (exists v, elbo_is ln pi (@xD R) (qw R me) 0 (qo2 R me) (qd R me) v),
      exists l, logpdf_is ln pi (@xD R) (qw R me) 0 3 (X01 R) (ddiag [:: 1; 1]) (map Some [:: 1; 2%:R]) l &
      (exists2 Kz, cov_is (@xD R) (qw R me) 0 0 0 (X0 R) (X0 R) Kz & pd (mx_at Kz 1 1 + mx_at (one1 R) 1 1)) /\
      (exists2 Kz, cov_is (@xD R) (qw R me) 0 2 2 (X01 R) (X01 R) Kz & pd (mx_at Kz 2 2))].
Proof.
exact (And5 (q_in_model R me) (conj (@qbasic R me) (qdef R me)) (conj (qelbo me ln pi) (qelbo2 me ln pi)) (qlogpdf me ln pi)
  (conj (ex_intro2 _ _ _ (qcov (qk00 R me)) (qpdS R me)) (ex_intro2 _ _ _ (qcov (qk22 R me)) (qpdK R me)))).
Qed.
