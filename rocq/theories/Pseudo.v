(* Model of the pseudo-point approximations of stheno/model/observations.py and of the caches
   of observations.

   A measure is represented by the matrices that it gives for the observations ([data]), and by
   its id.  Matrices have entries in a real closed field; [ln] and [pi] are arguments.  Dense
   matrices are inverted through Cholesky factors, diagonal matrices entry by entry. *)
From mathcomp Require Import all_ssreflect all_algebra.
From Verif Require Import MatrixFacts Graph Normal.
Set Implicit Arguments. Unset Strict Implicit. Unset Printing Implicit Defensive.
Import Order.TTheory GRing.Theory Num.Theory.
Local Open Scope ring_scope.

(* The types of noise matrices; only Diagonal is accepted (observations.py:294-299). *)
Inductive noise_matrix (R : Type) (n : nat) := Diagonal of 'I_n -> R | Zero | Dense of 'M[R]_n.
Arguments Zero {R n}.

Section Compute.
Variables (R : rcfType) (ln : R -> R) (pi : R).
Variables (k n : nat).

(* What a measure gives: the kernel matrices of the inducing points (without their noise), of
   the inducing points and the data, the diagonal (elwise) of that of the data, and means. *)
Record data := Data {
  K_zz : 'M[R]_k;
  K_zx : 'M[R]_(k, n);
  K_x_diag : 'I_n -> R;
  mean_z : 'cV[R]_k;
  mean_x : 'cV[R]_n }.
(* The observations: observations.py:190-207. *)
Record obs := PseudoObs {
  noise_z : 'M[R]_k;
  noise_x : noise_matrix R n;
  y : 'cV[R]_n;
  meth : method }.

(* B.iqf of package matrix: dense and diagonal. *)
Definition iqf m a b (A : 'M[R]_m) (B : 'M[R]_(m, a)) (C : 'M[R]_(m, b)) : 'M[R]_(a, b) :=
  (invmx (cholesky A) *m B)^T *m (invmx (cholesky A) *m C).
Definition iqf_diagonal m a b (d : 'I_m -> R) (B : 'M[R]_(m, a)) (C : 'M[R]_(m, b)) : 'M[R]_(a, b) :=
  B^T *m (\matrix_(i, j) (C i j / d i)).

(* observations.py:286-287 *)
Definition compute_K_z (o : obs) (m : data) : 'M[R]_k := K_zz m + noise_z o.

(* observations.py:301-336: the attributes A, mu and elbo. *)
Record values := Values { v_A : 'M[R]_k; v_mu : 'cV[R]_k; v_elbo : R }.
Definition compute (o : obs) (noise : 'I_n -> R) (m : data) : values :=
  let K_z := compute_K_z o m in
  let L_z := cholesky K_z in
  let iLz_Kzx := invmx L_z *m K_zx m in
  let Q_x_diag i := \sum_j iLz_Kzx j i * iLz_Kzx j i in
  let correction i := K_x_diag m i - Q_x_diag i in
  let K_n := match meth o with FITC => fun i => noise i + correction i | _ => noise end in
  let trace_part := match meth o with VFE => \sum_i correction i / K_n i | _ => 0 end in
  let A := 1%:M + iqf_diagonal K_n iLz_Kzx^T iLz_Kzx^T in
  let y_bar := y o - mean_x m in
  let prod_y_bar := iqf_diagonal K_n iLz_Kzx^T y_bar in
  let mu := mean_z m + iqf A L_z^T prod_y_bar in
  let det_part := \sum_i ln (2%:R * pi * K_n i) + logdet ln A in
  let iqf_part := (iqf_diagonal K_n y_bar y_bar) 0 0 - iqf_diag A prod_y_bar 0 in
  Values (L_z *m A *m L_z^T) mu (- (det_part + iqf_part + trace_part) / 2%:R).

(* observations.py:255-277 with mlkernels' PosteriorKernel, SubspaceKernel and PosteriorMean:
   the posterior covariance between two processes at inputs, given their prior covariance
   [K_st] and their covariances [K_zs] and [K_zt] with the inducing points. *)
Definition posterior_cov a b (K_z A : 'M[R]_k) (K_st : 'M[R]_(a, b)) (K_zs : 'M[R]_(k, a)) (K_zt : 'M[R]_(k, b)) :
  'M[R]_(a, b) := K_st - iqf K_z K_zs K_zt + iqf A K_zs K_zt.
Definition posterior_mean a (K_z : 'M[R]_k) (mu mean_z : 'cV[R]_k) (mean_s : 'cV[R]_a) (K_zs : 'M[R]_(k, a)) :
  'cV[R]_a := mean_s + iqf K_z K_zs (mu - mean_z).
End Compute.

