(* Vocabulary for the statements about pseudo-point approximations (P_Pseudo.v): the closed
   forms of the literature. *)
From mathcomp Require Import all_ssreflect all_algebra.
From Verif Require Import Graph.
Set Implicit Arguments. Unset Strict Implicit. Unset Printing Implicit Defensive.
Import Order.TTheory GRing.Theory Num.Theory.
Local Open Scope ring_scope.

Section Spec.
Variables (R : fieldType) (k n : nat).
Variables (K_z : 'M[R]_k) (K_zx : 'M[R]_(k, n)).

(* Q_ab = K_az K_z^-1 K_zb. *)
Definition nystrom a b (K_za : 'M[R]_(k, a)) (K_zb : 'M[R]_(k, b)) : 'M[R]_(a, b) :=
  K_za^T *m invmx K_z *m K_zb.
(* The noise of the approximate model: FITC corrects the diagonal. *)
Definition model_noise (me : method) (noise kxd : 'I_n -> R) (i : 'I_n) : R :=
  match me with FITC => noise i + (kxd i - nystrom K_zx K_zx i i) | VFE | DTC => noise i end.
(* The covariance matrix of the data in the approximate model. *)
Definition model_var (d : 'I_n -> R) : 'M[R]_n := nystrom K_zx K_zx + diag_mx (\row_i d i).
(* Posterior covariance and mean in the approximate model. *)
Definition model_cov (d : 'I_n -> R) a b (K_st : 'M[R]_(a, b)) (K_zs : 'M[R]_(k, a)) (K_zt : 'M[R]_(k, b)) :=
  K_st - nystrom K_zs K_zx *m invmx (model_var d) *m nystrom K_zx K_zt.
Definition model_mean (d : 'I_n -> R) (mx y : 'cV[R]_n) a (ms : 'cV[R]_a) (K_zs : 'M[R]_(k, a)) : 'cV[R]_a :=
  ms + nystrom K_zs K_zx *m invmx (model_var d) *m (y - mx).
(* The trace term of VFE. *)
Definition trace_term (me : method) (noise kxd : 'I_n -> R) : R :=
  match me with VFE => \sum_i (kxd i - nystrom K_zx K_zx i i) / noise i | FITC | DTC => 0 end.

(* Exact posterior given the covariance matrix [S] of the noisy data. *)
Definition exact_cov (S : 'M[R]_n) a b (K_st : 'M[R]_(a, b)) (K_xs : 'M[R]_(n, a)) (K_xt : 'M[R]_(n, b)) :=
  K_st - K_xs^T *m invmx S *m K_xt.
Definition exact_mean (S : 'M[R]_n) (mx y : 'cV[R]_n) a (ms : 'cV[R]_a) (K_xs : 'M[R]_(n, a)) : 'cV[R]_a :=
  ms + K_xs^T *m invmx S *m (y - mx).
End Spec.

(* The matrix with the diagonal [s]. *)
Definition ddiag (R : fieldType) (s : seq R) : dmat R := DMat (size s) (size s) (fun i j => if i == j then nth 0 s i else 0).
