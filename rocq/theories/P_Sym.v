(* C12 for all models.  Statements use ModelSpec.v and SymSpec.v; all proofs are elsewhere. *)
From Coq Require Import List.
From mathcomp Require Import all_ssreflect all_algebra.
From Verif Require Import Graph Machine Refine Worlds Eval GraphSpec RV ModelSpec ExModel ProdEx SymSpec SymThms SymEx.
Set Implicit Arguments. Unset Strict Implicit. Unset Printing Implicit Defensive.
Import GRing.Theory Num.Theory.
Local Open Scope ring_scope.

Implicit Types (m : mid) (p q : pid).

(* C12. In every measure, the matrix of two processes at two inputs is the transpose of the
   matrix of the processes and inputs in the other order: whichever operations have been
   done and in whichever order, including [add_gp], products of processes, derivatives and
   GPs that are constructed late.  It is assumed that the kernels and noise matrices that the
   user gives are symmetric, and that derivatives of covariance functions commute. *)
Theorem C12_symmetric (R : fieldType) (D : nat -> (point R -> R) -> point R -> R) (ops : seq (op R)) :
  let w := run_ops ops in
  (forall k, given_kernel ops k -> symmetric_kernel D w k) ->
  (forall m o, In (OCond m o) ops -> square_sym (o_noise o)) -> mixed_partials D ops ->
  forall m p q x y M M', cov_is D w m p q x y M -> cov_is D w m q p y x M' -> transposed M M'.
Proof. exact (fun HU HN HD m p q x y M M' => @all_symmetric R D ops HU HN HD m p q x y M M'). Qed.
Print Assumptions C12_symmetric.

(* A GP, a process with a rule of the user, their product, its derivative, a Cartesian
   product, a GP that is constructed later, conditioning, and a sum. *)
Example C12_symmetric_example (R : realFieldType) : let w := yw R in
  [/\ forall k, given_kernel (yops R) k -> symmetric_kernel (@eD R) w k,
      forall m o, In (OCond m o) (yops R) -> square_sym (o_noise o), mixed_partials (@eD R) (yops R),
      (exists M, cov_is (@eD R) w 0 8 9 (X01 R) (X1 R) M) /\ (exists M, cov_is (@eD R) w 0 9 8 (X1 R) (X01 R) M) &
      [/\ exists M, cov_is (@eD R) w 0 8 8 (X01 R) (Fdd 7 (X1 R)) M,
          exists M, cov_is (@eD R) w 0 8 8 (Fdd 7 (X1 R)) (X01 R) M,
          exists M, cov_is (@eD R) w 0 10 2 (X01 R) (X1 R) M &
          exists M, cov_is (@eD R) w 0 2 10 (X1 R) (X01 R) M]].
Proof.
exact (And5 (@y_sym R) (@y_noise R) (@y_partials R) (conj (ye1 R) (ye2 R)) (And4 (ye3 R) (ye4 R) (ye5 R) (ye6 R))).
Qed.
