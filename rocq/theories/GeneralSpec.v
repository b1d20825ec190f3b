(* What is assumed of processes and matrices in the theorems for all models. *)
From Coq Require Import List.
From mathcomp Require Import all_ssreflect all_algebra.
From Verif Require Import Graph Machine Refine GraphSpec RV Typing ModelSpec ExactSpec.
Set Implicit Arguments. Unset Strict Implicit. Unset Printing Implicit Defensive.
Import GRing.Theory.
Local Open Scope ring_scope.

Section GeneralSpec.
Variable R : fieldType.
Variable D : nat -> (point R -> R) -> point R -> R.
Variables (dif : bool) (ops : seq (op R)).
Let w := run_ops ops.

(* The process is [covered], and the numbers of values match in it at [x]. *)
Definition known (m : mid) (p : pid) (x : input R) : Prop :=
  [/\ (m < w_nm w)%N, covered dif ops m (w_log w m) p & widths dif (w_log w m) p x <> None].

(* [M] is the covariance matrix that is computed for [p] at [x] and [q] at [y], and its shape is
   as it should be.  The variance of a process always has this shape (C52_own_shape_partial); a
   covariance matrix may be smaller (C52_late_gp_refuted). *)
Definition full (m : mid) (p q : pid) (x y : input R) (M : dmat R) : Prop :=
  [/\ (m < w_nm w)%N, cov_is D w m p q x y M, widths dif (w_log w m) p x = Some (nr M) &
      widths dif (w_log w m) q y = Some (nc M)].
End GeneralSpec.
