(* Vocabulary for the statements about normal distributions (P_Normal.v): definite matrices,
   logarithms and the closed forms. *)
From mathcomp Require Import all_ssreflect all_algebra.
Set Implicit Arguments. Unset Strict Implicit. Unset Printing Implicit Defensive.
Import Order.TTheory GRing.Theory Num.Theory.
Local Open Scope ring_scope.

(* Logarithms: products become sums, and [ln x] lies strictly below [x - 1] but at 1. *)
Record logarithm (R : realFieldType) (ln : R -> R) : Prop := Logarithm {
  ln_mul : forall x y, 0 < x -> 0 < y -> ln (x * y) = ln x + ln y;
  ln_lt : forall x, 0 < x -> x != 1 -> ln x < x - 1 }.

(* A scalar or a list; lists of length one are scalars. *)
Inductive squeezed (A : Type) : Type := One of A | Many of seq A.
Definition squeeze (A : Type) (l : seq A) : squeezed A := if l is [:: a] then One a else Many l.

Section NormalSpec.
Variable R : realFieldType.
(* The quadratic form v^T A v. *)
Definition qf n (A : 'M[R]_n) (v : 'cV[R]_n) : R := (v^T *m A *m v) 0 0.
Definition psd n (A : 'M[R]_n) : Prop := A^T = A /\ forall v, 0 <= qf A v.
Definition pd n (A : 'M[R]_n) : Prop := A^T = A /\ forall v, v != 0 -> 0 < qf A v.

(* Squared Euclidean length. *)
Definition norm2 n (v : 'cV[R]_n) : R := \sum_i v i 0 ^+ 2.

(* The logarithm of the density of the normal distribution with mean [m] and variance [V]. *)
Definition mvn_logpdf (ln : R -> R) (pi : R) n (m : 'cV[R]_n) (V : 'M[R]_n) (x : 'cV[R]_n) : R :=
  - (ln (\det V) + n%:R * ln (2%:R * pi) + qf (invmx V) (x - m)) / 2%:R.

(* [S] is the square root of [A]. *)
Definition is_root n (A S : 'M[R]_n) : Prop := psd S /\ S *m S = A.

(* The variance of a vector to which independent noise is added, if any. *)
Definition noisy n (S : 'M[R]_n) (noise : option R) : 'M[R]_n := if noise is Some e then S + e%:M else S.
End NormalSpec.
