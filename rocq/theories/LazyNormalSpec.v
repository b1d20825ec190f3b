(* Vocabulary for the statements about lazy distributions (P_LazyNormal.v). *)
From mathcomp Require Import all_ssreflect all_algebra.
From Verif Require Import NormalLazy.
Set Implicit Arguments. Unset Strict Implicit. Unset Printing Implicit Defensive.
Import Order.TTheory GRing.Theory Num.Theory.
Local Open Scope ring_scope.

Section Spec.
Variables (R : realFieldType) (n : nat).

(* The column vector that a mean stands for; the number 0 stands for zeros. *)
Definition stands_for (x : mval R n) (m : 'cV[R]_n) : Prop :=
  match x with MScalar0 | MZero => m = 0 | MVec v => m = v end.
Definition is_column (x : mval R n) : Prop := x <> MScalar0.

(* [o] was constructed for the mean [m] and the variance [V]: from values, or from functions
   of which those that are given agree. *)
Inductive distribution (o : obj R n) (m : 'cV[R]_n) (V : 'M[R]_n) : Prop :=
| by_values x : o = normal_direct x V -> stands_for x m -> distribution o m V
| by_functions x d mv md : o = normal_lazy x V d mv md -> stands_for x m ->
    (forall f, d = Some f -> forall i, f i = V i i) ->
    (forall x' v, mv = Some (x', v) -> stands_for x' m /\ v = V) ->
    (forall x' f, md = Some (x', f) -> stands_for x' m /\ forall i, f i = V i i) -> distribution o m V.

(* [r] is the right answer to the access [a]. *)
Definition right (m : 'cV[R]_n) (V : 'M[R]_n) (a : access) (r : answer R n) : Prop :=
  match a, r with
  | AMean, RMean x => stands_for x m /\ is_column x
  | AZero, RZero b => b -> m = 0
  | AVar, RVar v => v = V
  | ADiag, RDiag d => forall i, d i = V i i
  | AMeanVar, RMeanVar x v => stands_for x m /\ v = V
  | AM2, RM2 v => forall i j, v i j = V i j + m i 0 * m j 0
  | AMarginals, RMarginals x d => stands_for x m /\ forall i, d i = Num.max (V i i) 0
  | ADiagonalise, RDiagonalise x d => [/\ stands_for x m, is_column x & forall i, d i = V i i]
  | _, _ => False
  end.
Definition all_right (m : 'cV[R]_n) (V : 'M[R]_n) (l : seq access) (rs : seq (answer R n)) : Prop :=
  List.Forall2 (right m V) l rs.
(* The mean is represented by [x] in every answer. *)
Definition same_mean (x : mval R n) (r : answer R n) : Prop :=
  match r with RMean y | RMeanVar y _ | RMarginals y _ | RDiagonalise y _ => y = x | _ => True end.
(* The mean was given as the number 0 or as a matrix of type Zero, and mean_is_zero is [b]. *)
Definition zero_given (x : mval R n) : bool := if x is MVec _ then false else true.
Definition flag_is (b : bool) (r : answer R n) : Prop := if r is RZero b' then b' = b else True.

(* The variance of the noise. *)
Definition noise_var (e : noise R n) (i j : 'I_n) : R :=
  match e with
  | NoNoise => 0
  | NScalar a => if i == j then a else 0
  | NVector d => if i == j then d i else 0
  | NMatrix A => A i j
  end.
End Spec.
