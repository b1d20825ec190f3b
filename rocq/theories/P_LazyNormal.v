(* Theorems about lazy distributions: C37, C38.  Statements use LazyNormalSpec.v; all proofs
   are elsewhere. *)
From mathcomp Require Import all_ssreflect all_algebra.
From Verif Require Import NormalLazy LazyNormalSpec LazyNormalThms LazyZero.
Set Implicit Arguments. Unset Strict Implicit. Unset Printing Implicit Defensive.
Import Order.TTheory GRing.Theory Num.Theory.
Local Open Scope ring_scope.

Section LazyNormal.
Variables (R : realFieldType) (n : nat).

(* C37: the mean of the process at the inputs is [x], its covariance matrix is [k]. *)
Theorem C37_noise (x : mval R n) (k : 'M[R]_n) d (e : noise R n) l : (forall i, d i = k i i) ->
  exists rs, ask (fdd x k d e) l = Some rs /\ all_right (column x) (k + \matrix_(i, j) noise_var e i j) l rs.
Proof. exact (fdd_right x e l (k:=k) (d:=d)). Qed.

(* C38: in every order of accesses, up to the representation of a mean that is zero. *)
Theorem C38_accessors_partial (o : obj R n) m V l : distribution o m V ->
  exists rs, ask o l = Some rs /\ all_right m V l rs.
Proof. exact (distribution_right l (o:=o) (m:=m) (V:=V)). Qed.
(* Finite-dimensional distributions return the same mean in every answer. *)
Theorem C38_fdd (x : mval R n) (k : 'M[R]_n) d (e : noise R n) l : (forall i, d i = k i i) -> is_column x ->
  exists rs, ask (fdd x k d e) l = Some rs /\ List.Forall (same_mean x) rs.
Proof. exact (fdd_same e l (x:=x) (k:=k) (d:=d)). Qed.
(* mean_is_zero tells how the mean was given, whatever was accessed before. *)
Theorem C38_mean_is_zero_values (x : mval R n) V l rs : ask (normal_direct x V) l = Some rs ->
  List.Forall (flag_is (zero_given x)) rs.
Proof. exact (zero_direct (x:=x) (V:=V) (l:=l) (rs:=rs)). Qed.
Theorem C38_mean_is_zero_functions (x : mval R n) V d mv md l rs b :
  zero_given x = b -> (forall y v, mv = Some (y, v) -> zero_given y = b) ->
  (forall y f, md = Some (y, f) -> zero_given y = b) ->
  ask (normal_lazy x V d mv md) l = Some rs -> List.Forall (flag_is b) rs.
Proof. exact (zero_lazy (x:=x) (V:=V) (d:=d) (mv:=mv) (md:=md) (l:=l) (rs:=rs) (b:=b)). Qed.
Theorem C38_mean_is_zero_fdd (x : mval R n) (k : 'M[R]_n) d (e : noise R n) l rs :
  ask (fdd x k d e) l = Some rs -> List.Forall (flag_is (zero_given x)) rs.
Proof. exact (zero_fdd (x:=x) (k:=k) (d:=d) (e:=e) (l:=l) (rs:=rs)). Qed.
(* The mean is the number 0 in mean_var before the first access to mean, and a vector after. *)
Theorem C38_scalar_mean_refuted : exists (o : obj R n) m V, distribution o m V /\
  ask o [:: AMeanVar; AMean; AMeanVar] = Some [:: RMeanVar MScalar0 V; RMean (MVec 0); RMeanVar (MVec 0) V].
Proof. exact (scalar_mean R n). Qed.
End LazyNormal.

Example lazy_exists (R : realFieldType) : exists (x : mval R 2) (k : 'M[R]_2) d,
  [/\ forall i, d i = k i i, is_column x, k 0 1 <> 0 & column x <> 0].
Proof. exact (ex_lazy R). Qed.
Example zero_flags_exist (R : realFieldType) (n : nat) : exists (o : obj R n) V, distribution o 0 V /\
  ask o [:: AZero; AMean; AZero] = Some [:: RZero R n true; RMean (MVec 0); RZero R n true] /\
  exists (o' : obj R n), distribution o' 0 V /\ ask o' [:: AZero] = Some [:: RZero R n false].
Proof. exact (zero_ex R n). Qed.

Print Assumptions C37_noise.
Print Assumptions C38_accessors_partial.
Print Assumptions C38_fdd.
Print Assumptions C38_mean_is_zero_values.
Print Assumptions C38_mean_is_zero_functions.
Print Assumptions C38_mean_is_zero_fdd.
Print Assumptions C38_scalar_mean_refuted.
