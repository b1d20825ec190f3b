(* The log-density of observations under a measure: stheno/model/measure.py:463-489.

   [self(fdd)] (measure.py:144-146 and 152-154) first makes the process [r], the copy of the
   process of the FDD in the measure [m] (the operation [OCopy] of Machine.v), and then calls it
   on the input and the noise of the FDD.  The distribution of this FDD is given by the mean and
   the kernel of [r] and by the noise (fdd.py:67-83), and [logpdf] is that of Normal.v.

   Values are one column; [None] is a missing value.  Shapes that do not fit have no value here,
   i.e. there is no broadcasting. *)
From mathcomp Require Import all_ssreflect all_algebra.
From Verif Require Import Graph Machine Refine GraphSpec ModelSpec NormalSpec Normal.
Set Implicit Arguments. Unset Strict Implicit. Unset Printing Implicit Defensive.
Import GRing.Theory.
Local Open Scope ring_scope.

Section LogPdf.
Variables (R : rcfType) (ln : R -> R) (pi : R).
Variable D : nat -> (point R -> R) -> point R -> R.

(* fdd.py:67-83 *)
Definition fdd_normal (n : nat) (e : seq R) (K N : dmat R) : normal R n :=
  Normal (\col_(i < n) nth 0 e i) (mx_at K n n + mx_at N n n).

(* measure.py:480 and 484; [r] is the copy that [self(fdd)] made, [x] and [N] are the input and
   the noise of the FDD, and [y] are the values. *)
Definition logpdf_is (w : world R) (m : mid) (r : pid) (x : input R) (N : dmat R)
  (y : seq (option R)) (v : R) : Prop :=
  exists n e K, [/\ mean_is D w m r x e, cov_is D w m r r x x K,
    [/\ size e = n, nr N = n, nc N = n & size y = n] &
    logpdf ln pi (fdd_normal n e K N) (\col_(i < n) nth None y i) = One (Some v)].
End LogPdf.
