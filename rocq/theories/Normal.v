(* Model of stheno/random.py: the functions of Normal on resolved means and variances (the
   lazy accessors are in NormalLazy.v).

   Vectors and matrices are mathcomp's, with entries in a real closed field; [ln] and [pi] are
   arguments.  A missing value (NaN) is [None].  B.cholesky is [cholesky] of MatrixFacts.v, and
   the other functions of the package matrix are modelled as that package computes them for
   dense matrices, through Cholesky factors.  There are no batches and no data types. *)
From mathcomp Require Import all_ssreflect all_algebra.
From Verif Require Import MatrixFacts NormalSpec RV.
Set Implicit Arguments. Unset Strict Implicit. Unset Printing Implicit Defensive.
Import Order.TTheory GRing.Theory Num.Theory.
Local Open Scope ring_scope.

Section Normal.
Variables (R : rcfType) (ln : R -> R) (pi : R).

(* B.logdet, B.iqf_diag, B.ratio. *)
Definition logdet n (A : 'M[R]_n) : R := 2%:R * \sum_i ln (cholesky A i i).
Definition iqf_diag n c (A : 'M[R]_n) (B : 'M[R]_(n, c)) (j : 'I_c) : R :=
  let X := invmx (cholesky A) *m B in \sum_i X i j ^+ 2.
Definition ratio n (A B : 'M[R]_n) : R := \sum_j iqf_diag B (cholesky A) j.
Definition log_2_pi : R := ln (2%:R * pi).

(* random.py:47-94 *)
Record normal (n : nat) := Normal { mean : 'cV[R]_n; var : 'M[R]_n }.

(* random.py:204-227; [B.squeeze] turns the column into a vector. *)
Definition marginals n (p : normal n) : ('I_n -> R) * ('I_n -> R) :=
  (fun i => mean p i 0, fun i => Num.max (var p i i) 0).
(* random.py:229-238 *)
Definition credible_bounds n (p : normal n) : ('I_n -> R) * ('I_n -> R) * ('I_n -> R) :=
  let (m, v) := marginals p in
  let error i := 196%:R / 100%:R * Num.sqrt (v i) in
  (m, fun i => m i - error i, fun i => m i + error i).
(* random.py:240-246 *)
Definition diagonalise n (p : normal n) : normal n := Normal (mean p) (diag_mx (\row_i var p i i)).

(* random.py:263-280: one column; a missing value makes the result NaN. *)
Definition logpdf_col n c (p : normal n) (x : 'M[option R]_(n, c)) (j : 'I_c) : option R :=
  if [forall i, isSome (x i j)] then
    let y : 'M[R]_(n, c) := \matrix_(i, k) odflt 0 (x i k) in
    let d := y - \matrix_(i, k) mean p i 0 in
    Some (- (logdet (var p) + n%:R * log_2_pi + iqf_diag (var p) d j) / 2%:R)
  else None.
Definition logpdf_cols n c (p : normal n) (x : 'M[option R]_(n, c)) : squeezed (option R) :=
  let l := [seq logpdf_col p x j | j <- enum 'I_c] in
  if l is [:: a] then One a else Many l.
(* random.py:248-280; the recursive call has no missing values. *)
Definition logpdf n c : normal n -> 'M[option R]_(n, c) -> squeezed (option R) :=
  match c with
  | 1 => fun p x =>
    let available := [seq i <- enum 'I_n | isSome (x i 0)] in
    if [forall i, isSome (x i 0)] then logpdf_cols p x else
    let f := tnth (in_tuple available) in
    logpdf_cols (Normal (rowsub f (mean p)) (mxsub f f (var p))) (rowsub f x)
  | _ => fun p x => logpdf_cols p x
  end.

(* random.py:282-291 *)
Definition entropy n (p : normal n) : R := (logdet (var p) + n%:R * (log_2_pi + 1)) / 2%:R.

(* random.py:293-310 *)
Definition kl n (p q : normal n) : R :=
  (iqf_diag (var q) (mean q - mean p) 0 + ratio (var p) (var q) + logdet (var q) - logdet (var p) - n%:R) / 2%:R.

(* random.py:312-329; [root] is B.root. *)
Definition w2 (root : forall n, 'M[R]_n -> 'M[R]_n) n (p q : normal n) : R :=
  let var_root := root n (var p) in
  let r := root n (var_root *m var q *m var_root) in
  let var_part := \tr (var p) + \tr (var q) - 2%:R * \tr r in
  let mean_part := \sum_i (mean p - mean q) i 0 ^+ 2 in
  Num.sqrt (Num.max (mean_part + var_part) 0).

(* random.py:365-393 and 18-37; [c] is a column. *)
Definition nadd_const n (p : normal n) (c : 'cV[R]_n) : normal n := Normal (mean p + c) (var p).
Definition nadd n (p q : normal n) : normal n := Normal (mean p + mean q) (var p + var q).
Definition nmul n (p : normal n) (a : R) : normal n := Normal (a *: mean p) ((a * a) *: var p).
Definition nlmatmul n k (B : 'M[R]_(k, n)) (p : normal n) : normal k := Normal (B *m mean p) (B *m var p *m B^T).
Definition nrmatmul n k (B : 'M[R]_(n, k)) (p : normal n) : normal k := Normal (B^T *m mean p) (B^T *m var p *m B).
Definition nneg n (p : normal n) : normal n := nmul p (-1).
Definition nsub n (p q : normal n) : normal n := nadd p (nneg q).
Definition nsub_const n (p : normal n) (c : 'cV[R]_n) : normal n := nadd_const p (- c).
Definition nrsub_const n (c : 'cV[R]_n) (p : normal n) : normal n := nadd_const (nneg p) c.
Definition ndiv n (p : normal n) (a : R) : normal n := nmul p (1 / a).

(* random.py:331-363.  [randn st n num] is the next random state and a matrix of standard
   normal variables.  B.sample multiplies it with the Cholesky factor. *)
Section Sample.
Variable state : Type.
Variable randn : state -> forall n num, state * 'M[R]_(n, num).
Definition mean_is_zero n (p : normal n) : bool := mean p == 0.
Definition sample n (p : normal n) (st : state) (num : nat) (noise : option R) (zero : bool) : state * 'M[R]_(n, num) :=
  let v := if noise is Some e then var p + e%:M else var p in
  let (st', z) := randn st n num in
  let s := cholesky v *m z in
  (st', if zero then s else s + \matrix_(i, j) mean p i 0).
(* random.py:356-363: the global random state is read and written. *)
Definition sample_global n (p : normal n) (num : nat) (noise : option R) (zero : bool) (global : state) :
  'M[R]_(n, num) * state :=
  let (st', s) := sample p global num noise zero in (s, st').
End Sample.
End Normal.
