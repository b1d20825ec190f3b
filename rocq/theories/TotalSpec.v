(* Vocabulary for the statements about which evaluations succeed (P_Total.v). *)
From mathcomp Require Import all_ssreflect all_algebra.
From Verif Require Import Graph Machine Refine GraphSpec Typing ModelSpec PseudoSpec.
Set Implicit Arguments. Unset Strict Implicit. Unset Printing Implicit Defensive.
Import GRing.Theory Num.Theory.
Local Open Scope ring_scope.

Section TotalSpec.
Variable R : fieldType.
Notation world := (world R). Notation input := (input R). Notation point := (point R).

(* No array and no tuple in the input is empty. *)
Fixpoint filled (x : input) : bool :=
  match x with
  | Num xs => (0 < size xs)%N
  | Fdd _ x' => filled x'
  | Tup xs => (0 < size xs)%N && all filled xs
  end.
(* An array, or an FDD at an array. *)
Definition flat (x : input) : bool :=
  match x with Num _ | Fdd _ (Num _) => filled x | _ => false end.

Variable D : nat -> (point -> R) -> point -> R.
(* The user's kernels and means give a matrix, or a vector, of the right size at all arrays. *)
Definition total_kernel (k : kexp R) : Prop :=
  forall rdk rdm xs ys, (0 < size xs)%N -> (0 < size ys)%N -> exists n M,
    [/\ evk rdk rdm D n k (Num xs) (Num ys) = Some M, nr M = size xs & nc M = size ys].
Definition total_mean (mu : mexp R) : Prop :=
  forall rdk rdm xs, (0 < size xs)%N -> exists n v,
    evm rdk rdm D n mu (Num xs) = Some v /\ size v = size xs.
Definition total_call (o : op R) : Prop :=
  match o with
  | OGP _ mu k => total_mean mu /\ total_kernel k
  | OUser _ _ _ _ _ => False
  | _ => True
  end.
(* The same, without pseudo-observations. *)
Definition total_op (o : op R) : Prop :=
  match o with OCond _ o' => o_data o' = None | _ => total_call o end.

(* After the first Cartesian product, only copies, sums, multiples, selections and
   transformations of inputs, products and conditioning follow. *)
Definition is_strict (o : op R) : bool :=
  match o with
  | OGP _ _ _ | OUser _ _ _ _ _ | OMul _ _ _ | OAddC _ _ | OMulF _ _ | OShift _ _ | OStretch _ _ | ODiff _ _ => true
  | _ => false
  end.
Fixpoint cross_last (ops : seq (op R)) : bool :=
  match ops with
  | [::] => true
  | o :: ops' => if o is OCross _ _ then ~~ has is_strict ops' else cross_last ops'
  end.

(* Processes whose means accept tuples: products and what is built from them. *)
Fixpoint tuples (h : hist R) (p : pid) : bool :=
  match h with
  | HRoot => false
  | HPost _ par _ => tuples par p
  | HAdd r d rest =>
    if p == r then
      match d with
      | DCross _ => true
      | DCopy q | DScale q _ => tuples rest q
      | DSum a b => tuples rest a && tuples rest b
      | _ => false
      end
    else tuples rest p
  end.
Definition mean_input (h : hist R) (p : pid) (x : input) : bool :=
  if x is Tup xs then [&& (0 < size xs)%N, all flat xs & tuples h p] else flat x.

(* The sizes of the observations agree. *)
Definition fits (dif : bool) (w : world) (m : mid) (o : obs R) (k : nat) : Prop :=
  [/\ mean_input (w_log w m) (o_p o) (o_x o), widths dif (w_log w m) (o_p o) (o_x o) = Some k,
      nr (o_noise o) = k, nc (o_noise o) = k & size (o_y o) = k].
(* Observations that can be conditioned on: there are none, or their sizes agree and the
   covariance matrix of the data with the noise is invertible. *)
Definition usable (w : world) (m : mid) (o : obs R) : Prop :=
  ne (o_x o) = 0%N \/
  exists2 k, fits true w m o k &
    forall K, cov_is D w m (o_p o) (o_p o) (o_x o) (o_x o) K ->
      mx_at K k k + mx_at (o_noise o) k k \in unitmx.
(* The same for pseudo-observations, with [k] inducing variables and [n] data. *)
Definition fits_pseudo (dif : bool) (w : world) (m : mid) (o : obs R) (d : pdata R) (k n : nat) : Prop :=
  [/\ mean_input (w_log w m) (o_p o) (o_x o), widths dif (w_log w m) (o_p o) (o_x o) = Some k,
      nr (o_noise o) = k & nc (o_noise o) = k] /\
  [/\ mean_input (w_log w m) (d_p d) (d_x d), widths dif (w_log w m) (d_p d) (d_x d) = Some n,
      size (d_noise d) = n & size (d_y d) = n].
(* Everything that was conditioned on has the right size. *)
Definition sizes_fit (dif : bool) (w : world) : Prop :=
  (forall m m' o ps, conditioned w m' m o ps -> ne (o_x o) = 0%N \/ exists k, fits dif w m o k) /\
  (forall m m' o d ps, approximated w m' m o d ps -> exists k n, fits_pseudo dif w m o d k n).
(* Pseudo-observations that can be conditioned on: the sizes agree, the covariance matrix of the
   inducing variables with their noise is invertible, no noise variance of the approximate model
   is zero, and its covariance matrix of the data is invertible. *)
Definition usable_pseudo (w : world) (m : mid) (o : obs R) (d : pdata R) : Prop :=
  exists k n, fits_pseudo true w m o d k n /\
    forall Kz Kzx Kx, cov_is D w m (o_p o) (o_p o) (o_x o) (o_x o) Kz -> cov_is D w m (o_p o) (d_p d) (o_x o) (d_x d) Kzx ->
      cov_is D w m (d_p d) (d_p d) (d_x d) (d_x d) Kx ->
      let S := mx_at Kz k k + mx_at (o_noise o) k k in let C := mx_at Kzx k n in
      let v := model_noise S C (d_method d) (fun i => nth 0 (d_noise d) i) (fun i => ent Kx i i) in
      [/\ S \in unitmx, forall i, v i != 0 & model_var S C v \in unitmx].
End TotalSpec.

(* Positive definite. *)
Definition pd_matrix (R : realFieldType) (N : dmat R) : Prop :=
  nr N = nc N /\ forall c : nat -> R, (exists2 i, (i < nr N)%N & c i != 0) ->
    0 < \sum_(i < nr N) \sum_(j < nr N) c i * c j * ent N i j.
(* The noise of every observation is positive. *)
Definition pd_noise (R : realFieldType) (ops : seq (op R)) : Prop :=
  forall m o, List.In (OCond m o) ops ->
    pd_matrix (o_noise o) /\ forall d, o_data o = Some d -> all (fun a => 0 < a) (d_noise d).
