(* Vocabulary for the statements about sizes, diagonals and masks (P_Infer.v). *)
From mathcomp Require Import all_ssreflect all_algebra.
From Verif Require Import Graph Machine Refine GraphSpec RV ModelSpec Combine Infer.
Set Implicit Arguments. Unset Strict Implicit. Unset Printing Implicit Defensive.
Import GRing.Theory.
Local Open Scope ring_scope.

Section InferSpec.
Variable R : fieldType.
Notation world := (world R). Notation input := (input R). Notation hist := (hist R). Notation kexp := (kexp R).

(* Kernels that users write: elementary kernels, sums, products and transformations. *)
Fixpoint basic (k : kexp) : bool :=
  match k with
  | KElem _ | KZero | KOne | KTensor _ _ => true
  | KAdd a b | KMul a b => basic a && basic b
  | KScale _ a | KRev a | KMap _ _ a | KDiff _ _ a => basic a
  | KMok _ _ | KToFdd _ _ | KAdk _ | KPost _ _ _ _ _ _ | KSub _ _ _ _ _ _ _ _ _ _ => false
  end.

(* The kernel of an independently constructed process is one of those; no process of [add_gp]. *)
Definition basic_def (d : pdef R) : Prop :=
  match d with DInd _ k => is_true (basic k) | DUser _ _ _ => False | _ => True end.

(* The number of outputs of a process. *)
Fixpoint outputs (h : hist) (p : pid) : nat :=
  match h with
  | HRoot => 1%N
  | HPost _ par _ => outputs par p
  | HAdd r d rest =>
    if p == r then
      match d with
      | DInd _ _ | DUser _ _ _ => 1%N
      | DCross ps => size ps
      | DCopy q | DAddC q _ | DAddF q _ | DScale q _ | DMap q _ _ | DDiff q _ | DFun q _ | DSum q _ => outputs rest q
      end
    else outputs rest p
  end.
(* The process is a Cartesian product, up to copies and added constants. *)
Fixpoint product (h : hist) (p : pid) : option (seq pid) :=
  match h with
  | HRoot => None
  | HPost _ par _ => product par p
  | HAdd r d rest =>
    if p == r then
      match d with
      | DCross ps => Some ps
      | DCopy q | DAddC q _ | DAddF q _ => product rest q
      | _ => None
      end
    else product rest p
  end.
(* Process [p] was built from independently constructed processes with basic kernels; the
   components of Cartesian products have one output and satisfy [Q]; functions are not added
   to Cartesian products. *)
Fixpoint flat (Q : pid -> Prop) (h : hist) (p : pid) : Prop :=
  match h with
  | HRoot => False
  | HPost _ par _ => flat Q par p
  | HAdd r d rest =>
    if p == r then
      match d with
      | DInd _ k => is_true (basic k)
      | DUser _ _ _ => False
      | DCross ps => ps <> [::] /\ forall a, a \in ps -> [/\ Q a, outputs rest a = 1%N & flat Q rest a]
      | DAddF q _ => product rest q = None /\ flat Q rest q
      | _ => forall q, q \in needs d -> flat Q rest q
      end
    else flat Q rest p
  end.

(* The first measure of process [a] (the one of [a.kernel]) and measure [m] agree on the
   outputs of [a]. *)
Definition settled (w : world) (m : mid) (a : pid) : Prop :=
  exists m0, [/\ home w a = Some m0, (m0 < w_nm w)%N, flat (fun=> True) (w_log w m0) a,
    outputs (w_log w m0) a = outputs (w_log w m) a & product (w_log w m0) a = product (w_log w m) a].
(* Process [a] and all components of the Cartesian products behind it are settled. *)
Definition well_settled (w : world) (m : mid) (a : pid) : Prop :=
  settled w m a /\ flat (settled w m) (w_log w m) a.

(* The diagonal of a square matrix. *)
Definition diagonal (M : dmat R) (e : seq R) : Prop :=
  [/\ nr M = size e, nc M = size e & forall i, (i < size e)%N -> nth 0 e i = ent M i i].
(* The rows that a mask selects. *)
Definition selected (mu : seq bool) : seq nat := [seq i <- iota 0 (size mu) | nth false mu i].
(* The selected rows, and the selected rows and columns, of a matrix. *)
Definition masked_rows (mu : seq bool) (M M' : dmat R) : Prop :=
  [/\ nr M' = size (selected mu), nc M' = nc M & forall i j, (i < nr M')%N -> (j < nc M)%N ->
      ent M' i j = ent M (nth 0%N (selected mu) i) j].
Definition masked (mu : seq bool) (M M' : dmat R) : Prop :=
  [/\ nr M' = size (selected mu), nc M' = size (selected mu) & forall i j, (i < nr M')%N -> (j < nr M')%N ->
      ent M' i j = ent M (nth 0%N (selected mu) i) (nth 0%N (selected mu) j)].

(* The selected columns, and the selected rows and columns, of a matrix. *)
Definition columns (M : dmat R) (r : nat) (s : seq nat) : 'M[R]_(r, size s) := \matrix_(i, j) ent M i (nth 0%N s j).
Definition block (M : dmat R) (s : seq nat) : 'M[R]_(size s) := \matrix_(i, j) ent M (nth 0%N s i) (nth 0%N s j).

(* [x] contains no arrays outside FDDs. *)
Fixpoint only_fdds (x : input) : bool :=
  match x with Num _ => false | Fdd _ _ => true | Tup xs => all only_fdds xs end.

(* [p.kernel.elwise(x, y)] for the kernel between [p] and [q] in measure [m]. *)
Definition elwise_is D (w : world) (m : mid) (p q : pid) (x y : input) (e : seq R) : Prop :=
  exists2 k, see_k w m p q = Some k & exists n, elk (see_k w) (see_m w) D n k x y = Some e.
End InferSpec.
