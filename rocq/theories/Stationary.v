(* Model of [GP.stationary], gp.py:246-249, and what it should mean.

   [p.stationary] is the attribute [stationary] of [p.kernel], which is the kernel of the process in
   its first measure (gp.py:105-121).  For kernels that are built from others, mlkernels computes
   the attribute from the parts: sums and products are stationary if both parts are; multiples and
   reversals if the kernel is; shifted, stretched and selected kernels if the kernel is and both
   arguments are treated in the same way; [AmbiguousDimensionalityKernel] if the kernel is
   (mo/adk.py:24-26); all others (also [MultiOutputKernel], [PosteriorKernel], [SubspaceKernel],
   derivatives, tensor products and input transformations) are not.

   Simplified: transformations are functions, so an input transformation that is a shift, stretch or
   selection counts as one.  The attribute of the model is therefore true more often than that of
   the code, which makes what it implies stronger. *)
From mathcomp Require Import all_ssreflect all_algebra.
From Verif Require Import Graph Machine GraphSpec.
Set Implicit Arguments. Unset Strict Implicit. Unset Printing Implicit Defensive.
Import GRing.Theory.
Local Open Scope ring_scope.

Section Stationary.
Variable R : fieldType.
Notation point := (point R).
(* The elementary kernels of the user whose attribute is true. *)
Variable S : (point -> point -> R) -> Prop.

Definition one_map (a b : option (point -> point)) : Prop :=
  exists t, [/\ a = Some t, b = Some t &
    [\/ exists c, t = shiftX c, exists s, t = stretchX s | exists dims, t = selectX dims]].

Fixpoint stationary (k : kexp R) : Prop :=
  match k with
  | KElem f => S f
  | KZero | KOne => True
  | KAdd a b | KMul a b => stationary a /\ stationary b
  | KScale _ a | KRev a | KAdk a => stationary a
  | KMap t t' a => one_map t t' /\ stationary a
  | _ => False
  end.

(* The attribute of the kernel of [p] in the measure [m], and [p.stationary]. *)
Definition says (w : world R) (m : mid) (p : pid) : Prop :=
  if see_k w m p p is Some k then stationary k else False.
Definition gp_stationary (w : world R) (p : pid) : Prop :=
  if home w p is Some m then says w m p else False.

(* Operations after which the new process says so if and only if the operand does.  (Code that
   scales by zero gets a [ZeroKernel], which is stationary.) *)
Definition keeps_stationary (o : op R) : option pid :=
  match o with
  | OCopy _ p | OAddC p _ | OAddF p _ | OShift p _ | OStretch p _ | OSelect p _ => Some p
  | OScale p c => if c != 0 then Some p else None
  | _ => None
  end.
End Stationary.

(* What it should mean: nothing changes if all inputs are translated. *)
Section Meaning.
Variable R : fieldType.
Notation point := (point R).
Definition translate (d : nat -> R) (x : point) : point := feat (fun i a => a + d i) x.

(* A function of two points. *)
Definition invariant (f : point -> point -> R) : Prop := forall n d x y,
  size x = n -> size y = n -> f (translate d x) (translate d y) = f x y.

(* Equality of matrices. *)
Definition same_matrix (M M' : dmat R) : Prop := [/\ nr M' = nr M, nc M' = nc M &
  forall i j, (i < nr M)%N -> (j < nc M)%N -> ent M' i j = ent M i j].

(* A function of two arrays of points. *)
Definition invariant_on_arrays (K : input R -> input R -> option (dmat R)) : Prop := forall n d xs ys M,
  all (fun x => size x == n) xs -> all (fun y => size y == n) ys -> K (Num xs) (Num ys) = Some M ->
  exists2 M', K (Num (map (translate d) xs)) (Num (map (translate d) ys)) = Some M' & same_matrix M M'.
End Meaning.
