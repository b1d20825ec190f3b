(* Vocabulary for the statements about which FDDs can be constructed (P_Size.v). *)
From mathcomp Require Import all_ssreflect all_algebra.
From Verif Require Import Graph Machine Refine InferSpec.
Set Implicit Arguments. Unset Strict Implicit. Unset Printing Implicit Defensive.

Section SizeSpec.
Variable R : fieldType.

(* The number of outputs of a process of which all kernels have a size that can be inferred.
   Conditioning a measure [m] keeps the processes with [keep m] outputs: one output, or the
   number of outputs of the data. *)
Fixpoint sized (keep : mid -> nat) (h : hist R) (p : pid) : option nat :=
  match h with
  | HRoot => None
  | HPost pm par o =>
    match sized keep par p, sized keep par (o_p o) with
    | Some d, Some c => if (d == keep pm) && ((d == 1) || (d == c)) then Some d else None
    | _, _ => None
    end
  | HAdd r d rest =>
    if p == r then
      match d with
      | DInd _ k => if basic k then Some 1 else None
      | DUser _ _ _ => None
      | DCopy q | DAddC q _ | DAddF q _ | DScale q _ | DMap q _ _ | DDiff q _ => sized keep rest q
      | DFun q _ => if sized keep rest q == Some 1 then Some 1 else None
      | DSum a b => if sized keep rest a == sized keep rest b then sized keep rest a else None
      | DCross ps => if ps is [::] then None else Some (size ps)
      end
    else sized keep rest p
  end.

(* Cartesian products come after independent processes and multiples by functions, and the
   measure is not a posterior. *)
Fixpoint no_products (h : hist R) : bool :=
  match h with HRoot => true | HPost _ _ _ => false | HAdd _ d rest => (if d is DCross _ then false else true) && no_products rest end.
Fixpoint products_late (h : hist R) : bool :=
  match h with
  | HRoot => true
  | HPost _ _ _ => false
  | HAdd _ d rest => products_late rest && match d with DInd _ _ | DFun _ _ => no_products rest | DUser _ _ _ => false | _ => true end
  end.
End SizeSpec.
