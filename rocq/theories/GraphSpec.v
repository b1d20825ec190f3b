(* Vocabulary for the statements about model graphs (P_Graph.v): what can be observed of a
   world, and which operations read, derive and are safe. *)
From mathcomp Require Import all_ssreflect all_algebra.
From Verif Require Lazy.
From Verif Require Import Graph Machine.
Set Implicit Arguments. Unset Strict Implicit. Unset Printing Implicit Defensive.

Section GraphSpec.
Variable R : fieldType.
Notation world := (world R).

(* The processes of a measure. *)
Definition members (w : world) (m : mid) : seq pid :=
  if m < w_nm w then s_ps (w_heap w m) else [::].

(* The numbers [m.kernels[i, j](x, y)] and [m.means[i](x)]; [n] bounds the recursion. *)
Definition kernel_at D n (w : world) m i j x y : option (dmat R) :=
  obind (fun k => evk (see_k w) (see_m w) D n k x y) (see_k w m i j).
Definition mean_at D n (w : world) m i x : option (seq R) :=
  obind (fun k => evm (see_k w) (see_m w) D n k x) (see_m w m i).

(* Everything about the processes in a world that can be observed. *)
Definition same_view (w w' : world) : Prop :=
  [/\ forall m i j, see_k w m i j = see_k w' m i j,
      forall m i, see_m w m i = see_m w' m i,
      forall m, members w m = members w' m &
      forall p, w_gm w p = w_gm w' p] /\
  [/\ forall D n m i j x y, kernel_at D n w m i j x y = kernel_at D n w' m i j x y &
      forall D n m i x, mean_at D n w m i x = mean_at D n w' m i x].

Definition is_read (o : op R) : bool :=
  match o with OReadK _ _ _ | OReadM _ _ => true | _ => false end.
Definition not_read (o : op R) : bool := ~~ is_read o.

(* Results of the operations that are not reads, of all reads, along a run. *)
Fixpoint results (w : world) (ops : seq (op R)) : seq (out (result R)) :=
  match ops with
  | [::] => [::]
  | o :: ops' =>
    (if is_read o then [::] else [:: (step w o).2]) ++ results (step w o).1 ops'
  end.

(* Operations that derive a process, and their operands. *)
Definition operands (o : op R) : option (seq pid) :=
  match o with
  | OAddC p _ | OAddF p _ | OScale p _ | OMulF p _ | OShift p _ | OStretch p _
  | OSelect p _ | OTransform p _ | ODiff p _ => Some [:: p]
  | OSum p q _ | OMul p q _ => Some [:: p; q]
  | OCross ps _ => Some ps
  | _ => None
  end.

(* Operations that combine processes. *)
Definition binary (o : op R) : option (seq pid) :=
  match o with
  | OSum p q _ | OMul p q _ => Some [:: p; q]
  | OCross ps _ => Some ps
  | _ => None
  end.

(* The user's rules do not raise, and data are observed of a process of the measure that
   is conditioned. *)
Definition op_safe (w : world) (o : op R) : Prop :=
  match o with
  | OUser _ _ _ l _ => forall j, l j <> None
  | OCond m ob => all (fun p => p \in members w m) (o_pids ob)
  | _ => True
  end.
Fixpoint safe (w : world) (ops : seq (op R)) : Prop :=
  match ops with
  | [::] => True
  | o :: ops' => op_safe w o /\ safe (step w o).1 ops'
  end.

(* The world after [ops], starting in [w]. *)
Definition run_from (w : world) (ops : seq (op R)) : world :=
  foldl (fun w o => (step w o).1) w ops.

Definition zero_matrix (M : dmat R) : Prop := forall i j, ent M i j = 0%R.
Definition zero_within (M : dmat R) : Prop := forall i j, i < nr M -> j < nc M -> ent M i j = 0%R.

End GraphSpec.
