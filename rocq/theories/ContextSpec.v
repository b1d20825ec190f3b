(* Specification of measure contexts: the default measure is lexically scoped. *)
From mathcomp Require Import all_ssreflect.
From Verif Require Import Context.
Set Implicit Arguments. Unset Strict Implicit. Unset Printing Implicit Defensive.

(* Result: (next unused measure, measures given to the processes constructed, raised?).
   [scope] is the list of the measures of the enclosing blocks, innermost first. *)
Fixpoint meaning (s : stmt) (scope : seq mid) (next : nat) : nat * seq mid * bool :=
  match s with
  | SSkip => (next, [::], false)
  | SSeq s1 s2 =>
    let: (n1, l1, e1) := meaning s1 scope next in
    if e1 then (n1, l1, true)
    else let: (n2, l2, e2) := meaning s2 scope n1 in (n2, l1 ++ l2, e2)
  | SWith m b => meaning b (m :: scope) next
  | SMeasure => (next.+1, [::], false)
  | SGP (Some m) => (next, [:: m], false)
  | SGP None => if scope is m :: _ then (next, [:: m], false) else (next.+1, [:: next], false)
  | SRaise => (next, [::], true)
  | STry b h =>
    let: (n1, l1, e1) := meaning b scope next in
    if e1 then let: (n2, l2, e2) := meaning h scope n1 in (n2, l1 ++ l2, e2)
    else (n1, l1, false)
  end.

(* No block enters a measure that is already entered. *)
Fixpoint no_reentry (s : stmt) (scope : seq mid) : bool :=
  match s with
  | SSeq s1 s2 => no_reentry s1 scope && no_reentry s2 scope
  | SWith m b => (m \notin scope) && no_reentry b (m :: scope)
  | STry b h => no_reentry b scope && no_reentry h scope
  | _ => true
  end.

(* Blocks only enter measures that already exist.  (Measures are numbered by creation; in
   [STry] the handler may rely on anything that existed before the body.) *)
Fixpoint existing (s : stmt) (scope : seq mid) (next : nat) : bool :=
  match s with
  | SSeq s1 s2 => existing s1 scope next && existing s2 scope (meaning s1 scope next).1.1
  | SWith m b => (m < next) && existing b (m :: scope) next
  | STry b h => existing b scope next && existing h scope (meaning b scope next).1.1
  | _ => true
  end.
