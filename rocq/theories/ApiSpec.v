(* Vocabulary for the statements about programs (P_Api.v): measure contexts are lexically scoped,
   and what names are. *)
From mathcomp Require Import all_ssreflect all_algebra.
From Verif Require Import Graph Machine GraphSpec Api.
From Verif Require Naming.
Set Implicit Arguments. Unset Strict Implicit. Unset Printing Implicit Defensive.

Section ApiSpec.
Variables (R : fieldType) (N : eqType) (truthy : pred N).
Notation core := (core R N).

(* Programs with lexical scope: [scope] are the measures of the enclosing blocks, innermost
   first, and there is no other default.  The result is the state, whether an exception is
   propagating, and whether no measure was entered while it was already entered. *)
Fixpoint repeat (f : core -> core * bool * bool) (n : nat) (c : core) : core * bool * bool :=
  if n is n'.+1 then
    let: (c1, e, ok) := f c in
    if e then (c1, true, ok) else let: (c2, e2, ok2) := repeat f n' c1 in (c2, e2, ok && ok2)
  else (c, false, true).

Fixpoint scoped (p : stmt R N) (scope : seq mid) (c : core) : core * bool * bool :=
  match p with
  | SSkip => (c, false, true)
  | SSeq p1 p2 =>
    let: (c1, e, ok) := scoped p1 scope c in
    if e then (c1, true, ok) else let: (c2, e2, ok2) := scoped p2 scope c1 in (c2, e2, ok && ok2)
  | SLet x f => (set_env c x (f (c_env c)), false, true)
  | SDo x a =>
    match do_cmd truthy (ohead scope) (a (c_env c)) c with
    | (c1, Some v) => (set_env c1 x (Some v), false, true)
    | (c1, None) => (c1, true, true)
    end
  | SIf b p1 p2 => if b (c_env c) then scoped p1 scope c else scoped p2 scope c
  | SFor n b => repeat (scoped b scope) (n (c_env c)) c
  | SWith f b =>
    let m := f (c_env c) in
    if (m < w_nm (c_w c))%N then
      let: (c1, e, ok) := scoped b (m :: scope) c in (c1, e, ok && (m \notin scope))
    else (c, true, true)
  | SRaise => (c, true, true)
  | STry b h =>
    let: (c1, e, ok) := scoped b scope c in
    if e then let: (c2, e2, ok2) := scoped h scope c1 in (c2, e2, ok && ok2) else (c1, false, ok)
  end.

(* [m[n]] and [m[p]]. *)
Definition named (c : core) (m : mid) (n : N) : option pid := Naming.by_name (c_names c m) n.
Definition name_of (c : core) (m : mid) (p : pid) : option N := Naming.by_gp (c_names c m) p.
(* The name is held by another process. *)
Definition taken (c : core) (m : mid) (p : pid) (n : N) : Prop :=
  exists2 q, named c m n = Some q & q <> p.

(* Calls that set names. *)
Definition naming (a : cmd R N) : bool :=
  match a with CName _ _ _ | CSet _ _ => true | CGP _ _ _ (Some _) => true | _ => false end.

(* Nothing about the measures and processes of [w] is different in [w']. *)
Definition kept (w w' : world R) : Prop := forall m, (m < w_nm w)%N ->
  [/\ members w' m = members w m, forall i j, see_k w' m i j = see_k w m i j &
      forall i, see_m w' m i = see_m w m i].
End ApiSpec.
