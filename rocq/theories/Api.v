(* Python programs that use the API: the operations of Machine.v together with names
   (Naming.v), measure contexts, variables, control flow and exceptions.

   A program is a terminating execution: loops have a number of iterations that is computed
   when they are entered.  Whatever Python computes from the values it got from the API is an
   arbitrary function of the variables. *)
From mathcomp Require Import all_ssreflect all_algebra.
From Verif Require Import Graph Machine.
From Verif Require Naming.
Set Implicit Arguments. Unset Strict Implicit. Unset Printing Implicit Defensive.

Section Api.
Variables (R : fieldType) (N : eqType) (truthy : pred N).
Notation world := (world R). Notation names := (Naming.names N).

(* What calls return: processes, measures, kernels and means; a name; nothing. *)
Inductive value := VRes of result R | VName of N | VNat of nat.
Definition env := nat -> option value.

(* Measures and processes, the dictionaries of names of every measure, and the variables of
   the program. *)
Record core := Core { c_w : world; c_names : mid -> names; c_env : env }.

(* The state: also [Measure.default], a class attribute (measure.py:35), and [_prev_default] of
   every measure (measure.py:47). *)
Record state := State { s_core : core; s_default : option mid; s_prev : mid -> option mid }.

(* A measure that did not exist before is as [__init__] leaves it, measure.py:37-47. *)
Definition fresh_from (V : Type) (n : nat) (v : V) (f : mid -> V) : mid -> V :=
  fun m => if (n <= m)%N then v else f m.
Definition with_world (c : core) (w : world) : core :=
  Core w (fresh_from (w_nm (c_w c)) (Naming.names_new N) (c_names c)) (c_env c).

(* Calls of the API. *)
Inductive cmd :=
| COp of op R                                     (* an operation of Machine.v *)
| CGP of mexp R & kexp R & option mid & option N  (* GP(mean, kernel, measure=m, name=n) *)
| CGiven of pid & obs R                           (* p | obs *)
| CName of mid & pid & N                          (* m.name(p, n) *)
| CSet of pid & N                                 (* p.name = n *)
| CByName of mid & N                              (* m[n] *)
| CByGP of mid & pid                              (* m[p] *)
| CNameOf of pid.                                 (* p.name *)

(* Outcome of a call: [None] is an exception; the effects up to the exception remain. *)
Definition call : Type := (core * option value)%type.

Definition do_op (o : op R) (c : core) : core * option (result R) :=
  let: (w, r) := step (c_w c) o in
  (with_world c w, if r is ROk v then Some v else None).

(* [Measure.name], measure.py:70-91. *)
Definition do_name (m : mid) (p : pid) (n : N) (c : core) : core * bool :=
  let: (d, r) := Naming.name_gp (c_names c m) p n in
  (Core (c_w c) (Naming.fupd (c_names c) m d) (c_env c), if r is Naming.NOk then true else false).

(* The setter, gp.py:128-132. *)
Fixpoint do_names (ms : seq mid) (p : pid) (n : N) (c : core) : core * bool :=
  if ms is m :: ms' then
    let: (c1, ok) := do_name m p n c in if ok then do_names ms' p n c1 else (c1, false)
  else (c, true).

(* [GP.__init__], gp.py:70-95; [dflt] is [Measure.default]. *)
Definition gp_measure (dflt mo : option mid) (c : core) : core * mid :=   (* gp.py:74-79 *)
  match mo, dflt with
  | Some m, _ => (c, m)
  | None, Some m => (c, m)
  | None, None => ((do_op OMeasure c).1, w_nm (c_w c))
  end.
Definition do_gp (dflt : option mid) mu k (mo : option mid) (no : option N) (c : core) : call :=
  let: (c1, m) := gp_measure dflt mo c in
  match do_op (OGP m mu k) c1 with
  | (c2, Some (RPid p)) =>
    let v := Some (VRes (RPid R p)) in
    if no is Some n then
      if truthy n then
        let: (c3, ok) := do_name m p n c2 in (c3, if ok then v else None)
      else (c2, v)
    else (c2, v)
  | (c2, _) => (c2, None)
  end.

(* [GP.condition], gp.py:146-160 (also [p | obs]). *)
Definition do_given (p : pid) (o : obs R) (c : core) : call :=
  if home (c_w c) p is Some m then
    match do_op (OCond m o) c with
    | (c1, Some (RMid m')) => let: (c2, r) := do_op (OCopy m' p) c1 in (c2, omap VRes r)
    | (c1, _) => (c1, None)
    end
  else (c, None).

Definition do_cmd (dflt : option mid) (a : cmd) (c : core) : call :=
  let w := c_w c in
  match a with
  | COp o => let: (c1, r) := do_op o c in (c1, omap VRes r)
  | CGP mu k mo no => do_gp dflt mu k mo no c
  | CGiven p o => do_given p o c
  | CName m p n =>
    if (m < w_nm w)%N && (p < w_np w)%N then
      let: (c1, ok) := do_name m p n c in (c1, if ok then Some (VRes (RUnit R)) else None)
    else (c, None)
  | CSet p n =>
    let: (c1, ok) := do_names (w_gm w p) p n c in (c1, if ok then Some (VRes (RUnit R)) else None)
  | CByName m n =>                                            (* measure.py:62-64 *)
    (c, if (m < w_nm w)%N then omap (fun p => VRes (RPid R p)) (Naming.by_name (c_names c m) n) else None)
  | CByGP m p =>                                              (* measure.py:66-68 *)
    (c, if (m < w_nm w)%N then omap VName (Naming.by_gp (c_names c m) p) else None)
  | CNameOf p =>                                              (* gp.py:123-126 *)
    (c, obind (fun m => omap VName (Naming.by_gp (c_names c m) p)) (home w p))
  end.

(* Programs. *)
Inductive stmt :=
| SSkip
| SSeq of stmt & stmt
| SLet of nat & (env -> option value)     (* x = ... without calls of the API *)
| SDo of nat & (env -> cmd)               (* x = call *)
| SIf of (env -> bool) & stmt & stmt
| SFor of (env -> nat) & stmt             (* for _ in range(n) *)
| SWith of (env -> mid) & stmt            (* with m: ... *)
| SRaise
| STry of stmt & stmt.                    (* try: ... except: ... *)

Definition set_env (c : core) (x : nat) (v : option value) : core :=
  Core (c_w c) (c_names c) (fun y => if y == x then v else c_env c y).

(* [__enter__] and [__exit__], measure.py:49-55. *)
Definition enter (s : state) (m : mid) : state :=
  State (s_core s) (Some m) (fun m' => if m' == m then s_default s else s_prev s m').
Definition leave (s : state) (m : mid) : state := State (s_core s) (s_prev s m) (s_prev s).

(* A call in a state; new measures have no previous default (measure.py:47). *)
Definition call_in (x : nat) (a : cmd) (s : state) : state * bool :=
  let: (c, r) := do_cmd (s_default s) a (s_core s) in
  let c' := if r is Some _ then set_env c x r else c in
  (State c' (s_default s) (fresh_from (w_nm (c_w (s_core s))) None (s_prev s)), ~~ r).

(* Repetition of [f], until it raises. *)
Fixpoint times (T : Type) (f : T -> T * bool) (n : nat) (s : T) : T * bool :=
  if n is n'.+1 then let: (s1, e) := f s in if e then (s1, true) else times f n' s1 else (s, false).

(* The state after the program, and whether an exception is propagating.  Entering something
   that does not exist raises. *)
Fixpoint exec (p : stmt) (s : state) : state * bool :=
  let E := c_env (s_core s) in
  match p with
  | SSkip => (s, false)
  | SSeq p1 p2 => let: (s1, e) := exec p1 s in if e then (s1, true) else exec p2 s1
  | SLet x f => (State (set_env (s_core s) x (f E)) (s_default s) (s_prev s), false)
  | SDo x a => call_in x (a E) s
  | SIf b p1 p2 => if b E then exec p1 s else exec p2 s
  | SFor n b => times (exec b) (n E) s
  | SWith f b =>
    let m := f E in
    if (m < w_nm (c_w (s_core s)))%N then
      let: (s1, e) := exec b (enter s m) in (leave s1 m, e)
    else (s, true)
  | SRaise => (s, true)
  | STry b h => let: (s1, e) := exec b s in if e then exec h s1 else (s1, false)
  end.

Definition core0 : core := Core world0 (fun=> Naming.names_new N) (fun=> None).
Definition state0 : state := State core0 None (fun=> None).

(* The state after a program that is run from the beginning. *)
Definition after (p : stmt) : state := (exec p state0).1.
End Api.
