(* Model of measure contexts: stheno/model/measure.py:35,47,49-55 and the choice of the
   measure in [GP.__init__], stheno/model/gp.py:70-79.

   Programs are the terminating executions of Python code that enters measures with
   [with], creates measures and processes, raises and catches exceptions.  Only the
   default measure, the [_prev_default] slots and the measure given to every new process
   are modelled. *)
From mathcomp Require Import all_ssreflect.
Set Implicit Arguments. Unset Strict Implicit. Unset Printing Implicit Defensive.

Notation mid := nat.

Inductive stmt :=
| SSkip
| SSeq of stmt & stmt
| SWith of mid & stmt                 (* with m: body *)
| SMeasure                            (* Measure() *)
| SGP of option mid                   (* GP(kernel) or GP(kernel, measure=m) *)
| SRaise                              (* raise *)
| STry of stmt & stmt.                (* try: body; except: handler *)

(* [Measure.default] (a class attribute, measure.py:35), [_prev_default] of every measure
   (measure.py:47), the allocator of measures, and the measures given to the processes
   constructed so far. *)
Record ctx := Ctx {
  c_default : option mid;
  c_prev : mid -> option mid;
  c_next : nat;
  c_log : seq mid }.

Definition ctx0 (n : nat) : ctx := Ctx None (fun _ => None) n [::].

Definition pupd (f : mid -> option mid) (m : mid) v : mid -> option mid :=
  fun m' => if m' == m then v else f m'.

(* [__enter__], measure.py:49-52. *)
Definition enter (c : ctx) (m : mid) : ctx :=
  Ctx (Some m) (pupd (c_prev c) m (c_default c)) (c_next c) (c_log c).
(* [__exit__], measure.py:54-55; it returns [None], so exceptions propagate. *)
Definition leave (c : ctx) (m : mid) : ctx :=
  Ctx (c_prev c m) (c_prev c) (c_next c) (c_log c).

(* [GP.__init__], gp.py:74-79,91: an explicit measure, else the default, else a new one. *)
Definition new_gp (c : ctx) (mo : option mid) : ctx :=
  match mo, c_default c with
  | Some m, _ => Ctx (c_default c) (c_prev c) (c_next c) (rcons (c_log c) m)
  | None, Some m => Ctx (c_default c) (c_prev c) (c_next c) (rcons (c_log c) m)
  | None, None =>
    (* [Measure()] also initialises its [_prev_default], measure.py:47 *)
    Ctx None (pupd (c_prev c) (c_next c) None) (c_next c).+1 (rcons (c_log c) (c_next c))
  end.

(* The result is the new state and whether an exception is propagating. *)
Fixpoint exec (s : stmt) (c : ctx) : ctx * bool :=
  match s with
  | SSkip => (c, false)
  | SSeq s1 s2 => let: (c1, e) := exec s1 c in if e then (c1, true) else exec s2 c1
  | SWith m b => let: (c1, e) := exec b (enter c m) in (leave c1 m, e)
  | SMeasure => (Ctx (c_default c) (pupd (c_prev c) (c_next c) None) (c_next c).+1 (c_log c), false)
  | SGP mo => (new_gp c mo, false)
  | SRaise => (c, true)
  | STry b h => let: (c1, e) := exec b c in if e then exec h c1 else (c1, false)
  end.
