(* GP.diff_approx (gp.py:225-244).

   The finite-difference method (the library fdm) supplies the grid, the coefficients and the
   step size; they are arguments here.  [ords] are the orders in which the sums iterate over
   the set of measures, see [OSum]. *)
From mathcomp Require Import all_ssreflect all_algebra.
From Verif Require Import Graph Machine GraphSpec.
Set Implicit Arguments. Unset Strict Implicit. Unset Printing Implicit Defensive.
Import GRing.Theory.
Local Open Scope ring_scope.

Section DiffApprox.
Variable R : fieldType.
Notation world := (world R).

(* An operation that returns a process. *)
Definition stepp (w : world) (o : op R) : world * option pid :=
  let: (w', res) := step w o in (w', if res is ROk (RPid p) then Some p else None).

(* One turn of the loop, gp.py:243: [df += c * self.shift(-g * step)]; [df] is [None] as long as
   it is the number 0, and [0 + f] is [f + 0] (random.py:21). *)
Definition diff_turn (p : pid) (h : R) (df : option pid) (g c : R) (ord : seq mid) (w : world) :
    world * option pid :=
  let: (w1, s) := stepp w (OShift p (fun=> - g * h)) in
  if s isn't Some s then (w1, None) else
  let: (w2, t) := stepp w1 (OScale s c) in
  if t isn't Some t then (w2, None) else
  stepp w2 (if df is Some d then OSum d t ord else OAddC t 0).

Fixpoint diff_loop (p : pid) (h : R) (df : option pid) (gcs : seq (R * R)) (ords : seq (seq mid)) (w : world) :
    world * option pid :=
  if gcs isn't (g, c) :: gcs' then (w, df) else
  let: (w', df') := diff_turn p h df g c (head [::] ords) w in
  if df' isn't Some d then (w', None) else diff_loop p h (Some d) gcs' (behead ords) w'.

(* An empty grid gives a number rather than a process. *)
Definition diff_approx (p : pid) (h : R) (deriv : nat) (gcs : seq (R * R)) (ords : seq (seq mid)) (w : world) :
    world * option pid :=
  let: (w', df) := diff_loop p h None gcs ords w in
  if df isn't Some d then (w', None) else stepp w' (OScale d (1 / h ^+ deriv)).
End DiffApprox.
