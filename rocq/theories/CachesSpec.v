(* Vocabulary for the statements about the caches of observations (P_Caches.v). *)
From mathcomp Require Import all_ssreflect.
From Verif Require Import Caches.
Set Implicit Arguments. Unset Strict Implicit. Unset Printing Implicit Defensive.

(* The calls of a history, each with the address and the measure that was passed in: the one
   that was last created at that address. *)
Fixpoint calls measure call (now : nat -> option measure) (l : seq (event measure call)) :
  seq (call * nat * option measure) :=
  match l with
  | [::] => [::]
  | New a m :: l' => calls (fun b => if b == a then Some m else now b) l'
  | Collect _ :: l' => calls now l'
  | Call r a :: l' => (r, a, now a) :: calls now l'
  end.

(* The answer computed from scratch. *)
Section Answers.
Variables (measure VK VA VM VE : Type) (attached : measure -> bool).
Variables (kz : measure -> VK) (av : measure -> VA) (mv : measure -> VM) (ev : measure -> VE).
Definition answer (r : method_call) (m : measure) : seq (value VK VA VM VE) :=
  match r with
  | CallKz => [:: IsKz _ _ _ (kz m)]
  | CallElbo => [:: IsElbo _ _ _ (ev m)]
  | CallMu => [:: IsMu _ _ _ (mv m)]
  | CallA => [:: IsA _ _ _ (av m)]
  | CallPosteriorKernel => [:: IsKz _ _ _ (kz m); IsA _ _ _ (av m)]
  | CallPosteriorMean => [:: IsKz _ _ _ (kz m); IsMu _ _ _ (mv m)]
  end.
(* The caches after some calls. *)
Definition after (l : seq (method_call * nat * measure)) : cache VK VA VM VE :=
  foldl (fun c x => (pseudo_request attached kz av mv ev true x.1.1 x.1.2 x.2 c).1) (empty _ _ _ _) l.
End Answers.

(* Measures without the processes are refused. *)
Definition fresh measure V (attached : measure -> bool) (f : measure -> V) (m : option measure) : outcome V :=
  if m is Some m' then if attached m' then Returned (f m') else Raised RuntimeError else Raised KeyError.
