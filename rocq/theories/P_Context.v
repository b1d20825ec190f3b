(* Property C09: measure contexts (measure.py:49-55, gp.py:74-79). *)
From mathcomp Require Import all_ssreflect.
From Verif Require Import Context ContextSpec ContextProofs.
Set Implicit Arguments. Unset Strict Implicit. Unset Printing Implicit Defensive.

(* Two measures, nested blocks, a process in each, an exception that crosses the inner
   block, and processes afterwards. *)
Definition ex_prog : stmt :=
  SSeq SMeasure (SSeq SMeasure (SSeq
    (SWith 0 (SSeq (SGP None)
      (SSeq (STry (SWith 1 (SSeq (SGP None) SRaise)) (SGP None)) (SGP (Some 1)))))
    (SSeq (SGP None) (SGP None)))).

(* Full statement of C09, which is false when a measure is entered again while active. *)
Definition contexts_nest : Prop :=
  forall s n, existing s [::] n ->
  let: (c', e) := exec s (ctx0 n) in
  (c_next c', c_log c', e) = meaning s [::] n /\ c_default c' = None.

(* C09 for programs that never enter a measure that is already entered: processes get the
   innermost measure, or a brand-new one outside all blocks; exceptions behave as if the
   blocks were transparent; and the default is restored at the end. *)
Theorem C09_contexts_nest_partial (s : stmt) (n : nat) :
  no_reentry s [::] -> existing s [::] n ->
  let: (c', e) := exec s (ctx0 n) in
  (c_next c', c_log c', e) = meaning s [::] n /\ c_default c' = None.
Proof. exact: exec_nested. Qed.
Print Assumptions C09_contexts_nest_partial.

(* Leaving one block restores what was in force when it was entered, in any state and also
   if the body raises, unless the body enters the same measure. *)
Theorem C09_with_restores (m : mid) (b : stmt) (c : ctx) :
  ~~ enters b m -> m < c_next c -> c_default (exec (SWith m b) c).1 = c_default c.
Proof. exact: with_restores. Qed.
Print Assumptions C09_with_restores.

Example C09_example :
  [/\ no_reentry ex_prog [::], existing ex_prog [::] 0 &
      meaning ex_prog [::] 0 = (4, [:: 0; 1; 0; 1; 2; 3], false)].
Proof. by []. Qed.

(* [with m: with m: pass] leaves [m] installed as the global default for ever. *)
Theorem C09_contexts_nest_refuted : ~ contexts_nest.
Proof. by move=> /(_ (SSeq SMeasure (SWith 0 (SWith 0 SSkip))) 0 isT) /= [_]. Qed.
Print Assumptions C09_contexts_nest_refuted.

(* Not even leaving an intermediate block is enough:
   [with m0: with m1: with m0: pass] also leaves a wrong default behind. *)
Theorem C09_reentry_through_other_refuted :
  exists s n, existing s [::] n /\ c_default (exec s (ctx0 n)).1 <> None.
Proof.
by exists (SSeq SMeasure (SSeq SMeasure (SWith 0 (SWith 1 (SWith 0 SSkip))))), 0.
Qed.
Print Assumptions C09_reentry_through_other_refuted.
