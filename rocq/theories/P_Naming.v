(* Properties C06-C08: names of processes (measure.py:62-91, gp.py:93-95,123-132). *)
From mathcomp Require Import all_ssreflect.
From Verif Require Import Naming NamingProofs.
Set Implicit Arguments. Unset Strict Implicit. Unset Printing Implicit Defensive.

(* Concrete history used by the examples; names are numbers and 0 plays the role of the
   empty string.  Measure 0 with processes 0 (named 5) and 1 (named 6), its posterior 1,
   where process 1 is named 7. *)
Definition ex_truthy : pred nat := fun n => n != 0.
Definition ex_names : seq (nop nat_eqType) :=
  [:: NMeasure _; NGP 0 (Some 5); NGP 0 (Some 6); NCond _ 0; NName 1 1 7].

(* C06: in every measure and after every history the two dictionaries are inverse to each
   other, and no naming call ever fails with a [KeyError]. *)
Theorem C06_names_two_way (N : eqType) (truthy : pred N) (h : seq (nop N)) (m p : nat) (n : N) :
  let w := nrun truthy (world0 N) h in
  lookup_name w m n = Some p <-> lookup_gp w m p = Some n.
Proof. exact: names_two_way. Qed.
Print Assumptions C06_names_two_way.

Theorem C06_no_key_error (N : eqType) (truthy : pred N) (h : seq (nop N)) (o : nop N) :
  (nstep truthy (nrun truthy (world0 N) h) o).2 <> NKeyError.
Proof. exact: names_no_key_error. Qed.
Print Assumptions C06_no_key_error.

Example C06_example :
  let w := nrun ex_truthy (world0 _) ex_names in
  [/\ lookup_name w 0 5 = Some 0, lookup_gp w 0 1 = Some 6, lookup_gp w 1 1 = Some 7 &
      lookup_name w 1 5 = None].
Proof. by []. Qed.

(* C07: effect and frame of a naming call. *)
Theorem C07_name_effect (N : eqType) (truthy : pred N) (h : seq (nop N)) (m p : nat) (n : N) :
  let w := nrun truthy (world0 N) h in
  let w' := (nstep truthy w (NName m p n)).1 in
  let res := (nstep truthy w (NName m p n)).2 in
  let taken := exists2 q, lookup_name w m n = Some q & q <> p in
  [/\ taken -> res = NTaken,
      ~ taken -> res = NOk /\ forall n', lookup_name w' m n' = Some p <-> n' = n,
      forall q n', q <> p -> (lookup_gp w' m q = Some n' <-> lookup_gp w m q = Some n') &
      forall m', m' <> m -> forall q, lookup_gp w' m' q = lookup_gp w m' q].
Proof. exact: measure_name_spec. Qed.
Print Assumptions C07_name_effect.

Example C07_example_free :
  let w := nrun ex_truthy (world0 _) ex_names in
  (nstep ex_truthy w (NName 0 1 8)).2 = NOk /\
  lookup_name (nstep ex_truthy w (NName 0 1 8)).1 0 6 = None.
Proof. by []. Qed.
Example C07_example_taken :
  exists2 q, lookup_name (nrun ex_truthy (world0 _) ex_names) 0 5 = Some q & q <> 1.
Proof. by exists 0. Qed.

(* C07: [p.name] is the name of the process in the measure it was constructed in, whatever happens
   afterwards: conditioning does not change it, and a name given in a posterior is not it. *)
Theorem C07_name_of_home (N : eqType) (truthy : pred N) (h : seq (nop N)) (m : nat) (no : option N)
    (h' : seq (nop N)) :
  let w := nrun truthy (world0 N) h in let p := w_np w in
  let w' := nrun truthy (nstep truthy w (NGP m no)).1 h' in
  gp_name w' p = lookup_gp w' m p.
Proof. exact: name_of_home. Qed.
Print Assumptions C07_name_of_home.

Example C07_example_home :
  let w := nrun ex_truthy (world0 _) ex_names in
  [/\ gp_name w 1 = Some 6, lookup_gp w 1 1 = Some 7 & w_meas w 1 = [:: 0; 1]].
Proof. by []. Qed.

(* C08 is false of the code: the old name is deleted (measure.py:79-81) before the check
   (measure.py:84), so a rejected call always leaves the process without a name, and the
   setter of a GP (gp.py:131-132) stops half-way through its measures. *)
Theorem C08_rejected_keeps_name_refuted :
  exists (h : seq (nop nat_eqType)) (m p n old : nat),
    let w := nrun ex_truthy (world0 _) h in
    [/\ lookup_gp w m p = Some old,
        (nstep ex_truthy w (NName m p n)).2 = NTaken &
        lookup_gp (nstep ex_truthy w (NName m p n)).1 m p = None].
Proof. by exists ex_names, 0, 0, 6, 5. Qed.
Print Assumptions C08_rejected_keeps_name_refuted.

Theorem C08_setter_atomic_refuted :
  exists (h : seq (nop nat_eqType)) (p n old : nat) (m1 m2 : nat),
    let w := nrun ex_truthy (world0 _) h in
    let w' := (nstep ex_truthy w (NSet p n)).1 in
    [/\ (nstep ex_truthy w (NSet p n)).2 = NTaken,
        lookup_gp w m1 p = Some old, n <> old, lookup_gp w' m1 p = Some n &
        lookup_gp w' m2 p <> Some n /\ m2 \in w_meas w p].
Proof. by exists ex_names, 0, 7, 5, 0, 1. Qed.
Print Assumptions C08_setter_atomic_refuted.

Theorem C08_rejected_always_forgets (N : eqType) (truthy : pred N) (h : seq (nop N))
    (m p : nat) (n : N) :
  let w := nrun truthy (world0 N) h in
  (nstep truthy w (NName m p n)).2 = NTaken ->
  lookup_gp (nstep truthy w (NName m p n)).1 m p = None.
Proof. exact: rejected_forgets. Qed.
Print Assumptions C08_rejected_always_forgets.

(* What does hold: if the process had no name in the measure, a rejected call changes no
   name anywhere.  (Missing from C08: processes that had a name, and the setter.) *)
Theorem C08_rejected_partial (N : eqType) (truthy : pred N) (h : seq (nop N))
    (m p : nat) (n : N) :
  let w := nrun truthy (world0 N) h in
  lookup_gp w m p = None ->
  (nstep truthy w (NName m p n)).2 = NTaken ->
  forall m' q, lookup_gp (nstep truthy w (NName m p n)).1 m' q = lookup_gp w m' q.
Proof. exact: rejected_unnamed. Qed.
Print Assumptions C08_rejected_partial.

Example C08_example :
  let w := nrun ex_truthy (world0 _) (rcons ex_names (NGP 0 None)) in
  lookup_gp w 0 2 = None /\ (nstep ex_truthy w (NName 0 2 6)).2 = NTaken.
Proof. by []. Qed.
