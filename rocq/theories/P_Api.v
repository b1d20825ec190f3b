(* Properties C06, C07, C08, C09, C15 and C61 of programs that use the whole API: measures,
   processes, conditioning, names, measure contexts, control flow and exceptions.

   [after truthy q] is the state after the program [q]; its core [c] has the world [c_w c] and
   the names; [do_cmd truthy d a c] is the call [a], where [d] is the default measure. *)
From mathcomp Require Import all_ssreflect all_algebra.
From Verif Require Import Graph Machine GraphSpec Api ApiSpec ApiThms.
From Verif Require Naming ApiFacts.
Set Implicit Arguments. Unset Strict Implicit. Unset Printing Implicit Defensive.

(* A program: two measures, nested blocks, a name that is taken and raises inside the inner
   block, and processes before and afterwards.
     a = Measure(); b = Measure()
     with a:
         f = GP(k, name=1)
         try:
             with b:
                 g = GP(k, name=1)
                 h = GP(k, name=1)
         except ...: pass
         l = GP(k)
     u = GP(k)
     v = f | (f(x), y) *)
Section Ex.
Variable R : fieldType.
Definition mval (e : env R nat_eqType) (x : nat) : mid := if e x is Some (VRes (RMid m)) then m else 999%N.
Definition pval (e : env R nat_eqType) (x : nat) : pid := if e x is Some (VRes (RPid p)) then p else 999%N.
Definition ek : kexp R := KElem (fun _ _ => 1%R).
Definition gp (x : nat) (no : option nat) : stmt R nat_eqType := SDo x (fun=> CGP MZero ek None no).
Definition eobs : obs R := MkObs 0%N (Num [:: [:: 1%R]]) (DMat 1 1 (fun _ _ => 1%R)) [:: 1%R] None.
Definition ex_prog0 : stmt R nat_eqType :=
  SSeq (SDo 0%N (fun=> COp nat_eqType OMeasure)) (SSeq (SDo 1%N (fun=> COp nat_eqType OMeasure)) (SSeq
    (SWith (mval^~ 0%N) (SSeq (gp 2 (Some 1%N)) (SSeq
      (STry (SWith (mval^~ 1%N) (SSeq (gp 3 (Some 1%N)) (gp 4 (Some 1%N)))) (SSkip R nat_eqType)) (gp 5 None))))
    (gp 6 None))).
Definition ex_prog : stmt R nat_eqType := SSeq ex_prog0 (SDo 7%N (fun e => CGiven nat_eqType (pval e 2%N) eobs)).
Definition every : pred nat_eqType := fun=> true.
End Ex.

(* Everything a program does to the measures and processes is a run of the operations of
   Machine.v, so that what is proved of all runs holds after every program. *)
Theorem C15_programs_are_runs (R : fieldType) (N : eqType) (truthy : pred N) (q1 q2 : stmt R N) :
  exists ops1 ops2,
  c_w (s_core (after truthy q1)) = run_ops ops1 /\
  c_w (s_core (exec truthy q2 (after truthy q1)).1) = run_ops (ops1 ++ ops2).
Proof. exact: ApiFacts.programs_are_runs. Qed.
Print Assumptions C15_programs_are_runs.

(* C15. Whatever a program does next, it leaves all means, kernels and values of the processes
   that exist unchanged. *)
Theorem C15_programs (R : fieldType) (N : eqType) (truthy : pred N) (q1 q2 : stmt R N) m i j :
  let w := c_w (s_core (after truthy q1)) in
  let w' := c_w (s_core (exec truthy q2 (after truthy q1)).1) in
  i \in members w m -> j \in members w m ->
  [/\ i \in members w' m, see_k w' m i j = see_k w m i j, see_m w' m i = see_m w m i,
      forall D b x y M, kernel_at D b w m i j x y = Some M -> kernel_at D b w' m i j x y = Some M &
      forall D b x v, mean_at D b w m i x = Some v -> mean_at D b w' m i x = Some v].
Proof. exact: ApiFacts.programs_conservative. Qed.
Print Assumptions C15_programs.

(* C06. Names and processes are a two-way table in every measure. *)
Theorem C06_programs (R : fieldType) (N : eqType) (truthy : pred N) (q : stmt R N) m n p :
  let c := s_core (after truthy q) in named c m n = Some p <-> name_of c m p = Some n.
Proof. exact: ApiFacts.programs_two_way. Qed.
Print Assumptions C06_programs.

(* C06. [m[n]] is [p] if and only if [m[p]] is [n]; looking names up changes nothing. *)
Theorem C06_programs_lookup (R : fieldType) (N : eqType) (truthy : pred N) (q : stmt R N) d m n p :
  let c := s_core (after truthy q) in
  [/\ (do_cmd truthy d (CByName R m n) c).2 = Some (VRes _ (RPid R p)) <->
      (do_cmd truthy d (CByGP R N m p) c).2 = Some (VName R n),
      (do_cmd truthy d (CByName R m n) c).1 = c, (do_cmd truthy d (CByGP R N m p) c).1 = c &
      (do_cmd truthy d (CNameOf R N p) c).1 = c].
Proof. exact: programs_lookup. Qed.
Print Assumptions C06_programs_lookup.

(* C07. After [p.name = n] has returned, [p.name] is [n], and [m[n]] is [p] and [m[p]] is [n] in all
   measures [m] of the process. *)
Theorem C07_programs_round_trip (R : fieldType) (N : eqType) (truthy : pred N) (q : stmt R N) d p n c' v :
  let c := s_core (after truthy q) in
  do_cmd truthy d (CSet R p n) c = (c', Some v) -> w_gm (c_w c) p <> [::] ->
  (do_cmd truthy d (CNameOf R N p) c').2 = Some (VName R n) /\
  forall m, m \in w_gm (c_w c) p ->
    (do_cmd truthy d (CByName R m n) c').2 = Some (VRes _ (RPid R p)) /\
    (do_cmd truthy d (CByGP R N m p) c').2 = Some (VName R n).
Proof. exact: programs_round_trip. Qed.
Print Assumptions C07_programs_round_trip.

(* C07. [p.name] is always the name of the process in the measure it was constructed in. *)
Theorem C07_programs_name_of (R : fieldType) (N : eqType) (truthy : pred N) (q : stmt R N)
    d mu k mo no c' r q2 s : let c := s_core (after truthy q) in
  do_cmd truthy d (CGP mu k mo no) c = (c', Some (VRes _ (RPid R r))) ->
  let m := if mo is Some m then m else if d is Some m then m else w_nm (c_w c) in
  s_core s = c' -> let c2 := s_core (exec truthy q2 s).1 in
  (do_cmd truthy d (CNameOf R N r) c2).2 = (do_cmd truthy d (CByGP R N m r) c2).2.
Proof. exact: programs_name_of. Qed.
Print Assumptions C07_programs_name_of.

(* C07, C08. [m.name(p, n)]: it raises if and only if the name is taken, and then the process
   loses its name; otherwise [n] becomes its only name.  Nothing else changes. *)
Theorem C07_programs_name (R : fieldType) (N : eqType) (truthy : pred N) (q : stmt R N) d m p n :
  let c := s_core (after truthy q) in
  (m < w_nm (c_w c))%N -> (p < w_np (c_w c))%N -> let: (c', r) := do_cmd truthy d (CName R m p n) c in
  [/\ taken c m p n -> r = None /\ name_of c' m p = None,
      ~ taken c m p n -> r = Some (VRes _ (RUnit R)) /\ forall n', named c' m n' = Some p <-> n' = n,
      forall t n', t <> p -> (name_of c' m t = Some n' <-> name_of c m t = Some n'),
      forall m', m' <> m -> c_names c' m' = c_names c m' &
      c_w c' = c_w c].
Proof. exact: ApiFacts.programs_name. Qed.
Print Assumptions C07_programs_name.

(* C07, C08. [p.name = n] sets the name in all measures of the process. *)
Theorem C07_programs_setter (R : fieldType) (N : eqType) (truthy : pred N) (q : stmt R N) d p n :
  let c := s_core (after truthy q) in let ms := w_gm (c_w c) p in
  let: (c', r) := do_cmd truthy d (CSet R p n) c in
  [/\ (exists2 m, m \in ms & taken c m p n) -> r = None,
      (forall m, m \in ms -> ~ taken c m p n) -> r = Some (VRes _ (RUnit R)) /\
        forall m, m \in ms -> forall n', named c' m n' = Some p <-> n' = n,
      forall m t n', t <> p -> (name_of c' m t = Some n' <-> name_of c m t = Some n'),
      forall m, m \notin ms -> c_names c' m = c_names c m &
      c_w c' = c_w c].
Proof. exact: ApiFacts.programs_set. Qed.
Print Assumptions C07_programs_setter.

(* C07. Calls that do not name leave all names alone, and new measures have none: in
   particular, a posterior does not inherit the names of its prior. *)
Theorem C07_programs_other_calls (R : fieldType) (N : eqType) (truthy : pred N) (q : stmt R N) d a m :
  let c := s_core (after truthy q) in ~~ naming a ->
  let: (c', r) := do_cmd truthy d a c in
  ((m < w_nm (c_w c))%N -> forall p, name_of c' m p = name_of c m p) /\
  ((w_nm (c_w c) <= m)%N -> forall n, named c' m n = None).
Proof. exact: programs_other. Qed.
Print Assumptions C07_programs_other_calls.

(* C07, C09. [GP(mean, kernel, measure=mo, name=no)] that returns: the process is new, it is in
   one measure (the given one, the default or a brand-new one), with this mean and kernel, and
   it has the name if it is not falsy, and otherwise none. *)
Theorem C09_programs_constructor (R : fieldType) (N : eqType) (truthy : pred N) (q : stmt R N)
    d mu k mo no c' v : let c := s_core (after truthy q) in
  do_cmd truthy d (CGP mu k mo no) c = (c', Some v) ->
  let m := if mo is Some m then m else if d is Some m then m else w_nm (c_w c) in
  exists r, [/\ v = VRes _ (RPid R r), (w_np (c_w c) <= r)%N, w_gm (c_w c') r = [:: m],
      see_m (c_w c') m r = Some mu & see_k (c_w c') m r r = Some k] /\
    (forall n, no = Some n -> truthy n -> name_of c' m r = Some n /\ named c' m n = Some r) /\
    ((forall n, no = Some n -> ~~ truthy n) -> forall m0, name_of c' m0 r = None).
Proof. exact: programs_gp. Qed.
Print Assumptions C09_programs_constructor.

(* C08. The constructor with a name that is taken raises, but the process is in the measure
   all the same, without a name; no name changes. *)
Theorem C08_programs_constructor_rejected (R : fieldType) (N : eqType) (truthy : pred N) (q : stmt R N)
    d mu k m n t : let c := s_core (after truthy q) in
  (m < w_nm (c_w c))%N -> truthy n -> named c m n = Some t ->
  let: (c', r) := do_cmd truthy d (CGP mu k (Some m) (Some n)) c in
  [/\ r = None, members (c_w c') m = rcons (members (c_w c) m) (w_np (c_w c)),
      name_of c' m (w_np (c_w c)) = None & forall m' t', name_of c' m' t' = name_of c m' t'].
Proof. exact: programs_gp_rejected. Qed.
Print Assumptions C08_programs_constructor_rejected.

(* C09. If no measure is entered while it is already entered, the program does the same as with
   lexical scope ([scoped] of ApiSpec.v), raises the same, and leaves no default behind. *)
Theorem C09_programs_nest_partial (R : fieldType) (N : eqType) (truthy : pred N) (q : stmt R N) :
  let: (c', e, ok) := scoped truthy q [::] (core0 R N) in ok ->
  let: (s', e') := exec truthy q (state0 R N) in [/\ s_core s' = c', e' = e & s_default s' = None].
Proof. exact: programs_nest. Qed.
Print Assumptions C09_programs_nest_partial.

(* C61. [p | obs] returns a new process in a new measure: that measure is the posterior
   [p.measure | obs], the process has the mean of [p] under it and all covariances of [p] with
   the processes of the prior, and the prior is left alone. *)
Theorem C61_process_condition (R : fieldType) (N : eqType) (truthy : pred N) (q : stmt R N) d p o c' v :
  let c := s_core (after truthy q) in
  do_cmd truthy d (CGiven N p o) c = (c', Some v) ->
  let w := c_w c in let w' := c_w c' in
  exists m m' r w1,
    [/\ v = VRes _ (RPid R r), home w p = Some m, step w (OCond m o) = (w1, ROk (RMid R m')), (w_np w <= r)%N &
        w_gm w' r = [:: m']] /\
    [/\ (w_nm w <= m')%N, kept w w', forall m0, (m0 < w_nm w)%N -> c_names c' m0 = c_names c m0,
        members w' m' = rcons (members w m) r &
        [/\ see_m w' m' r = see_m w1 m' p, see_k w' m' r r = see_k w1 m' p p &
            forall j, j \in members w m ->
              [/\ see_k w' m' r j = see_k w1 m' p j, see_k w' m' j r = see_k w1 m' j p,
                  see_m w' m' j = see_m w1 m' j &
                  forall i, i \in members w m -> see_k w' m' i j = see_k w1 m' i j]]].
Proof. exact: programs_given. Qed.
Print Assumptions C61_process_condition.

(* C61. It does not raise if the process has a measure that has the observed processes. *)
Theorem C61_process_condition_returns (R : fieldType) (N : eqType) (truthy : pred N) (ops : seq (op R))
    d p o (c : core R N) m : safe world0 ops -> c_w c = run_ops ops ->
  home (c_w c) p = Some m -> all (fun i => i \in members (c_w c) m) (o_pids o) ->
  exists c' v, do_cmd truthy d (CGiven N p o) c = (c', Some v).
Proof. exact: programs_given_ok. Qed.
Print Assumptions C61_process_condition_returns.

Definition ex_ops (R : fieldType) : seq (op R) := [:: OMeasure; OGP 0%N MZero (ek R)].
Example ex_returns (R : fieldType) : let c := Core (run_ops (@ex_ops R)) (fun=> Naming.names_new nat_eqType) (fun=> None) in
  [/\ safe world0 (@ex_ops R), c_w c = run_ops (@ex_ops R), home (c_w c) 0%N = Some 0%N &
      all (fun i => i \in members (c_w c) 0%N) (o_pids (eobs R))].
Proof. split; [split; [|split] | | |]; vm_compute; try reflexivity; exact I. Qed.

(* The example: there is no re-entry and no exception at the end; the processes are where their
   blocks say, [h] (4) exists although its constructor raised. *)
Example ex_scoped (R : fieldType) :
  let: (c, e, ok) := scoped every (@ex_prog R) [::] (core0 R nat_eqType) in
  (e, ok, [seq w_gm (c_w c) p | p <- iota 0 6]) =
  (false, true, [:: [:: 0; 3]; [:: 1]; [:: 1]; [:: 0; 3]; [:: 2]; [:: 3]])%N.
Proof. vm_compute; reflexivity. Qed.
Example ex_names (R : fieldType) : let c := s_core (after every (@ex_prog R)) in
  (named c 0 1, named c 1 1, name_of c 1 2, named c 3 1)%N = (Some 0, Some 1, None, None)%N.
Proof. vm_compute; reflexivity. Qed.
Example ex_setter (R : fieldType) : let c := s_core (after every (@ex_prog R)) in
  let: (c', r) := do_cmd every None (CSet R 0%N 2%N) c in
  (isSome r, w_gm (c_w c) 0%N, named c' 0 2, named c' 3 2, named c' 0 1)%N = (true, [:: 0; 3], Some 0, Some 0, None)%N.
Proof. vm_compute; reflexivity. Qed.
Example ex_name_of (R : fieldType) : let c := s_core (after every (@ex_prog R)) in
  (omap (fun v => if v is VName n then Some n else None) (do_cmd every None (CNameOf R nat_eqType 0%N) c).2,
   w_gm (c_w c) 0%N, name_of c 3 0)%N = (Some (Some 1), [:: 0; 3], None)%N.
Proof. vm_compute; reflexivity. Qed.
Example ex_given (R : fieldType) : let c := s_core (after every (@ex_prog0 R)) in
  (omap (fun v => if v is VRes (RPid r) then Some r else None) (do_cmd every None (CGiven nat_eqType 0%N (eobs R)) c).2,
   home (c_w c) 0%N, members (c_w c) 0%N) = (Some (Some 5%N), Some 0%N, [:: 0; 3]%N).
Proof. vm_compute; reflexivity. Qed.
Example ex_rejected (R : fieldType) : let c := s_core (after every (@ex_prog0 R)) in
  (named c 0%N 1%N, w_nm (c_w c), w_np (c_w c)) = (Some 0%N, 3%N, 5%N).
Proof. vm_compute; reflexivity. Qed.

(* C09. [with m: with m: pass] leaves a default behind. *)
Theorem C09_programs_reentry_refuted (R : fieldType) : exists q : stmt R nat_eqType,
  s_default (after every q) = Some 0%N /\ (exec every q (state0 R nat_eqType)).2 = false.
Proof.
exists (SSeq (SDo 0%N (fun=> COp nat_eqType OMeasure)) (SWith (@mval R ^~ 0%N) (SWith (@mval R ^~ 0%N) (SSkip R nat_eqType)))).
vm_compute; split; reflexivity.
Qed.
Print Assumptions C09_programs_reentry_refuted.
