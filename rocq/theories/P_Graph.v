(* Theorems about model graphs: C14-C20, C25, C27, C36.
   Statements use GraphSpec.v and the machine of Machine.v; all proofs are elsewhere. *)
From mathcomp Require Import all_ssreflect all_algebra.
From Verif Require Lazy.
From Verif Require Import Graph Machine GraphSpec GraphProofs GraphOps GraphFacts Worlds.
Set Implicit Arguments. Unset Strict Implicit. Unset Printing Implicit Defensive.
Import GRing.Theory.

Implicit Types (m : mid) (i j p q r : pid).

(* A model for the examples: a measure with two processes and their sum, conditioned on
   (an empty set of) data of the first process. *)
Definition ex_k {R : fieldType} : kexp R := KElem (fun _ _ => 1%R).
Definition ex_obs {R : fieldType} p : obs R := Obs p (Num [::]) (dzero R 0 0) [::].
Definition ex_ops {R : fieldType} : seq (op R) :=
  [:: OMeasure; OGP 0 (@MZero R) ex_k; OGP 0 (@MZero R) ex_k; OSum 0 1 [:: 0]; OCond 0 (ex_obs 0)].

(* C14. Two histories that differ only in reads give the same results for all other
   operations and lead to worlds in which everything that can be observed (kernels, means,
   their values at all inputs, membership) is the same. *)
Theorem C14_reads_are_pure (R : fieldType) (ops ops' : seq (op R)) :
  filter (@not_read R) ops = filter (@not_read R) ops' ->
  results world0 ops = results world0 ops' /\ same_view (run_ops ops) (run_ops ops').
Proof. exact: pure_results. Qed.
Print Assumptions C14_reads_are_pure.

(* C14. A read returns what can be observed of the world. *)
Theorem C14_read_kernel (R : fieldType) (ops : seq (op R)) m i j : op_exists (run_ops ops) (@OReadK R m i j) ->
  (step (run_ops ops) (OReadK m i j)).2 =
  if see_k (run_ops ops) m i j is Some k then ROk (RK k) else RErr (result R).
Proof. exact: (read_result (winv_run ops)). Qed.
Print Assumptions C14_read_kernel.

Theorem C14_read_mean (R : fieldType) (ops : seq (op R)) m i : op_exists (run_ops ops) (@OReadM R m i) ->
  (step (run_ops ops) (OReadM m i)).2 =
  if see_m (run_ops ops) m i is Some k then ROk (RM k) else RErr (result R).
Proof. exact: (read_result_m (winv_run ops)). Qed.
Print Assumptions C14_read_mean.

(* Reads really store something, so that there is something to prove. *)
Example C14_example (R : fieldType) : let w := run_ops (@ex_ops R ++ [:: OReadK 1 2 1]) in
  ~~ s_kval (w_heap (run_ops (@ex_ops R)) 1) 2 1 && s_kval (w_heap w 1) 2 1.
Proof. by vm_compute. Qed.

(* C15. Nothing that happens later changes the processes of a measure. *)
Theorem C15_extension_is_conservative (R : fieldType) (ops ops2 : seq (op R)) m i j :
  let w := run_ops ops in let w' := run_ops (ops ++ ops2) in
  i \in members w m -> j \in members w m ->
  [/\ i \in members w' m, see_k w' m i j = see_k w m i j, see_m w' m i = see_m w m i,
      forall D n x y M, kernel_at D n w m i j x y = Some M -> kernel_at D n w' m i j x y = Some M &
      forall D n x v, mean_at D n w m i x = Some v -> mean_at D n w' m i x = Some v].
Proof. exact: conservative. Qed.
Print Assumptions C15_extension_is_conservative.

Example C15_example (R : fieldType) :
  members (run_ops (take 4 (@ex_ops R))) 0 = [:: 0; 1; 2] /\
  members (run_ops (@ex_ops R ++ [:: OAddC 2 1%R])) 0 = [:: 0; 1; 2; 3].
Proof. by vm_compute. Qed.

(* C16. Reads of kernels and means succeed for exactly the processes of a measure. *)
Theorem C16_available (R : fieldType) (ops : seq (op R)) m i j : safe world0 ops ->
  let w := run_ops ops in
  ((exists k, see_k w m i j = Some k) <-> i \in members w m /\ j \in members w m) /\
  ((exists mu, see_m w m i = Some mu) <-> i \in members w m).
Proof. exact: available_iff. Qed.
Print Assumptions C16_available.

(* C16. No operation exhausts the recursion bound of the model: the mutually recursive
   rules terminate. *)
Theorem C16_terminates (R : fieldType) (ops : seq (op R)) (o : op R) : (step (run_ops ops) o).2 <> ROof (result R).
Proof. exact (noof_step (winv_run ops)). Qed.
Print Assumptions C16_terminates.

Example C16_example (R : fieldType) :
  safe world0 (@ex_ops R) /\ members (run_ops (@ex_ops R)) 1 = [:: 0; 1; 2].
Proof. by vm_compute. Qed.

(* C17. A new GP has the given mean and kernel, and the zero kernel with every process
   that exists; at all inputs the covariance matrix is zero. *)
Theorem C17_independent (R : fieldType) (ops : seq (op R)) m mu k w' res :
  let w := run_ops ops in step w (OGP m mu k) = (w', ROk res) ->
  exists r, [/\ res = RPid R r, see_m w' m r = Some mu, see_k w' m r r = Some k &
    forall j, j \in members w m -> forall ops' D n x y (w'' := run_from w' ops'),
      (forall M, kernel_at D n w'' m r j x y = Some M -> zero_matrix M) /\
      (forall M, kernel_at D n w'' m j r y x = Some M -> zero_matrix M)].
Proof. exact: independent. Qed.
Print Assumptions C17_independent.

Example C17_example (R : fieldType) :
  let: (w', res) := step (run_ops (@ex_ops R)) (OGP 0 (@MZero R) ex_k) in
  let x : input R := Num [:: [::]; [::]] in
  res = ROk (RPid R 3) /\
  (if kernel_at (fun _ _ _ => 0%R) 5 w' 0 3 2 x x is Some M then nr M else 0) = 2.
Proof. by vm_compute. Qed.

(* C18. Scope of derived processes. *)
Theorem C18_derived_scope (R : fieldType) (ops : seq (op R)) (o : op R) ps w' res :
  let w := run_ops ops in operands o = Some ps -> step w o = (w', ROk res) ->
  exists r, [/\ res = RPid R r /\ (w_np w <= r)%N,
      forall m, (m \in w_gm w' r) = (m < w_nm w)%N && all (fun p => m \in w_gm w p) ps,
      forall m, count_mem r (members w' m) = (m \in w_gm w' r),
      forall m, m \notin w_gm w' r ->
        [/\ members w' m = members w m, forall i j, see_k w' m i j = see_k w m i j &
            forall i, see_m w' m i = see_m w m i] &
      forall p, (p < w_np w)%N -> w_gm w' p = w_gm w p].
Proof. exact: derived_scope. Qed.
Print Assumptions C18_derived_scope.

(* The list of measures of a process and the lists of processes of the measures agree. *)
Theorem C18_consistent (R : fieldType) (ops : seq (op R)) m p :
  let w := run_ops ops in
  [/\ (m \in w_gm w p) = (m < w_nm w)%N && (p \in members w m), uniq (w_gm w p) &
      uniq (members w m)].
Proof. exact: consistent. Qed.
Print Assumptions C18_consistent.

Example C18_example (R : fieldType) :
  let: (w', res) := step (run_ops (@ex_ops R)) (OSum 0 2 [:: 1; 0]) in
  res = ROk (RPid R 3) /\ w_gm w' 3 = [:: 1; 0].
Proof. by vm_compute. Qed.

(* C19. The home measure of [f + g] need not be that of [f]: it depends on the order in
   which a set is iterated. *)
Theorem C19_home_refuted (R : fieldType) : exists (ops : seq (op R)) p q ord w' r,
  let w := run_ops ops in
  [/\ step w (OSum p q ord) = (w', ROk (RPid R r)), home w p = home w q &
      home w' r <> home w p].
Proof. exact: (home_refuted R). Qed.
Print Assumptions C19_home_refuted.

(* What does hold: the home of a derived process is a measure of all its operands; it is
   the home of the operand when there is one operand and the operation is not [cross], or
   when the operands have one measure in common. *)
Theorem C19_home_partial (R : fieldType) (ops : seq (op R)) (o : op R) ps w' r :
  let w := run_ops ops in operands o = Some ps -> step w o = (w', ROk (RPid R r)) ->
  [/\ forall m, home w' r = Some m -> all (fun p => m \in w_gm w p) ps,
      forall p, ps = [:: p] -> (if o is OCross _ _ then False else True) -> home w' r = home w p &
      forall p m, p \in ps -> (forall m', all (fun q => m' \in w_gm w q) ps = (m' == m)) ->
        home w' r = home w p].
Proof. exact: home_partial. Qed.
Print Assumptions C19_home_partial.

Example C19_example (R : fieldType) :
  let: (w', res) := step (run_ops (@ex_ops R)) (OSum 0 2 [:: 0; 1]) in
  let: (w'', res') := step w' (OScale 3 1%R) in
  [/\ res = ROk (RPid R 3), res' = ROk (RPid R 4) & home w'' 4 = Some 0].
Proof. by vm_compute. Qed.

(* C20. Sums, products and Cartesian products of processes with different home measures
   raise and change nothing. *)
Theorem C20_mixing_rejected (R : fieldType) (ops : seq (op R)) (o : op R) ps p q :
  let w := run_ops ops in
  op_exists w o -> binary o = Some ps -> p \in ps -> q \in ps -> home w p <> home w q ->
  (step w o).2 = RErr (result R) /\ same_view (step w o).1 w.
Proof. exact: (mixing (winv_run ops)). Qed.
Print Assumptions C20_mixing_rejected.

Example C20_example (R : fieldType) :
  let w := run_ops (@ex_ops R ++ [:: OMeasure; OGP 2 (@MZero R) ex_k]) in
  op_exists w (@OSum R 0 3 [::]) && (home w 0 != home w 3).
Proof. by vm_compute. Qed.

(* C25. [add_gp] ignores its right rule: there are rules for which the kernel that is read
   with the new process on the right is another one than the right rule gives. *)
Theorem C25_right_rule_refuted (R : fieldType) : exists (ops : seq (op R)) m mu k l rr w' r j x D,
  let w := run_ops ops in
  [/\ step w (@OUser R m mu k l (Some rr)) = (w', ROk (RPid R r)), j \in members w m &
      exists A B, [/\ kernel_at D 5 w' m j r x x = Some A,
        obind (fun k => evk (see_k w') (see_m w') D 5 k x x) (rr j) = Some B & ent A 0 0 <> ent B 0 0]].
Proof. exact: (right_rule_refuted R). Qed.
Print Assumptions C25_right_rule_refuted.

(* What does hold: the left rule is used, and its transpose on the other side. *)
Theorem C25_rules_partial (R : fieldType) (ops : seq (op R)) m mu k l rr w' res :
  let w := run_ops ops in step w (OUser m mu k l rr) = (w', ROk res) ->
  exists r, [/\ res = RPid R r, see_m w' m r = Some mu, see_k w' m r r = Some k &
      forall j, j \in members w m ->
        see_k w' m r j = l j /\ see_k w' m j r = omap (fun k => KRev k) (l j)].
Proof. exact: user_rules_run. Qed.
Print Assumptions C25_rules_partial.

Example C25_example (R : fieldType) :
  let: (w', res) := step (run_ops (@ex_ops R)) (OUser 0 MZero ex_k (fun _ => Some ex_k) None) in
  res = ROk (RPid R 3) /\ see_k w' 0 1 3 = Some (KRev ex_k).
Proof. by vm_compute. Qed.

(* C27. A copy has the mean and the kernels of the original in both index orders, also
   with the original. *)
Theorem C27_copy_law (R : fieldType) (ops : seq (op R)) m p w' res :
  let w := run_ops ops in step w (OCopy m p) = (w', ROk res) ->
  exists r, [/\ res = RPid R r, p \in members w m, r \notin members w m,
      see_m w' m r = see_m w m p & see_k w' m r r = see_k w m p p] /\
  (forall j, j \in members w m ->
     see_k w' m r j = see_k w m p j /\ see_k w' m j r = see_k w m j p).
Proof. exact: copy_law. Qed.
Print Assumptions C27_copy_law.

Example C27_example (R : fieldType) :
  let: (w', res) := step (run_ops (@ex_ops R)) (OCopy 1 2) in
  res = ROk (RPid R 3) /\ home w' 3 = Some 1.
Proof. by vm_compute. Qed.

(* C36. A posterior has exactly the processes of the prior at the time of conditioning;
   processes that exist but were not in the prior are never available under it; conditioning
   does not change what can be observed under the other measures. *)
Theorem C36_posterior_scope (R : fieldType) (ops : seq (op R)) m ob w' res :
  let w := run_ops ops in step w (OCond m ob) = (w', ROk res) ->
  exists m', [/\ res = RMid R m', (w_nm w <= m')%N, members w' m' = members w m,
      forall p, (m' \in w_gm w' p) = (p \in members w m) &
      forall p, (p < w_np w)%N -> p \notin members w m -> forall ops',
        let w'' := run_from w' ops' in
        [/\ p \notin members w'' m', see_m w'' m' p = None &
            forall j, see_k w'' m' p j = None /\ see_k w'' m' j p = None]].
Proof. exact: posterior_scope. Qed.
Print Assumptions C36_posterior_scope.

(* A process created under the prior (or any other measure) after conditioning does not
   enter the posterior, now or later. *)
Theorem C36_later_processes (R : fieldType) (ops : seq (op R)) m m' mu k w' r ops' :
  let w := run_ops ops in step w (OGP m mu k) = (w', ROk (RPid R r)) -> m' <> m -> (m' < w_nm w)%N ->
  let w'' := run_from w' ops' in
  [/\ r \notin members w'' m', see_m w'' m' r = None &
      forall j, see_k w'' m' r j = None /\ see_k w'' m' j r = None].
Proof. exact: later_processes. Qed.
Print Assumptions C36_later_processes.

Example C36_example (R : fieldType) : let w := run_ops (@ex_ops R) in
  let: (w', res) := step w (OGP 0 (@MZero R) ex_k) in
  [/\ members w 1 = [:: 0; 1; 2], see_k w 1 2 0 : bool, res = ROk (RPid R 3) &
      members w' 0 = [:: 0; 1; 2; 3]].
Proof. by vm_compute. Qed.
