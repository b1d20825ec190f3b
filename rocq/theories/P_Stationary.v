(* Property C63: stationarity of processes (gp.py:246-249).

   [S] stands for the elementary kernels of the user that say they are stationary, and the theorems
   assume that they are.  [gp_stationary S w p] is [p.stationary]; [says S w m p] is the same for the
   kernel of [p] in the measure [m]. *)
From mathcomp Require Import all_ssreflect all_algebra.
From Verif Require Import Graph Machine GraphSpec Stationary StationaryFacts.
Set Implicit Arguments. Unset Strict Implicit. Unset Printing Implicit Defensive.
Import GRing.Theory.
Local Open Scope ring_scope.

(* C63. If [p.stationary] is true, then the covariance of [p] between any two arrays of points stays
   the same when all points are translated by the same vector, in whatever way [p] was
   constructed. *)
Theorem C63_stationary (R : fieldType) (S : (point R -> point R -> R) -> Prop) (ops : seq (op R)) p m D b :
  (forall f, S f -> invariant f) -> let w := run_ops ops in home w p = Some m ->
  gp_stationary S w p -> invariant_on_arrays (kernel_at D b w m p p).
Proof. exact: gp_invariant. Qed.
Print Assumptions C63_stationary.

(* C63. In particular, the variance is the same at all points. *)
Theorem C63_constant_variance (R : fieldType) (S : (point R -> point R -> R) -> Prop) (ops : seq (op R)) p m D b x y M :
  (forall f, S f -> invariant f) -> let w := run_ops ops in home w p = Some m ->
  gp_stationary S w p -> size x = size y -> kernel_at D b w m p p (Num [:: x]) (Num [:: x]) = Some M ->
  exists2 M', kernel_at D b w m p p (Num [:: y]) (Num [:: y]) = Some M' & same_matrix M M'.
Proof. exact: constant_variance. Qed.
Print Assumptions C63_constant_variance.

(* C63. The attribute is the same after copies, additions of constants and functions, multiplications
   by constants, shifts, stretches and selections, *)
Theorem C63_derived (R : fieldType) (S : (point R -> point R -> R) -> Prop) (ops : seq (op R)) o p w' r m :
  let w := run_ops ops in step w o = (w', ROk (RPid R r)) -> keeps_stationary o = Some p ->
  m \in w_gm w' r -> (says S w' m r <-> says S w m p).
Proof. exact: derived_run. Qed.
Print Assumptions C63_derived.

(* the sum of uncorrelated processes is stationary if and only if both are, *)
Theorem C63_sum (R : fieldType) (S : (point R -> point R -> R) -> Prop) (ops : seq (op R)) p q ord w' r m :
  let w := run_ops ops in step w (OSum p q ord) = (w', ROk (RPid R r)) -> m \in w_gm w' r ->
  see_k w m p q = Some KZero -> see_k w m q p = Some KZero -> (says S w' m r <-> says S w m p /\ says S w m q).
Proof. exact: sum_run. Qed.
Print Assumptions C63_sum.

(* and no process is stationary under a posterior, unless nothing was observed. *)
Theorem C63_posterior (R : fieldType) (S : (point R -> point R -> R) -> Prop) (ops : seq (op R)) m ob w' m' p :
  let w := run_ops ops in step w (OCond m ob) = (w', ROk (RMid R m')) ->
  (o_data ob = None -> ne (o_x ob) <> 0%N) -> ~ says S w' m' p.
Proof. exact: posterior_run. Qed.
Print Assumptions C63_posterior.

(* Example: [f] has an elementary stationary kernel and [g] one that is not; [h] is f shifted by one
   and multiplied by two, [s] is [f + g], [u] is [f + f2] with another process [f2] like [f], and
   measure 1 is a posterior. *)
Section Ex.
Variable R : realFieldType.
Definition sqd (x y : point R) : R := (nth 0 x 0 - nth 0 y 0) ^+ 2.
Definition lin (x y : point R) : R := nth 0 x 0 * nth 0 y 0.
Definition isq (f : point R -> point R -> R) : Prop := f = sqd.
Definition sob : obs R := Obs 0 (Num [:: [:: 1]]) (dzero R 1 1) [:: 1].
Definition sops : seq (op R) :=
  [:: OMeasure; OGP 0 MZero (KElem sqd); OGP 0 MZero (KElem lin); OShift 0 (fun=> 1); OScale 2 2%:R;
      OSum 0 1 [:: 0%N]; OGP 0 MZero (KElem sqd); OSum 0 5 [:: 0%N]; OCond 0 sob].
Definition sw := run_ops sops.
Definition k3 : kexp R := KScale (2%:R ^+ 2) (KMap (Some (shiftX (fun=> 1))) (Some (shiftX (fun=> 1))) (KElem sqd)).

(* The hypothesis about [S] holds. *)
Example ex_sound : forall f, isq f -> invariant f.
Proof.
move=> f -> n d x y; rewrite /sqd /translate; case: x => [|a x] <-; case: y => [|c y] //= _.
by rewrite opprD addrACA subrr addr0.
Qed.
Example ex_kernel3 : see_k sw 0 3 3 = Some k3. Proof. vm_compute; reflexivity. Qed.
Example ex_kernel1 : see_k sw 0 1 1 = Some (KElem lin). Proof. vm_compute; reflexivity. Qed.
Example ex_home : home sw 3 = Some 0%N. Proof. vm_compute; reflexivity. Qed.
Example ex_says : gp_stationary isq sw 3.
Proof.
rewrite /gp_stationary ex_home /says ex_kernel3; split=> //.
exists (shiftX (fun=> 1)); split=> //; apply: Or31; exists (fun=> 1); reflexivity.
Qed.
Example ex_cross : see_k sw 0 0 5 = Some KZero /\ see_k sw 0 5 0 = Some KZero.
Proof. vm_compute; split; reflexivity. Qed.
Example ex_value : isSome (kernel_at (fun _ f => f) 10 sw 0 3 3 (Num [:: [:: 0]]) (Num [:: [:: 0]; [:: 3%:R]])).
Proof. vm_compute; reflexivity. Qed.
(* The linear kernel does not say so, and is not invariant. *)
Example ex_lin : lin [:: 1] [:: 1] <> lin [:: 0] [:: 0].
Proof. by rewrite /lin /= mulr1 mulr0; apply/eqP; rewrite oner_eq0. Qed.
Lemma lin_not_sq : ~ isq lin.
Proof.
move=> e; have := congr1 (fun f => f [:: 1] [:: 1]) e; rewrite /lin /sqd /= mulr1 subrr expr0n /= => /eqP.
by rewrite oner_eq0.
Qed.
Example ex_home1 : home sw 1 = Some 0%N. Proof. vm_compute; reflexivity. Qed.
Example ex_lin_no : ~ gp_stationary isq sw 1.
Proof. rewrite /gp_stationary ex_home1 /says ex_kernel1; exact lin_not_sq. Qed.
(* Posteriors. *)
Example ex_posterior : (step (run_ops (take 8 sops)) (OCond 0 sob)).2 = ROk (RMid R 1) /\ ne (o_x sob) = 1%N.
Proof. vm_compute; split; reflexivity. Qed.
End Ex.
