(* Theorems about the caches of observations: C57, C58.  Statements use CachesSpec.v; all
   proofs are elsewhere. *)
From mathcomp Require Import all_ssreflect.
From Verif Require Import Caches CachesSpec CachesFacts CachesOnce.
Set Implicit Arguments. Unset Strict Implicit. Unset Printing Implicit Defensive.

(* C57: in every possible history every call gives what is computed for the measure passed in. *)
Theorem C57_exact measure V (attached : measure -> bool) (kx : measure -> V) l os :
  run attached (K_x attached kx) [::] [::] l = Some os ->
  os = [seq fresh attached kx x.2 | x <- calls (fun=> None) l].
Proof. exact (exact_history (l:=l) (os:=os)). Qed.
(* Computed once: after a call that returned, the same answer is given without computing, that
   is whatever the functions that compute it. *)
Theorem C57_exact_once measure V (attached : measure -> bool) (kx : measure -> V) u a m c c' v :
  K_x attached kx u a m c = (c', Returned v) ->
  forall attached' kx' u' (m' : measure), K_x attached' kx' u' a m' c' = (c', Returned v).
Proof. exact (exact_once (u:=u) (a:=a) (m:=m) (c:=c) (c':=c') (v:=v)). Qed.
Section Pseudo.
Variables (measure VK VA VM VE : Type) (attached : measure -> bool).
Variables (kz : measure -> VK) (av : measure -> VA) (mv : measure -> VM) (ev : measure -> VE).
Theorem C57_pseudo l os :
  run attached (pseudo_request attached kz av mv ev true) [::] (empty _ _ _ _) l = Some os ->
  os = [seq fresh attached (answer kz av mv ev x.1.1) x.2 | x <- calls (fun=> None) l].
Proof. exact (pseudo_history (l:=l) (os:=os)). Qed.
(* After one method returned, no method computes anything. *)
Theorem C57_pseudo_once l r a m c' v r' :
  pseudo_request attached kz av mv ev true r a m (after attached kz av mv ev l) = (c', Returned v) ->
  exists v', (r' = r -> v' = v) /\ forall attached' kz' av' mv' ev' d' (m' : measure),
    pseudo_request attached' kz' av' mv' ev' d' r' a m' c' = (c', Returned v').
Proof. exact (pseudo_once (l:=l) (r:=r) (a:=a) (m:=m) (c':=c') (v:=v) r'). Qed.

(* C58: with noise that is not diagonal every call raises, except that K_z, after a call that
   raised, gives K_z. *)
Theorem C58_rejected_partial l os :
  run attached (pseudo_request attached kz av mv ev false) [::] (empty _ _ _ _) l = Some os ->
  List.Forall2 (fun (x : method_call * nat * option measure) o =>
    o = Raised RuntimeError \/ x.1.1 = CallKz /\ exists m, x.2 = Some m /\ o = Returned [:: IsKz _ _ _ (kz m)])
    (calls (fun=> None) l) os.
Proof. exact (nondiag_history (l:=l) (os:=os)). Qed.
(* The first call with an address raises, whichever it is. *)
Theorem C58_first_call l os pre r a m post :
  run attached (pseudo_request attached kz av mv ev false) [::] (empty _ _ _ _) l = Some os ->
  calls (fun=> None) l = pre ++ (r, a, m) :: post -> a \notin [seq x.1.2 | x <- pre] ->
  List.nth_error os (size pre) = Some (Raised RuntimeError).
Proof. exact (first_call0 (l:=l) (os:=os) (pre:=pre) (r:=r) (a:=a) (m:=m) (post:=post)). Qed.
(* Calling K_z again gives numbers. *)
Theorem C58_K_z_again_refuted m : attached m ->
  run attached (pseudo_request attached kz av mv ev false) [::] (empty _ _ _ _)
    [:: New _ 0 m; Call _ CallKz 0; Call _ CallKz 0] =
  Some [:: Raised RuntimeError; Returned [:: IsKz _ _ _ (kz m)]].
Proof. exact (kz_retry kz av mv ev (m:=m)). Qed.
End Pseudo.

Example histories_exist : forall d, exists os,
  run (fun m : bool * nat => m.1) (ex_request d) [::] (empty _ _ _ _) ex_history = Some os /\ size os = 5.
Proof. exact ex_run. Qed.
Example exact_histories_exist : exists os,
  run (fun m : bool * nat => m.1) (K_x (fun m => m.1) (fun m => m.2)) [::] [::] ex_exact = Some os /\ size os = 4.
Proof. exact ex_run_exact. Qed.

Print Assumptions C57_exact.
Print Assumptions C57_exact_once.
Print Assumptions C57_pseudo_once.
Print Assumptions C57_pseudo.
Print Assumptions C58_rejected_partial.
Print Assumptions C58_first_call.
Print Assumptions C58_K_z_again_refuted.
