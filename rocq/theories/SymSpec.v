(* Symmetry of kernels, in all models. *)
From Coq Require Import List.
From mathcomp Require Import all_ssreflect all_algebra.
From Verif Require Import Graph Machine ModelSpec.
Set Implicit Arguments. Unset Strict Implicit. Unset Printing Implicit Defensive.
Import GRing.Theory.
Local Open Scope ring_scope.

Section SymSpec.
Variable R : fieldType.
Variable D : nat -> (point R -> R) -> point R -> R.

(* A kernel that the user gives, as the kernel of an independently constructed GP or of
   [add_gp], is symmetric. *)
Definition given_kernel (ops : seq (op R)) (k : kexp R) : Prop :=
  (exists m mu, In (OGP m mu k) ops) \/ (exists m mu l r, In (OUser m mu k l r) ops).
Definition symmetric_kernel (w : world R) (k : kexp R) : Prop :=
  forall n n' x y M M', evk (see_k w) (see_m w) D n k x y = Some M -> evk (see_k w) (see_m w) D n' k y x = Some M' ->
    transposed M M'.

(* Derivatives of the covariance function [f] of a process that is differentiated can be
   taken in either order. *)
Definition mixed_partials (ops : seq (op R)) : Prop := forall m p d f s t, In (ODiff p d) ops ->
  (forall u v, exists2 M, cov_is D (run_ops ops) m p p (Num [:: u]) (Num [:: v]) M & f u v = ent M 0 0) ->
  D d (fun u => D d (fun v => f u v) t) s = D d (fun v => D d (fun u => f u v) s) t.
End SymSpec.
