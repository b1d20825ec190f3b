(* A GP that is constructed after a Cartesian product: the cross-covariance with it is the
   zero kernel, which has one column per input and not one per value. *)
From Coq Require Import List.
From mathcomp Require Import all_ssreflect all_algebra.
From mathcomp Require Import zify.
From Verif Require Import Graph Machine Refine Worlds Eval GraphSpec GraphProofs GraphOps RV RVProofs ModelSpec.
Set Implicit Arguments. Unset Strict Implicit. Unset Printing Implicit Defensive.
Import GRing.Theory.
Local Open Scope ring_scope.

Section Late.
Variable R : fieldType.
Definition lk : kexp R := KElem (fun _ _ => 1).
(* 0: f, 1: cross(f, f), 2: g *)
Definition late_ops : seq (op R) :=
  [:: OMeasure; OGP 0 (@MZero R) lk; OCross [:: 0; 0]%N [:: 0%N]; OGP 0 (@MZero R) lk].
Definition late_x : input R := Num [:: [::]].

Lemma late_shape : exists M e, [/\ cov_is (fun _ _ _ => 0) (run_ops late_ops) 0 2 1 late_x late_x M,
  mean_is (fun _ _ _ => 0) (run_ops late_ops) 0 1 late_x e & (nc M = 1 /\ size e = 2)%N].
Proof.
exists (dzero R 1 1), [:: 0; 0]; split=> //.
  by exists 5%N; vm_compute.
by exists 5%N; vm_compute.
Qed.

(* With the GP constructed first the shape is right. *)
Definition early_ops : seq (op R) :=
  [:: OMeasure; OGP 0 (@MZero R) lk; OGP 0 (@MZero R) lk; OCross [:: 0; 0]%N [:: 0%N]].
Lemma early_shape : let w := run_ops early_ops in let D (d : nat) (f : point R -> R) (x : point R) := 0 in
  omap (@nc R) (kernel_at D 20 w 0 1 2 late_x late_x) = Some 2%N /\ omap size (mean_at D 6 w 0 2 late_x) = Some 2%N.
Proof. by vm_compute. Qed.

Lemma late_log : w_nm (run_ops late_ops) = 1%N /\
  w_log (run_ops late_ops) 0 = HAdd 2 (DInd (@MZero R) lk) (HAdd 1 (DCross [:: 0; 0]%N) (HAdd 0 (DInd (@MZero R) lk) HRoot)).
Proof. by vm_compute. Qed.

Lemma late_cov (W : space R) (G : pid -> point R -> rv W) (eps : mid -> nat -> rv W) : exists M u v,
  [/\ cov_is (fun _ _ _ => 0) (run_ops late_ops) 0 2 1 late_x late_x M,
      is_at (fun _ _ _ => 0) G eps (run_ops late_ops) 0 2 late_x u,
      is_at (fun _ _ _ => 0) G eps (run_ops late_ops) 0 1 late_x v &
      forall M', cov_is (fun _ _ _ => 0) (run_ops late_ops) 0 2 1 late_x late_x M' -> ~ covmat M' u v].
Proof.
exists (dzero R 1 1), [:: G 2%N [::]], [:: G 0%N [::]; G 0%N [::]]; have [en el] := late_log; split.
- by exists 5%N; vm_compute.
- by split; rewrite ?en // el; constructor; exists [:: [::]].
- split; rewrite ?en // el; constructor; exists [:: [:: G 0%N [::]]; [:: G 0%N [::]]] => //.
  have A : at_ (fun _ _ _ => 0) G eps 0 (HAdd 0 (DInd (@MZero R) lk) HRoot) 0 late_x [:: G 0%N [::]] by exists [:: [::]].
  by constructor=> //; constructor.
move=> M' [n]; have K : see_k (run_ops late_ops) 0 2 1 = Some KZero by vm_compute.
rewrite /kernel_at K /=; case: n => [//|n]; rewrite /late_x => -[<-].
by case=> _.
Qed.
End Late.
