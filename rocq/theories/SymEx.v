(* A model for P_Sym.v, with all kinds of operations. *)
From Coq Require Import List.
From mathcomp Require Import all_ssreflect all_algebra.
From Verif Require Import Graph Machine Refine Worlds Eval GraphSpec RV ModelSpec ExModel TotalEx ProdSpec ProdEx SymSpec SymThms.
Set Implicit Arguments. Unset Strict Implicit. Unset Printing Implicit Defensive.
Import GRing.Theory Num.Theory.
Local Open Scope ring_scope.

Section SymEx.
Variable R : realFieldType.
(* 0: a GP, 1: a process with a rule of the user, 2: their product (with its parts 3-6), 7: its
   derivative, 8: cross(7, 1), 9: a GP that is constructed later, 10: 9 + 7; measure 1 is
   measure 0 given noisy observations of 1. *)
Definition yob : obs R := Obs 1 (X01 R) (idm R 2) [:: 1; 2%:R].
Definition yops : seq (op R) :=
  [:: OMeasure; OGP 0 (MElem (xmu 0)) (KElem (@klin R));
      OUser 0 MZero (KElem (@klin R)) (fun=> Some (KScale (1 / 2%:R) (KElem (@klin R)))) None; OMul 0 1 [:: 0%N];
      ODiff 2 0; OCross [:: 7; 1]%N [:: 0%N]; OGP 0 MZero (KElem (@klin R)); OCond 0 yob; OSum 9 7 [:: 1; 0]%N].
Definition yw := run_ops yops.
Lemma y_kernels k : given_kernel yops k -> k = KElem (@klin R).
Proof.
case=> [[m [mu H]]|[m [mu [l [r H]]]]]; move: H; rewrite /yops /=; intuition; try discriminate;
  match goal with E : _ = _ |- _ => by case: E => _ _ <- | E : _ = _ |- _ => by case: E => _ _ <- _ _ end.
Qed.
Lemma y_sym k : given_kernel yops k -> symmetric_kernel (@eD R) yw k.
Proof. move=> /y_kernels ->; apply: elem_symmetric => s t; exact: (@xka_sym R 0). Qed.
Lemma y_noise m o : In (OCond m o) yops -> square_sym (o_noise o).
Proof.
rewrite /yops /=; intuition; try discriminate.
match goal with E : OCond _ _ = OCond _ _ |- _ => case: E => _ <- end; exact: idm_sym.
Qed.
Lemma y_partials : mixed_partials (@eD R) yops.
Proof. by have [cs H] := @eD_diff R; apply: sums_commute H. Qed.
Lemma yc1 : has_c yw 8 9 (X01 R) (X1 R). Proof. vm_compute; reflexivity. Qed.
Lemma yc2 : has_c yw 9 8 (X1 R) (X01 R). Proof. vm_compute; reflexivity. Qed.
Lemma yc3 : has_c yw 8 8 (X01 R) (Fdd 7 (X1 R)). Proof. vm_compute; reflexivity. Qed.
Lemma yc4 : has_c yw 8 8 (Fdd 7 (X1 R)) (X01 R). Proof. vm_compute; reflexivity. Qed.
Lemma yc5 : has_c yw 10 2 (X01 R) (X1 R). Proof. vm_compute; reflexivity. Qed.
Lemma yc6 : has_c yw 2 10 (X1 R) (X01 R). Proof. vm_compute; reflexivity. Qed.
Lemma ye1 : exists M, cov_is (@eD R) yw 0 8 9 (X01 R) (X1 R) M. Proof. exact (c_of yc1). Qed.
Lemma ye2 : exists M, cov_is (@eD R) yw 0 9 8 (X1 R) (X01 R) M. Proof. exact (c_of yc2). Qed.
Lemma ye3 : exists M, cov_is (@eD R) yw 0 8 8 (X01 R) (Fdd 7 (X1 R)) M. Proof. exact (c_of yc3). Qed.
Lemma ye4 : exists M, cov_is (@eD R) yw 0 8 8 (Fdd 7 (X1 R)) (X01 R) M. Proof. exact (c_of yc4). Qed.
Lemma ye5 : exists M, cov_is (@eD R) yw 0 10 2 (X01 R) (X1 R) M. Proof. exact (c_of yc5). Qed.
Lemma ye6 : exists M, cov_is (@eD R) yw 0 2 10 (X1 R) (X01 R) M. Proof. exact (c_of yc6). Qed.
End SymEx.
