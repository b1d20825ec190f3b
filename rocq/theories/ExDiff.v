(* Cases for the theorems about input maps, diff_approx and empty observations. *)
From Coq Require Import List.
From mathcomp Require Import all_ssreflect all_algebra.
From Verif Require Import Graph Machine Refine Worlds Eval GraphSpec GraphProofs RV Typing ModelSpec Formal Plain ModelThms PlainThms DiffApprox ExModel.
Set Implicit Arguments. Unset Strict Implicit. Unset Printing Implicit Defensive.
Import GRing.Theory Num.Theory.
Local Open Scope ring_scope.

Section ExDiff.
Variables (R : realFieldType) (h : R).
Notation xD := (@xD R).
Definition dops0 : seq (op R) := [:: OMeasure; OGP 0 (MElem (@xmu R 0)) (KElem (@klin R))].
(* The central difference. *)
Definition dgcs : seq (R * R) := [:: (- 1, - 2%:R^-1); (1, 2%:R^-1)].
Definition dops1 : seq (op R) :=
  [:: OShift 0 (fun=> - (- 1) * h); OScale 1 (- 2%:R^-1); OAddC 2 0; OShift 0 (fun=> - 1 * h); OScale 4 2%:R^-1;
      OSum 3 5 [:: 0%N]; OScale 6 (1 / h ^+ 1)].
Lemma dapprox : diff_approx 0 h 1 dgcs [:: [::]; [:: 0%N]] (run_ops dops0) = (run_ops (dops0 ++ dops1), Some 7%N).
Proof. by vm_compute. Qed.
Lemma dmember : 0%N \in w_gm (run_ops dops0) 0. Proof. by vm_compute. Qed.
Lemma dplain : plain xD (@xmu R) (@xka R) world0 (dops0 ++ dops1).
Proof. by split=> //; split; first by split; [exact: elem_mean | exact: elem_kernel]. Qed.
Lemma dmodel : exists (W : space R) (G : pid -> point R -> rv W) (eps : mid -> nat -> rv W),
  let w := run_ops (dops0 ++ dops1) in
  [/\ nonneg W, model xD G eps w everywhere &
      forall m p x k, (m < w_nm w)%N -> widths false (w_log w m) p x = Some k -> meant xD G eps w everywhere m p x].
Proof.
have N : psd_noise (dops0 ++ dops1) by move=> m o; rewrite /dops0 /dops1 /=; do 9 (case=> //).
exact (plain_all (@xD0 R) (@xka_sym R) (@xka_psd R) dplain isT N).
Qed.
Lemma dhas : let w := run_ops (dops0 ++ dops1) in
  (exists M, cov_is xD w 0 7 0 (X1 R) (X01 R) M) /\ (exists e, mean_is xD w 0 7 (X1 R) e).
Proof.
by split; [apply: (@some_cov _ _ _ _ _ _ _ 30) | apply: (@some_mean _ _ _ _ _ 30)]; vm_compute.
Qed.

(* f.shift(1) in the example model. *)
Lemma xshift : exists w1, step (run_ops (take 5 (xops R))) (OShift 0 (fun=> 1)) = (w1, ROk (RPid R 4)) /\
  xw R = run_from w1 (drop 6 (xops R)).
Proof. by eexists; split; [vm_compute; reflexivity | vm_compute]. Qed.

(* No data. *)
Definition ob0 : obs R := Obs 0 (Num [::]) (dzero R 0 0) [::].
Lemma xempty : exists w', step (run_ops dops0) (OCond 0 ob0) = (w', ROk (RMid R 1)).
Proof. by eexists; vm_compute; reflexivity. Qed.
End ExDiff.
