(* An example that meets the hypotheses of the theorems about pseudo-point approximations. *)
From mathcomp Require Import all_ssreflect all_algebra.
From Verif Require Import Graph NormalSpec MatrixFacts Normal NormalFacts Pseudo PseudoSpec PseudoFacts ExNormal.
Set Implicit Arguments. Unset Strict Implicit. Unset Printing Implicit Defensive.
Import Order.TTheory GRing.Theory Num.Theory.
Local Open Scope ring_scope.

Lemma model_noise_gt0 (R : rcfType) k n (o : obs R k n) (m : data R k n) (noise : 'I_n -> R) (K : 'M[R]_n) :
  (forall i, 0 < noise i) -> (forall i, K_x_diag m i = K i i) -> pd (compute_K_z o m) -> psd (noise_z o) ->
  psd (block_mx (K_zz m) (K_zx m) (K_zx m)^T K) ->
  forall i, 0 < model_noise (compute_K_z o m) (K_zx m) (meth o) noise (K_x_diag m) i.
Proof.
move=> N0 KD PZ PN J i; rewrite /model_noise; case: (meth o) => //.
have := psd_diag i (residual_psd PZ PN J); rewrite KD addmxE [X in _ + X]mxE => h; exact: ltr_paddr.
Qed.

Section Ex.
Variable R : rcfType.
Definition ex_obs (me : method) (z : 'M[R]_2) : obs R 2 2 := PseudoObs z (Diagonal (fun i => i%:R + 1)) (ex_mean R) me.
Definition ex_data : data R 2 2 := Data (ex_var R) (ex_var R) (fun i => ex_var R i i) 0 0.
Lemma ex_joint : psd (block_mx (ex_var R) (ex_var R) (ex_var R)^T (ex_var R)).
Proof.
have -> : block_mx (ex_var R) (ex_var R) (ex_var R)^T (ex_var R) = col_mx 1%:M (1%:M : 'M_2) *m ex_var R *m (col_mx 1%:M (1%:M : 'M_2))^T.
  by rewrite tr_col_mx mul_col_mx mul_col_row trmx1 !mul1mx !mulmx1 (ex_var_pd R).1.
by apply: psd_conj; apply: pd_psd; apply: ex_var_pd.
Qed.
Lemma ex_noise_gt0 (i : 'I_2) : 0 < (i%:R + 1 : R). Proof. by apply: ltr_paddl; rewrite ?ler0n ?ltr01. Qed.
Lemma psd0 n : psd (0 : 'M[R]_n).
Proof. by split=> [|v]; rewrite ?trmx0 // /qf mulmx0 mul0mx mxE. Qed.
(* With noisy inducing variables. *)
Lemma ex_pseudo me : let o := ex_obs me 1%:M in let noise (i : 'I_2) : R := i%:R + 1 in
  [/\ pd (compute_K_z o ex_data), psd (noise_z o), forall i, 0 < noise i,
      forall i, 0 < model_noise (compute_K_z o ex_data) (K_zx ex_data) (meth o) noise (K_x_diag ex_data) i
    & psd (block_mx (K_zz ex_data) (K_zx ex_data) (K_zx ex_data)^T (ex_var R)) /\ forall i, K_x_diag ex_data i = ex_var R i i].
Proof.
move=> o noise; have P : pd (compute_K_z o ex_data) by apply: pd_add; [apply/pd_psd/ex_var_pd | apply: pd1].
have Q : psd (noise_z o) by apply/pd_psd/pd1.
split=> //; [exact: ex_noise_gt0 | | by split=> //; apply: ex_joint].
by apply: (@model_noise_gt0 _ _ _ o ex_data noise (ex_var R)) => //; [apply: ex_noise_gt0 | apply: ex_joint].
Qed.
(* Inducing points at the data. *)
Lemma ex_at_data me : let o := ex_obs me 0 in
  [/\ noise_z o = 0, K_zx ex_data = K_zz ex_data, forall i, K_x_diag ex_data i = K_zz ex_data i i,
      pd (K_zz ex_data) & forall i : 'I_2, 0 < (i%:R + 1 : R)].
Proof. by split=> //; [apply: ex_var_pd | apply: ex_noise_gt0]. Qed.
End Ex.
