(* Theorems about pseudo-point approximations: C54, C55, C56.  The closed forms are in
   PseudoSpec.v, densities and definite matrices in NormalSpec.v; all proofs are elsewhere. *)
From mathcomp Require Import all_ssreflect all_algebra.
From Verif Require Import Graph NormalSpec Pseudo PseudoSpec PseudoFacts ExNormal ExPseudo.
From Verif Require Import Reals_field.
Set Implicit Arguments. Unset Strict Implicit. Unset Printing Implicit Defensive.
Import Order.TTheory GRing.Theory Num.Theory.
Local Open Scope ring_scope.

Section Pseudo.
Variables (R : rcfType) (ln : R -> R) (pi : R).
Hypotheses (LN : logarithm ln) (pi0 : 0 < pi).

(* C54: [d] is the noise of the approximate model. *)
Section ClosedForm.
Variables (k n : nat) (o : obs R k n) (m : data R k n) (noise : 'I_n -> R).
Let K_z := K_zz m + noise_z o.
Let d := model_noise K_z (K_zx m) (meth o) noise (K_x_diag m).
Hypotheses (PZ : pd K_z) (d0 : forall i, 0 < d i).
Theorem C54_covariance a b (K_st : 'M[R]_(a, b)) (K_zs : 'M[R]_(k, a)) (K_zt : 'M[R]_(k, b)) :
  posterior_cov (compute_K_z o m) (v_A (compute ln pi o noise m)) K_st K_zs K_zt
  = model_cov K_z (K_zx m) d K_st K_zs K_zt.
Proof. exact (posterior_covE ln pi PZ d0 K_st K_zs K_zt). Qed.
Theorem C54_mean a (mean_s : 'cV[R]_a) (K_zs : 'M[R]_(k, a)) :
  posterior_mean (compute_K_z o m) (v_mu (compute ln pi o noise m)) (mean_z m) mean_s K_zs
  = model_mean K_z (K_zx m) d (mean_x m) (y o) mean_s K_zs.
Proof. exact (posterior_meanE ln pi PZ d0 mean_s K_zs). Qed.
Theorem C54_elbo : v_elbo (compute ln pi o noise m)
  = mvn_logpdf ln pi (mean_x m) (model_var K_z (K_zx m) d) (y o)
    - trace_term K_z (K_zx m) (meth o) noise (K_x_diag m) / 2%:R.
Proof. exact (elboE LN pi0 PZ d0). Qed.
End ClosedForm.

(* C55 *)
Section AtData.
Variables (n : nat) (o : obs R n n) (m : data R n n) (noise : 'I_n -> R).
Let S := K_zz m + diag_mx (\row_i noise i).
Hypotheses (noiseless : noise_z o = 0) (at_data : K_zx m = K_zz m) (at_data' : forall i, K_x_diag m i = K_zz m i i).
Hypotheses (PK : pd (K_zz m)) (N0 : forall i, 0 < noise i).
Theorem C55_covariance a b (K_st : 'M[R]_(a, b)) (K_xs : 'M[R]_(n, a)) (K_xt : 'M[R]_(n, b)) :
  posterior_cov (compute_K_z o m) (v_A (compute ln pi o noise m)) K_st K_xs K_xt = exact_cov S K_st K_xs K_xt.
Proof. exact (at_cov ln pi noiseless at_data at_data' PK N0 K_st K_xs K_xt). Qed.
Theorem C55_mean a (mean_s : 'cV[R]_a) (K_xs : 'M[R]_(n, a)) :
  posterior_mean (compute_K_z o m) (v_mu (compute ln pi o noise m)) (mean_z m) mean_s K_xs
  = exact_mean S (mean_x m) (y o) mean_s K_xs.
Proof. exact (at_mean ln pi noiseless at_data at_data' PK N0 mean_s K_xs). Qed.
Theorem C55_elbo : v_elbo (compute ln pi o noise m) = mvn_logpdf ln pi (mean_x m) S (y o).
Proof. exact (at_elbo LN pi0 noiseless at_data at_data' PK N0). Qed.
End AtData.

(* C56: [K] is the covariance matrix of the data without noise; the joint covariance matrix of
   the inducing variables and the data is positive semi-definite. *)
Theorem C56_lower_bound k n (o : obs R k n) (m : data R k n) (noise : 'I_n -> R) (K : 'M[R]_n) :
  meth o = VFE -> (forall i, 0 < noise i) -> (forall i, K_x_diag m i = K i i) ->
  pd (K_zz m + noise_z o) -> psd (noise_z o) -> psd (block_mx (K_zz m) (K_zx m) (K_zx m)^T K) ->
  v_elbo (compute ln pi o noise m) <= mvn_logpdf ln pi (mean_x m) (K + diag_mx (\row_i noise i)) (y o).
Proof. exact (elbo_bound LN pi0 (o:=o) (m:=m) (noise:=noise) (K:=K)). Qed.
End Pseudo.

(* The hypotheses are met by the logarithm of the real numbers and by these observations. *)
Example pseudo_logarithm : logarithm (Rpower.ln : R_rcfType -> R_rcfType) /\ 0 < (Rtrigo1.PI : R_rcfType). Proof. exact (conj R_logarithm R_pi). Qed.
Example pseudo_exists (R : rcfType) me : let o := ex_obs me 1%:M in let noise (i : 'I_2) : R := i%:R + 1 in
  [/\ pd (compute_K_z o (ex_data R)), psd (noise_z o), forall i, 0 < noise i,
      forall i, 0 < model_noise (compute_K_z o (ex_data R)) (K_zx (ex_data R)) (meth o) noise (K_x_diag (ex_data R)) i
    & psd (block_mx (K_zz (ex_data R)) (K_zx (ex_data R)) (K_zx (ex_data R))^T (ex_var R))
      /\ forall i, K_x_diag (ex_data R) i = ex_var R i i].
Proof. exact (ex_pseudo R me). Qed.
Example at_data_exists (R : rcfType) me : let o := ex_obs (R := R) me 0 in
  [/\ noise_z o = 0, K_zx (ex_data R) = K_zz (ex_data R), forall i, K_x_diag (ex_data R) i = K_zz (ex_data R) i i,
      pd (K_zz (ex_data R)) & forall i : 'I_2, 0 < (i%:R + 1 : R)].
Proof. exact (ex_at_data R me). Qed.

Print Assumptions C54_covariance.
Print Assumptions C54_mean.
Print Assumptions C54_elbo.
Print Assumptions C55_covariance.
Print Assumptions C55_mean.
Print Assumptions C55_elbo.
Print Assumptions C56_lower_bound.
