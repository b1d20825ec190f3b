(* Proofs about pseudo-point approximations. *)
From mathcomp Require Import all_ssreflect all_algebra.
From mathcomp Require Import ring.
From Verif Require Import Graph NormalSpec MatrixFacts Spectral Normal NormalFacts Pseudo PseudoSpec.
Set Implicit Arguments. Unset Strict Implicit. Unset Printing Implicit Defensive.
Import Order.TTheory GRing.Theory Num.Theory.
Local Open Scope ring_scope.

Section Det.
Variable R : comRingType.
Lemma sylvester k n (X : 'M[R]_(k, n)) (Y : 'M[R]_(n, k)) : \det (1%:M + X *m Y) = \det (1%:M + Y *m X).
Proof.
pose D := block_mx (1%:M : 'M[R]_k) (- X) Y (1%:M : 'M[R]_n).
have E1 : \det D = \det (1%:M + X *m Y).
  have : \det (D *m block_mx 1%:M 0 (- Y) 1%:M) = \det D by rewrite det_mulmx det_lblock !det1 !mulr1.
  rewrite mulmx_block !mulmx1 !mulmx0 !mul1mx mulmxN mulNmx opprK add0r subrr add0r => <-.
  by rewrite det_ublock det1 mulr1.
have : \det (block_mx 1%:M 0 (- Y) 1%:M *m D) = \det D by rewrite det_mulmx det_lblock !det1 !mul1r.
rewrite mulmx_block !mul1mx !mul0mx !addr0 mulmx1 mulmxN mulNmx opprK addNr det_ublock det1 mul1r E1 => <-.
by rewrite addrC.
Qed.
End Det.

Section Inverse.
Variable R : rcfType.
Lemma iqfE m a b (A : 'M[R]_m) (B : 'M[R]_(m, a)) (C : 'M[R]_(m, b)) : pd A -> iqf A B C = B^T *m invmx A *m C.
Proof. by move=> P; rewrite /iqf (chol_inv (choleskyP P)) trmx_mul !mulmxA. Qed.
Lemma mulVmx_uniq m (A B : 'M[R]_m) : A *m B = 1%:M -> invmx A = B.
Proof. by move=> e; have [U _] := mulmx1_unit e; rewrite -[invmx A]mulmx1 -e mulKmx. Qed.
Lemma diag_inv m (d : 'I_m -> R) : (forall i, 0 < d i) -> diag_mx (\row_i d i) *m diag_mx (\row_i (d i)^-1) = 1%:M.
Proof.
move=> P; rewrite mulmx_diag; apply/matrixP => i j; rewrite !mxE; case: eqP => // _.
by rewrite mulfV // gt_eqF.
Qed.
Lemma diag_invmx m (d : 'I_m -> R) : (forall i, 0 < d i) -> invmx (diag_mx (\row_i d i)) = diag_mx (\row_i (d i)^-1).
Proof. by move=> P; apply: mulVmx_uniq; apply: diag_inv. Qed.
Lemma pd_diag_mx m (d : 'I_m -> R) : (forall i, 0 < d i) -> pd (diag_mx (\row_i d i)).
Proof.
move=> P; split=> [|v nz]; first by rewrite tr_diag_mx.
rewrite /qf mul_mx_diag mxE; have [i nzi] : exists i, v i 0 != 0.
  apply/existsP; apply: contraNT nz => /existsPn h; apply/eqP/matrixP => i j; rewrite (ord1 j) mxE.
  by have := h i; rewrite negbK => /eqP.
rewrite (bigD1 i) //= !mxE; apply: ltr_paddr; last first.
  by rewrite mulrAC mulr_gt0 // -expr2 exprn_even_gt0.
by apply: sumr_ge0 => j _; rewrite !mxE mulrAC -expr2 mulr_ge0 ?sqr_ge0 // ltW.
Qed.
Lemma iqf_diagonalE m a b (d : 'I_m -> R) (B : 'M[R]_(m, a)) (C : 'M[R]_(m, b)) :
  iqf_diagonal d B C = B^T *m diag_mx (\row_i (d i)^-1) *m C.
Proof.
rewrite -mulmxA mul_diag_mx; congr (_ *m _); apply/matrixP => i j; by rewrite !mxE mulrC.
Qed.
Lemma det_diag_row m (d : 'I_m -> R) : \det (diag_mx (\row_i d i)) = \prod_i d i.
Proof. by rewrite det_diag; apply: eq_bigr => i _; rewrite mxE. Qed.
End Inverse.

Section Woodbury.
Variables (R : rcfType) (k n : nat) (W : 'M[R]_(k, n)) (d : 'I_n -> R).
Hypothesis d0 : forall i, 0 < d i.
Let N := diag_mx (\row_i d i).
Let I := diag_mx (\row_i (d i)^-1).
Definition wA : 'M[R]_k := 1%:M + W *m I *m W^T.
Definition wS : 'M[R]_n := W^T *m W + N.

Lemma NI : N *m I = 1%:M. Proof. exact: diag_inv. Qed.
Lemma IN : I *m N = 1%:M. Proof. exact: mulmx1C NI. Qed.
Lemma I_tr : I^T = I. Proof. exact: tr_diag_mx. Qed.
Lemma wA_pd : pd wA.
Proof.
rewrite /wA addrC; apply: pd_add; last by have := pd_gram (@unitmx1 R k); rewrite trmx1 mulmx1.
by apply: psd_conj; apply: pd_psd; apply: pd_diag_mx => i; rewrite invr_gt0.
Qed.
Lemma wS_pd : pd wS. Proof. by apply: pd_add; [exact: psd_gram | exact: pd_diag_mx]. Qed.
Let UA : wA \in unitmx := pd_unit wA_pd.
Let US : wS \in unitmx := pd_unit wS_pd.
Lemma wAW : wA *m W = W *m I *m wS.
Proof. by rewrite /wA /wS mulmxDl mul1mx mulmxDr -!mulmxA IN mulmx1 addrC. Qed.
Lemma wAWI : invmx wA *m W *m I = W *m invmx wS.
Proof.
apply: (can_inj (mulKmx UA)); rewrite !mulmxA mulmxV // mul1mx wAW mulmxK //.
Qed.
Lemma wA_inv : invmx wA = 1%:M - W *m invmx wS *m W^T.
Proof.
apply: mulVmx_uniq; rewrite mulmxBr mulmx1 !mulmxA wAW mulmxK //.
by rewrite /wA addrK.
Qed.
Lemma wIWA : I *m W^T *m invmx wA = invmx wS *m W^T.
Proof.
have := congr1 trmx wAWI; rewrite !trmx_mul I_tr !trmx_inv.
by rewrite wA_pd.1 wS_pd.1 mulmxA.
Qed.
Lemma wS_inv : invmx wS = I - I *m W^T *m invmx wA *m W *m I.
Proof.
rewrite wIWA; apply: (can_inj (mulKmx US)); rewrite mulmxV // mulmxBr !mulmxA mulmxV // mul1mx.
by rewrite /wS mulmxDl NI addrC addKr.
Qed.
Lemma wS_det : \det wS = (\prod_i d i) * \det wA.
Proof.
have -> : wS = N *m (1%:M + I *m W^T *m W) by rewrite mulmxDr mulmx1 !mulmxA NI mul1mx addrC.
by rewrite det_mulmx det_diag_row -sylvester !mulmxA.
Qed.
End Woodbury.

Section Facts.
Variables (R : rcfType) (ln : R -> R) (pi : R) (k n : nat).
Hypotheses (LN : logarithm ln) (pi0 : 0 < pi).
Variables (o : obs R k n) (m : data R k n) (noise : 'I_n -> R).
Notation Kz := (compute_K_z o m). Notation Kzx := (K_zx m).
Hypothesis PZ : pd Kz.
Notation d := (model_noise Kz Kzx (meth o) noise (K_x_diag m)).
Hypothesis d0 : forall i, 0 < d i.
Let L := cholesky Kz.
Let W := invmx L *m Kzx.
Let UL : L \in unitmx := chol_unit (choleskyP PZ).

Lemma nystromE a b (Ka : 'M[R]_(k, a)) (Kb : 'M[R]_(k, b)) :
  nystrom Kz Ka Kb = (invmx L *m Ka)^T *m (invmx L *m Kb).
Proof. by rewrite /nystrom -iqfE. Qed.
Lemma model_varE : model_var Kz Kzx d = wS W d.
Proof. by rewrite /model_var nystromE. Qed.

(* The attributes, with the noise of the model. *)
Definition cA : 'M[R]_k := 1%:M + iqf_diagonal d W^T W^T.
Lemma cAE : cA = wA W d. Proof. by rewrite /cA iqf_diagonalE trmxK. Qed.
Lemma Qdiag i : \sum_j W j i * W j i = nystrom Kz Kzx Kzx i i.
Proof. by rewrite nystromE -/W [RHS]mxE; apply: eq_bigr => j _; rewrite [W^T _ _]mxE. Qed.
Lemma KnE : (match meth o with FITC => fun i => noise i + (K_x_diag m i - \sum_j W j i * W j i) | _ => noise end) =1 d.
Proof. by move=> i; rewrite /model_noise; case: (meth o) => //; rewrite Qdiag. Qed.
Lemma iqf_diagonal_ext a b (e e' : 'I_n -> R) (B : 'M[R]_(n, a)) (C : 'M[R]_(n, b)) : e =1 e' ->
  iqf_diagonal e B C = iqf_diagonal e' B C.
Proof. by move=> E; congr (_ *m _); apply/matrixP => i j; rewrite !mxE E. Qed.

Lemma computeE : compute ln pi o noise m =
  Values (L *m cA *m L^T) (mean_z m + iqf cA L^T (iqf_diagonal d W^T (y o - mean_x m)))
    (- (\sum_i ln (2%:R * pi * d i) + logdet ln cA
       + ((iqf_diagonal d (y o - mean_x m) (y o - mean_x m)) 0 0 - iqf_diag cA (iqf_diagonal d W^T (y o - mean_x m)) 0)
       + trace_term Kz Kzx (meth o) noise (K_x_diag m)) / 2%:R).
Proof.
rewrite /compute -/L -/W !(iqf_diagonal_ext _ _ KnE) -/cA; congr (Values _ _ (- (_ + _ + _ + _) / _)).
  by apply: eq_bigr => i _; rewrite KnE.
rewrite /trace_term /model_noise; case: (meth o) => //; apply: eq_bigr => i _.
by rewrite -Qdiag.
Qed.

Let PA : pd cA. Proof. by rewrite cAE; apply: wA_pd. Qed.
Lemma compute_A : v_A (compute ln pi o noise m) = Kz + Kzx *m diag_mx (\row_i (d i)^-1) *m Kzx^T.
Proof.
rewrite computeE /= /cA iqf_diagonalE trmxK mulmxDr mulmx1 mulmxDl; congr (_ + _); first by have [_ _ ->] := choleskyP PZ.
by rewrite /W trmx_mul trmx_inv !mulmxA mulmxV // mul1mx mulmxKV // unitmx_tr.
Qed.
Lemma A_pd : pd (v_A (compute ln pi o noise m)).
Proof. by rewrite computeE /=; apply: pd_conj. Qed.
Lemma A_inv a b (Ka : 'M[R]_(k, a)) (Kb : 'M[R]_(k, b)) :
  iqf (v_A (compute ln pi o noise m)) Ka Kb = (invmx L *m Ka)^T *m invmx cA *m (invmx L *m Kb).
Proof.
rewrite iqfE; last exact: A_pd.
have -> : invmx (v_A (compute ln pi o noise m)) = (invmx L)^T *m invmx cA *m invmx L.
  rewrite computeE /=; apply: mulVmx_uniq; rewrite trmx_inv !mulmxA mulmxK ?unitmx_tr // mulmxK ?pd_unit // mulmxV //.
by rewrite trmx_mul !mulmxA.
Qed.
Lemma posterior_covE a b (Kst : 'M[R]_(a, b)) (Kzs : 'M[R]_(k, a)) (Kzt : 'M[R]_(k, b)) :
  posterior_cov Kz (v_A (compute ln pi o noise m)) Kst Kzs Kzt = model_cov Kz Kzx d Kst Kzs Kzt.
Proof.
rewrite /posterior_cov /model_cov A_inv cAE wA_inv // model_varE !nystromE /iqf -/L -/W.
rewrite mulmxBr mulmx1 mulmxBl addrA subrK !mulmxA //.
Qed.
Lemma posterior_meanE a (ms : 'cV[R]_a) (Kzs : 'M[R]_(k, a)) :
  posterior_mean Kz (v_mu (compute ln pi o noise m)) (mean_z m) ms Kzs = model_mean Kz Kzx d (mean_x m) (y o) ms Kzs.
Proof.
rewrite /posterior_mean /model_mean computeE /= [_ + _ - _]addrC addKr; congr (_ + _).
rewrite model_varE nystromE /iqf -/L -/W.
have -> : (invmx (cholesky cA) *m L^T)^T *m (invmx (cholesky cA) *m iqf_diagonal d W^T (y o - mean_x m)) =
          L *m (invmx cA *m W *m diag_mx (\row_i (d i)^-1)) *m (y o - mean_x m).
  by rewrite -[LHS]/(iqf cA L^T _) (iqfE _ _ PA) trmxK iqf_diagonalE trmxK !mulmxA.
rewrite cAE wAWI // !mulmxA mulmxKV //.
Qed.

Lemma elboE : v_elbo (compute ln pi o noise m) =
  mvn_logpdf ln pi (mean_x m) (model_var Kz Kzx d) (y o) - trace_term Kz Kzx (meth o) noise (K_x_diag m) / 2%:R.
Proof.
rewrite computeE /= /mvn_logpdf model_varE; set T := trace_term _ _ _ _ _; move: (y o - mean_x m) => yb.
have dA : 0 < \det cA by apply: chol_det_gt0 (choleskyP PA).
have e1 : \sum_i ln (2%:R * pi * d i) + logdet ln cA = ln (\det (wS W d)) + n%:R * ln (2%:R * pi).
  rewrite logdetE // wS_det // -cAE (ln_mul LN) ?prodr_gt0 // (ln_prod LN) //.
  have -> : \sum_i ln (2%:R * pi * d i) = \sum_i ln (d i) + n%:R * ln (2%:R * pi).
    rewrite (eq_bigr (fun i => ln (d i) + ln (2%:R * pi))) => [|i _].
      rewrite big_split /=; congr (_ + _); by rewrite sumr_const card_ord [in RHS]mulr_natl.
    by rewrite (ln_mul LN) ?mulr_gt0 ?ltr0n // addrC.
  by rewrite addrAC.
have e2 : (iqf_diagonal d yb yb) 0 0 - iqf_diag cA (iqf_diagonal d W^T yb) 0 = qf (invmx (wS W d)) yb.
  rewrite iqf_diagE // wS_inv // -cAE /qf iqf_diagonalE.
  rewrite mulmxBr mulmxBl [RHS]mxE [X in _ = _ + X]mxE; congr (_ - _).
  have -> : col 0 (iqf_diagonal d W^T yb) = W *m diag_mx (\row_i (d i)^-1) *m yb.
    by rewrite iqf_diagonalE trmxK; apply/matrixP => i j; rewrite mxE (ord1 j).
  by rewrite !trmx_mul tr_diag_mx !mulmxA.
rewrite e1 e2; move: (ln _) (ln _) (qf _ _) T => a b c t; by field.
Qed.
End Facts.

(* Inducing points at the data. *)
Section AtData.
Variables (R : rcfType) (ln : R -> R) (pi : R) (n : nat).
Hypotheses (LN : logarithm ln) (pi0 : 0 < pi).
Variables (o : obs R n n) (m : data R n n) (noise : 'I_n -> R).
Hypotheses (Z : noise_z o = 0) (KX : K_zx m = K_zz m) (KD : forall i, K_x_diag m i = K_zz m i i).
Hypotheses (PK : pd (K_zz m)) (N0 : forall i, 0 < noise i).
Let K := K_zz m.
Let D : 'M[R]_n := diag_mx (\row_i noise i).

Lemma at_Kz : compute_K_z o m = K. Proof. by rewrite /compute_K_z Z addr0. Qed.
Lemma at_nystrom_l b (B : 'M[R]_(n, b)) : nystrom K K B = B.
Proof. by rewrite /nystrom PK.1 mulmxV ?mul1mx // pd_unit. Qed.
Lemma at_nystrom_r b (B : 'M[R]_(n, b)) : nystrom K B K = B^T.
Proof. by rewrite /nystrom mulmxKV ?pd_unit. Qed.
Lemma at_noise : model_noise K K (meth o) noise (K_x_diag m) =1 noise.
Proof. by move=> i; rewrite /model_noise at_nystrom_l KD subrr addr0; case: (meth o). Qed.
Lemma at_var : model_var K K (model_noise K K (meth o) noise (K_x_diag m)) = K + D.
Proof.
rewrite /model_var at_nystrom_l; congr (_ + diag_mx _).
by apply/matrixP => i j; rewrite !mxE at_noise.
Qed.
Lemma at_trace : trace_term K K (meth o) noise (K_x_diag m) = 0.
Proof. by rewrite /trace_term at_nystrom_l; case: (meth o) => //; apply: big1 => i _; rewrite KD subrr mul0r. Qed.
Lemma at_d0 i : 0 < model_noise (compute_K_z o m) (K_zx m) (meth o) noise (K_x_diag m) i.
Proof. by rewrite at_Kz KX at_noise. Qed.
Lemma at_PZ : pd (compute_K_z o m). Proof. by rewrite at_Kz. Qed.

Lemma at_cov a b (Kst : 'M[R]_(a, b)) (Kxs : 'M[R]_(n, a)) (Kxt : 'M[R]_(n, b)) :
  posterior_cov (compute_K_z o m) (v_A (compute ln pi o noise m)) Kst Kxs Kxt = exact_cov (K + D) Kst Kxs Kxt.
Proof. by rewrite (posterior_covE _ _ at_PZ at_d0) /model_cov at_Kz KX at_var at_nystrom_l at_nystrom_r. Qed.
Lemma at_mean a (ms : 'cV[R]_a) (Kxs : 'M[R]_(n, a)) :
  posterior_mean (compute_K_z o m) (v_mu (compute ln pi o noise m)) (mean_z m) ms Kxs
  = exact_mean (K + D) (mean_x m) (y o) ms Kxs.
Proof. by rewrite (posterior_meanE _ _ at_PZ at_d0) /model_mean at_Kz KX at_var at_nystrom_r. Qed.
Lemma at_elbo : v_elbo (compute ln pi o noise m) = mvn_logpdf ln pi (mean_x m) (K + D) (y o).
Proof. by rewrite (elboE LN pi0 at_PZ at_d0) at_Kz KX at_var at_trace mul0r subr0. Qed.
End AtData.

(* The bound. *)
Section Bound.
Variables (R : rcfType) (ln : R -> R) (pi : R).
Hypotheses (LN : logarithm ln).

Lemma inv_antitone n (A E : 'M[R]_n) : pd A -> psd E -> psd (invmx A - invmx (A + E)).
Proof.
move=> PA PE; have PB : pd (A + E) by rewrite addrC; apply: pd_add.
have e : E = (A + E) - A by rewrite addrC addKr.
move: (A + E) PB e => B PB e; have UA := pd_unit PA; have UB := pd_unit PB.
have sA := sym_inv PA.1; have sB := sym_inv PB.1.
have -> : invmx A - invmx B = (invmx A - invmx B) *m A *m (invmx A - invmx B)^T + invmx B *m E *m (invmx B)^T.
  rewrite linearB /= sA sB e.
  have -> : (invmx A - invmx B) *m A *m (invmx A - invmx B) = invmx A - invmx B - (invmx B - invmx B *m A *m invmx B).
    by rewrite [_ *m A]mulmxBl mulVmx // mulmxBr !mulmxBl !mul1mx mulmxK // [in LHS]opprB [in RHS]opprB addrA.
  have -> : invmx B *m (B - A) *m invmx B = invmx B - invmx B *m A *m invmx B by rewrite mulmxBr mulVmx // mulmxBl mul1mx.
  by rewrite subrK.
by apply: psd_add; apply: psd_conj => //; apply: pd_psd.
Qed.
Lemma trace_psd n (F E : 'M[R]_n) : psd F -> psd E -> 0 <= \tr (F *m E).
Proof.
move=> PF PE; have [S [PS <-]] := root_exists PE.
by rewrite mulmxA mxtrace_mulC -{1}PS.1 mulmxA; apply: trace_conj_ge0.
Qed.
Lemma logdet_bound n (S E : 'M[R]_n) : pd S -> psd E ->
  ln (\det (S + E)) <= ln (\det S) + \tr (invmx S *m E).
Proof.
move=> PS PE; have PB : pd (S + E) by rewrite addrC; apply: pd_add.
have := kl_ge0 LN (p := Normal 0 (S + E)) (q := Normal 0 S) PB PS.
rewrite (kl_closed LN (p := Normal 0 (S + E)) (q := Normal 0 S) PB PS) /= subrr qf0 addr0.
rewrite mulmxDr mulVmx ?pd_unit // linearD /= mxtrace1 pmulr_lge0 ?invr_gt0 ?ltr0n //.
rewrite -[ln _ <= ln _ + _]subr_ge0; move: (\tr _) (ln (\det S)) (ln (\det (S + E))) => a b c h.
by have -> : b + a - c = n%:R + a - n%:R + b - c by ring.
Qed.
Lemma density_bound n (Q N E : 'M[R]_n) m y : psd Q -> pd N -> psd E ->
  mvn_logpdf ln pi m (Q + N) y - \tr (invmx N *m E) / 2%:R <= mvn_logpdf ln pi m (Q + N + E) y.
Proof.
move=> PQ PN PE; have PS : pd (Q + N) by apply: pd_add.
have h1 := logdet_bound PS PE.
have h2 : 0 <= \tr (invmx N *m E) - \tr (invmx (Q + N) *m E).
  have := trace_psd (inv_antitone PN PQ) PE; rewrite [N + Q]addrC.
  by rewrite mulmxBl linearB.
have h3 : 0 <= qf (invmx (Q + N)) (y - m) - qf (invmx (Q + N + E)) (y - m).
  have [_] := inv_antitone PS PE; move=> /(_ (y - m)); move: (y - m) => v.
  by rewrite /qf mulmxBr mulmxBl [X in _ <= X -> _]mxE [X in _ <= _ + X -> _]mxE.
rewrite /mvn_logpdf -mulrBl ler_pmul2r ?invr_gt0 ?ltr0n // -subr_ge0.
rewrite -subr_ge0 in h1; move: h1 h2 h3.
move: (\tr (invmx (Q + N) *m _)) (\tr (invmx N *m _)) (ln (\det (Q + N + E))) (ln (\det (Q + N))) (ln (2%:R * pi)).
move: (qf (invmx (Q + N)) (y - m)) (qf (invmx (Q + N + E)) (y - m)) => p q t1 t2 a b c h1 h2 h3.
have -> : - (a + n%:R * c + q) - (- (b + n%:R * c + p) - t2) = (b + t1 - a) + (t2 - t1) + (p - q) by ring.
by apply: addr_ge0 => //; apply: addr_ge0.
Qed.

Section Elbo.
Hypothesis pi0 : 0 < pi.
Variables (k n : nat) (o : obs R k n) (m : data R k n) (noise : 'I_n -> R) (K : 'M[R]_n).
Hypotheses (ME : meth o = VFE) (N0 : forall i, 0 < noise i) (KD : forall i, K_x_diag m i = K i i).
Hypotheses (PZ : pd (compute_K_z o m)) (PNZ : psd (noise_z o)).
Hypothesis J : psd (block_mx (K_zz m) (K_zx m) (K_zx m)^T K).
Let Kz := compute_K_z o m.
Lemma residual_psd : psd (K - nystrom Kz (K_zx m) (K_zx m)).
Proof.
have J' : psd (block_mx Kz (K_zx m) (K_zx m)^T K).
  have -> : block_mx Kz (K_zx m) (K_zx m)^T K = block_mx (K_zz m) (K_zx m) (K_zx m)^T K + block_mx (noise_z o) 0 0 0.
    by rewrite add_block_mx !addr0.
  apply: psd_add => //; have -> : block_mx (noise_z o) 0 0 0 = (col_mx 1%:M (0 : 'M[R]_(n, k))) *m noise_z o *m (col_mx 1%:M (0 : 'M[R]_(n, k)))^T.
    by rewrite tr_col_mx mul_col_mx mul_col_row trmx1 trmx0 !mul1mx !mulmx1 !mul0mx mulmx0.
  exact: psd_conj.
have U := pd_unit PZ.
have := psd_conj (row_mx (- ((K_zx m)^T *m invmx Kz)) 1%:M) J'.
rewrite mul_row_block !mul1mx mulNmx mulmxKV // addNr tr_row_mx mul_row_col mul0mx add0r trmx1 mulmx1 mulNmx addrC.
exact.
Qed.
Lemma elbo_bound : v_elbo (compute ln pi o noise m) <= mvn_logpdf ln pi (mean_x m) (K + diag_mx (\row_i noise i)) (y o).
Proof.
have d0 i : 0 < model_noise (compute_K_z o m) (K_zx m) (meth o) noise (K_x_diag m) i by rewrite ME.
rewrite (elboE LN pi0 PZ d0) ME /model_var.
have PQ : psd (nystrom Kz (K_zx m) (K_zx m)) by rewrite (nystromE PZ); apply: psd_gram.
have := density_bound (mean_x m) (y o) PQ (pd_diag_mx N0) residual_psd.
rewrite diag_invmx // -/Kz; set Q := nystrom _ _ _ => h.
have -> : K + diag_mx (\row_i noise i) = Q + diag_mx (\row_i noise i) + (K - Q).
  by rewrite [Q + _]addrC -addrA [K - Q]addrC addNKr addrC.
rewrite (le_trans _ h) //; have -> : \tr (diag_mx (\row_i (noise i)^-1) *m (K - Q)) = trace_term Kz (K_zx m) VFE noise (K_x_diag m).
  rewrite /mxtrace mul_diag_mx /trace_term -/Q; apply: eq_bigr => i _; by rewrite !mxE KD mulrC.
by [].
Qed.
End Elbo.
End Bound.
