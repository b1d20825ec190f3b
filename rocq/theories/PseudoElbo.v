(* The evidence lower bound in the graph. *)
From Coq Require Import List.
From mathcomp Require Import all_ssreflect all_algebra.
From mathcomp Require Import zify.
From Verif Require Import Graph Machine Refine Worlds Eval GraphSpec GraphProofs GraphOps RV RVProofs Sound Typing ModelSpec ModelFacts Cond CondFacts ModelThms.
From Verif Require Import MatrixFacts NormalSpec Normal NormalFacts LogPdf LogPdfFacts Infer InferSpec ElwiseFacts InferThms Pseudo PseudoSpec PseudoFacts PseudoMain Elbo.
Set Implicit Arguments. Unset Strict Implicit. Unset Printing Implicit Defensive.
Import Order.TTheory GRing.Theory Num.Theory.
Local Open Scope ring_scope.

Section Elbo.
Variables (R : rcfType) (ln : R -> R) (pi : R).
Hypotheses (LN : logarithm ln) (pi0 : 0 < pi).
Variable (W : space R).
Variable D : nat -> (point R -> R) -> point R -> R.
Variables (G : pid -> point R -> rv W) (eps : mid -> nat -> rv W).
Notation V := (rv W). Notation Ex := (@Ex R W). Notation cov := (@cov R W).
Variables (ops : seq (op R)) (P : mid -> pid -> Prop).
Let w := run_ops ops.
Hypothesis Mo : model D G eps w P.
Hypothesis Ba : forall m p d, defined w m p d -> P m p -> basic_def d.
Notation is_at := (is_at D G eps w). Notation meant := (meant D G eps w P).
Notation cov_is := (cov_is D w). Notation mean_is := (mean_is D w).
Notation logpdf_is := (logpdf_is ln pi D w). Notation elbo_is := (elbo_is ln pi D w).
Variables (m : mid) (o : Machine.obs R) (d : pdata R).
Hypotheses (Zz : meant m (o_p o) (o_x o)) (Zx : meant m (d_p d) (d_x d)).
Let nz n (i : 'I_n) : R := nth 0 (d_noise d) i.

Lemma noise_ext k n (S : 'M[R]_k) (C : 'M[R]_(k, n)) me noise c1 c2 : (me <> DTC -> c1 =1 c2) ->
  model_noise S C me noise c1 =1 model_noise S C me noise c2.
Proof. by move=> H i; rewrite /model_noise; case: me H => // H; rewrite H. Qed.
Lemma trace_ext k n (S : 'M[R]_k) (C : 'M[R]_(k, n)) me noise c1 c2 : (me <> DTC -> c1 =1 c2) ->
  trace_term S C me noise c1 = trace_term S C me noise c2.
Proof. by move=> H; rewrite /trace_term; case: me H => // H; apply: eq_bigr => i _; rewrite H. Qed.
Lemma var_ext k n (S : 'M[R]_k) (C : 'M[R]_(k, n)) d1 d2 : d1 =1 d2 -> model_var S C d1 = model_var S C d2.
Proof. by move=> H; congr (_ + diag_mx _); apply/rowP => i; rewrite !mxE H. Qed.

Lemma elbo_ext k n A B c1 c2 a b : (d_method d <> DTC -> c1 =1 c2) ->
  pd (A + mx_at (o_noise o) k k) ->
  (forall i, 0 < model_noise (A + mx_at (o_noise o) k k) B (d_method d) (@nz n) c2 i) ->
  v_elbo (compute ln pi (pseudo_obs k n o d) (@nz n) (Data A B c1 a b)) =
  v_elbo (compute ln pi (pseudo_obs k n o d) (@nz n) (Data A B c2 a b)).
Proof.
move=> H PZ d0; rewrite (elboE LN pi0 (o := pseudo_obs k n o d) (m := Data A B c1 a b) PZ); last first.
  by move=> i; rewrite (noise_ext _ _ _ H).
rewrite (elboE LN pi0 (o := pseudo_obs k n o d) (m := Data A B c2 a b) PZ d0).
by rewrite (var_ext _ _ (noise_ext _ _ _ H)) (trace_ext _ _ _ H).
Qed.

Section Closed.
Variables (Kz Kzx Kx : dmat R) (ex : seq R).
Hypotheses (HKz : cov_is m (o_p o) (o_p o) (o_x o) (o_x o) Kz) (HKzx : cov_is m (o_p o) (d_p d) (o_x o) (d_x d) Kzx).
Hypotheses (HKx : cov_is m (d_p d) (d_p d) (d_x d) (d_x d) Kx) (Hex : mean_is m (d_p d) (d_x d) ex).
Let k := nr Kz.
Let n := size (d_noise d).
Let S : 'M[R]_k := mx_at Kz k k + mx_at (o_noise o) k k.
Let Cx : 'M[R]_(k, n) := mx_at Kzx k n.
Let kxd (i : 'I_n) := ent Kx i i.
Let dn : 'I_n -> R := model_noise S Cx (d_method d) (@nz n) kxd.
Hypotheses (PS : pd S) (d0 : forall i, 0 < dn i).
Lemma elbo_numbers v : elbo_is m o d v -> exists (ez : 'cV[R]_k) (kx : 'I_n -> R), [/\ size ex = n, size (d_y d) = n,
  d_method d <> DTC -> kx =1 kxd &
  v = v_elbo (compute ln pi (pseudo_obs k n o d) (@nz n) (Data (mx_at Kz k k) Cx kx ez (\col_i nth 0 ex i)))].
Proof.
case=> Kz' [Kzx' [kx [ez' [ex' [E1 E2 E3 [E4 E5] [/and4P [c1 c2 c3 c4] /and4P [c5 c6 /eqP c7 /eqP c8] ->]]]]]].
have e1 := cov_is_det E1 HKz; have e2 := cov_is_det E2 HKzx; have e3 := mean_is_det E5 Hex.
subst Kz' Kzx' ex'; exists (\col_i nth 0 ez' i), (fun i => nth 0 kx i); split=> // nd i.
by have [F sk] := E3 nd; have [_ _ H] := elwise_diag Mo Ba Zx Zx F HKx; rewrite H // sk.
Qed.
Lemma elbo_closed v : elbo_is m o d v ->
  v = mvn_logpdf ln pi (\col_i nth 0 ex i) (model_var S Cx dn) (\col_i nth 0 (d_y d) i)
      - trace_term S Cx (d_method d) (@nz n) kxd / 2%:R.
Proof.
move=> /elbo_numbers [ez [kx [_ _ Hk ->]]]; rewrite elboE //=; last first.
  by move=> i; rewrite (noise_ext _ _ _ Hk).
by rewrite (var_ext _ _ (noise_ext _ _ _ Hk)) (trace_ext _ _ _ Hk).
Qed.
End Closed.

(* The log-density of the data. *)
Section Density.
Variables (r : pid) (Kz Kzx : dmat R).
Hypotheses (Dr : defined w m r (DCopy (d_p d))) (Zr : meant m r (d_x d)).
Hypotheses (HKz : cov_is m (o_p o) (o_p o) (o_x o) (o_x o) Kz).
Let k := nr Kz.
Let S : 'M[R]_k := mx_at Kz k k + mx_at (o_noise o) k k.
Hypotheses (N0 : all (fun a => 0 < a) (d_noise d)).

Lemma copy_cov K : cov_is m r r (d_x d) (d_x d) K -> forall a, is_at m (d_p d) (d_x d) a -> covmat K a a.
Proof.
move=> HK a Ha; have [u Hu] := Zr.2; have [a' Ha' S'] := copy_at Dr Hu.
have [s H] : same_rv u a by apply: (same_trans S'); apply: is_uniq Ha' Ha.
have [h1 h2 h3] := is_k (model_sound Mo) Zr.1 Zr.1 Hu Hu HK; split; rewrite ?h1 ?h2 // => i j li lj.
by rewrite h3 ?s // (H i _).2 ?s // covC (H j _).2 ?s // covC.
Qed.
Definition gram k n (u a : seq V) : 'M[R]_(k, n) := \matrix_(i, j) cov (vget u i) (vget a j).

(* The random variables. *)
Lemma elwise_rv m' p q x y e u v : P m' p -> P m' q -> elwise_is D w m' p q x y e -> is_at m' p x u -> is_at m' q y v ->
  [/\ size u = size e, size v = size e & forall i, (i < size e)%N -> nth 0 e i = cov (vget u i) (vget v i)].
Proof.
move=> Pp Pq [kk Es [n Ev]] Hu Hv.
have Ba' m0 p0 d1 rest : (m0 < w_nm w)%N -> ext (HAdd p0 d1 rest) (w_log w m0) -> P m0 p0 -> basic_def d1.
  move=> lt E0; apply: (Ba (m := m0)); split=> //.
  by elim: E0 => [|q0 d2 h0 _ IH] /=; [left | right].
exact: (@sound_el _ W D G eps w P (winv_run ops) (winvid_run ops) Mo.1 Mo.2 Ba' n m' p q kk x y e u v Hu.1 Pp Pq Es Ev Hu.2 Hv.2).
Qed.
Lemma elbo_rv v u a : is_at m (o_p o) (o_x o) u -> is_at m (d_p d) (d_x d) a -> elbo_is m o d v ->
  forall k n, size u = k -> size a = n -> exists (ez : 'cV[R]_k) (kx : 'I_n -> R), [/\ size (d_y d) = n, size (d_noise d) = n,
  d_method d <> DTC -> kx =1 (fun i => cov (vget a i) (vget a i)) &
  v = v_elbo (compute ln pi (pseudo_obs k n o d) (@nz n) (Data (gram k k u u) (gram k n u a) kx ez (mu n a)))].
Proof.
move=> Hu Ha [Kz' [Kzx' [kx [ez' [ex' [E1 E2 E3 [E4 E5] [/and4P [c1 c2 c3 c4] /and4P [/eqP c5 /eqP c6 /eqP c7 /eqP c8] ->]]]]]]] k0 n0 su sa.
have [a1 a2 a3] := is_k (model_sound Mo) Zz.1 Zz.1 Hu Hu E1; have [b1 b2 b3] := is_k (model_sound Mo) Zz.1 Zx.1 Hu Ha E2.
have eE := is_m (model_sound Mo) Zx.1 Ha E5; rewrite -sa in c7 *; rewrite -su.
have sn : size (d_noise d) = size a by rewrite -c6.
rewrite -a1 in su *; rewrite -sn.
exists (\col_i nth 0 ez' i), (fun i => nth 0 kx i); split=> //.
  move=> nd i; have [F sk] := E3 nd; have [d1 d2 d3] := elwise_rv Zx.1 Zx.1 F Ha Ha.
  by rewrite d3 // sk.
have h1 : mx_at Kz' (nr Kz') (nr Kz') = gram (nr Kz') (nr Kz') u u by apply/matrixP => i j; rewrite !mxE a3 -?a1.
have h2 : mx_at Kzx' (nr Kz') (size (d_noise d)) = gram (nr Kz') (size (d_noise d)) u a.
  by apply/matrixP => i j; rewrite !mxE b3 -?a1 -?sn.
have h3 : \col_i nth 0 ex' i = mu (size (d_noise d)) a by apply/colP => i; rewrite !mxE eE map_nth_Ex // -sn.
by rewrite h1 h2 h3.
Qed.

Lemma sigma_diag n (a : seq V) : size (d_noise d) = n ->
  sigma n a (ddiag (d_noise d)) = gram n n a a + diag_mx (\row_i @nz n i).
Proof.
move=> sn; apply/matrixP => i j; rewrite !mxE /=; congr (_ + _); rewrite -val_eqE.
by case: eqP => // ->; rewrite mulr1n.
Qed.
Lemma gram_psd n (a : seq V) (NN : nonneg W) : psd (gram n n a a).
Proof.
split=> [|v]; first by apply/matrixP => i j; rewrite !mxE covC.
suff -> : qf (gram n n a a) v = cov (rsum n (fun i => rscale (odflt 0 (omap (fun i : 'I_n => v i 0) (insub i))) (vget a i)))
  (rsum n (fun i => rscale (odflt 0 (omap (fun i : 'I_n => v i 0) (insub i))) (vget a i))) by apply: NN.
rewrite /qf mxE cov_sumr; apply: eq_bigr => j _; rewrite covZr valK /= cov_sum mulrC; congr (_ * _).
by rewrite mxE; apply: eq_bigr => i _; rewrite covZ valK /= !mxE.
Qed.

(* C56 *)
Lemma elbo_below v l : nonneg W -> d_method d = VFE -> psd (mx_at (o_noise o) k k) -> pd S ->
  elbo_is m o d v -> logpdf_is m r (d_x d) (ddiag (d_noise d)) (map Some (d_y d)) l -> v <= l.
Proof.
move=> NN me PN PS Ev El; have [u Hu] := Zz.2; have [a Ha] := Zx.2.
have [a1 a2 a3] := is_k (model_sound Mo) Zz.1 Zz.1 Hu Hu HKz.
have [ez [kx [sy sn Hk ->]]] := elbo_rv Hu Ha Ev (esym a1) erefl.
have [_ _ _ L] := logpdf_at LN (model_sound Mo) Dr Zr Ha El.
have nzP (i : 'I_(size a)) : 0 < nz i by apply: (allP N0); apply: mem_nth; rewrite sn.
have Pg : pd (sigma (size a) a (ddiag (d_noise d))).
  by rewrite sigma_diag //; apply: pd_add; [apply: gram_psd | apply: pd_diag_mx].
rewrite (L _ erefl Pg) sigma_diag //.
have gE : gram k k u u = mx_at Kz k k by apply/matrixP => i j; rewrite !mxE a3 // -a1.
apply: elbo_bound => //=.
- by move=> i; rewrite Hk ?me // !mxE.
- by rewrite /compute_K_z /= gE.
- have -> : block_mx (gram k k u u) (gram k (size a) u a) (gram k (size a) u a)^T (gram (size a) (size a) a a) =
     gram (k + size a) (k + size a) (u ++ a) (u ++ a).
    have e1 i : (i < k)%N -> vget (u ++ a) i = vget u i by move=> li; rewrite /vget nth_cat -a1 li.
    have e2 i : vget (u ++ a) (k + i) = vget a i by rewrite /vget nth_cat -a1 ltnNge leq_addr addKn.
    by apply/matrixP => i j; rewrite !mxE; case: splitP => i' ei; rewrite !mxE; case: splitP => j' ej; rewrite !mxE ei ej ?e2 ?e1 //; rewrite covC.
  exact: gram_psd.
Qed.
End Density.

(* C55 *)
Section AtData.
Variables (r : pid) (Kz : dmat R).
Hypotheses (Dr : defined w m r (DCopy (d_p d))) (Zr : meant m r (d_x d)).
Hypotheses (ep : o_p o = d_p d) (ex : o_x o = d_x d) (Z : zero_within (o_noise o)).
Hypotheses (HKz : cov_is m (o_p o) (o_p o) (o_x o) (o_x o) Kz) (PK : pd (mx_at Kz (nr Kz) (nr Kz))).
Hypotheses (N0 : all (fun a => 0 < a) (d_noise d)).
Lemma elbo_equal v l : elbo_is m o d v -> logpdf_is m r (d_x d) (ddiag (d_noise d)) (map Some (d_y d)) l -> v = l.
Proof.
move=> Ev El; have [a Ha] := Zz.2; have Ha' := Ha; rewrite ep ex in Ha'.
have [a1 a2 a3] := is_k (model_sound Mo) Zz.1 Zz.1 Ha Ha HKz.
have [Kz' [_ [_ [_ [_ [E1 _ _ _ [/and4P [_ /eqP z1 /eqP z2 _] _ _]]]]]]] := Ev.
have e1 := cov_is_det E1 HKz; subst Kz'.
have [ez [kx [sy sn Hk ->]]] := elbo_rv Ha Ha' Ev (esym a1) (esym a1).
have [_ _ _ L] := logpdf_at LN (model_sound Mo) Dr Zr Ha' El.
have nzP (i : 'I_(nr Kz)) : 0 < nz i by apply: (allP N0); apply: mem_nth; rewrite sn.
have gE : gram (nr Kz) (nr Kz) a a = mx_at Kz (nr Kz) (nr Kz) by apply/matrixP => i j; rewrite !mxE a3 // -a1.
have Pg : pd (sigma (nr Kz) a (ddiag (d_noise d))).
  by rewrite sigma_diag // gE addrC; apply: pd_add; [apply: pd_psd; apply: pd_diag_mx | ].
rewrite (L _ (esym a1) Pg) sigma_diag //.
have Z0 : mx_at (o_noise o) (nr Kz) (nr Kz) = 0 by apply/matrixP => i j; rewrite !mxE Z // ?z1 ?z2.
pose md := Data (gram (nr Kz) (nr Kz) a a) (gram (nr Kz) (nr Kz) a a) (fun i => gram (nr Kz) (nr Kz) a a i i) ez (mu (nr Kz) a).
have PK' : pd (K_zz md) by rewrite /= gE.
have D0 := @at_d0 _ _ (pseudo_obs (nr Kz) (nr Kz) o d) md (@nz (nr Kz)) Z0 erefl (fun=> erefl) PK' nzP.
rewrite (@elbo_ext _ _ _ _ kx (fun i => gram (nr Kz) (nr Kz) a a i i)) //.
- exact: (@at_elbo _ _ _ _ LN pi0 (pseudo_obs (nr Kz) (nr Kz) o d) md (@nz (nr Kz)) Z0 erefl (fun=> erefl) PK' nzP).
- by move=> nd i; rewrite Hk // mxE.
- by rewrite Z0 addr0.
Qed.
End AtData.
End Elbo.
