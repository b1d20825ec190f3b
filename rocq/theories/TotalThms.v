(* Evaluations succeed: programs. *)
From Coq Require Import List.
From mathcomp Require Import all_ssreflect all_algebra.
From mathcomp Require Import zify.
From Verif Require Import Graph Machine Refine Worlds Eval GraphSpec GraphProofs GraphOps RV RVProofs Sound Typing ModelSpec Plain PlainThms ProdSpec ProdLogs ProdThms PseudoSpec PseudoGraph TotalSpec TotalLogs Total TotalPos.
Set Implicit Arguments. Unset Strict Implicit. Unset Printing Implicit Defensive.
Import GRing.Theory Num.Theory.
Local Open Scope ring_scope.

Section TotalThms.
Variable R : fieldType.
Variable D : nat -> (point R -> R) -> point R -> R.
Implicit Types (ops : seq (op R)) (w : world R).
Section Run.
Variable ops : seq (op R).
Let w := run_ops ops.
Hypothesis Ho : forall o, In o ops -> total_call D o.
Hypothesis Hc : cross_last ops.
Hypothesis Hf : factors true ops.
Hypothesis Hu : forall m m' o ps, conditioned w m' m o ps -> usable D w m o.
Hypothesis Hv : forall m m' o d ps, approximated w m' m o d ps -> usable_pseudo D w m o d.
Definition Pr (p q : pid) : Prop := exists ord, In (OMul p q ord) ops.
Lemma run_tot m : tot D Pr m (w_log w m).
Proof. by apply: tgood_run => // p q ord H; exists ord. Qed.
Lemma run_factors m p q : (m < w_nm w)%N -> Pr p q -> p \in pids (w_log w m) -> q \in pids (w_log w m) ->
  width true (w_log w m) p (Num [:: [::]]) = Some 1%N /\ width true (w_log w m) q (Num [:: [::]]) = Some 1%N.
Proof.
move=> lt [ord H] Hp Hq; apply: Hf H _ _; by rewrite members_log ?mem_rev //; apply: winv_run.
Qed.
Lemma run_usable m pm par o : (m < w_nm w)%N -> base (w_log w m) = Some (pm, par, o) ->
  if o_data o is Some d then usable_pseudo D w pm o d else usable D w pm o.
Proof.
move=> lt E; case Eo: (o_data o) => [d|].
- by apply: (Hv (m' := m) (ps := pids par)); split=> //; exists par.
- by apply: (Hu (m' := m) (ps := pids par)); split=> //; exists par.
Qed.

Lemma run_kernels m p q x y a b : (m < w_nm w)%N -> filled x -> filled y ->
  widths true (w_log w m) p x = Some a -> widths true (w_log w m) q y = Some b ->
  exists2 M, cov_is D w m p q x y M & nr M = a /\ nc M = b.
Proof.
move=> lt Fx Fy Ha Hb.
have K := kernels (winv_run ops) run_tot run_factors run_usable lt (ext_refl _).
have [k Ek [n [M [e1 e2 e3]]]] := katom_input K Fx Fy Ha Hb.
by exists M => //; exists n; rewrite /kernel_at see_k_log ?lt ?Ek //; apply: winv_run.
Qed.
Lemma run_means m p x a : (m < w_nm w)%N -> mean_input (w_log w m) p x -> widths true (w_log w m) p x = Some a ->
  exists2 e, mean_is D w m p x e & size e = a.
Proof.
move=> lt Hm Ha.
have [mu Emu [n [e [e1 e2]]]] := means (winv_run ops) run_tot run_factors run_usable lt (ext_refl _) Hm Ha.
by exists e => //; exists n; rewrite /mean_at see_m_log ?lt ?Emu //; apply: winv_run.
Qed.
(* Directly after any of the three pseudo-point approximations. *)
Section Pseudo.
Variables (m' m : mid) (o : obs R) (d : pdata R) (ps : seq pid).
Hypothesis C : approximated w m' m o d ps.
Lemma pseudo_lt : (m < w_nm w)%N.
Proof. by case: C => lt _ [par eb _]; have [lp _ _] := l_base (v_log (winv_run ops).1) lt eb; exact: ltn_trans lp lt. Qed.
Lemma pseudo_in k n : fits_pseudo true w m o d k n -> o_p o \in ps /\ d_p d \in ps.
Proof.
case=> -[Hz Wz _ _] [Hx Wx _ _]; case: C => lt eo [par eb <-].
have [_ _ Hop] := l_base (v_log (winv_run ops).1) lt eb.
split; apply: Hop.
- by rewrite mem_head.
- by apply: widths_pids Wz; apply: mean_filled Hz.
- by rewrite /o_pids eo !inE eqxx orbT.
- by apply: widths_pids Wx; apply: mean_filled Hx.
Qed.
Lemma run_pseudo_kernels p q x y a b : p \in ps -> q \in ps -> atom x -> atom y -> filled x -> filled y ->
  widths true (w_log w m) p x = Some a -> widths true (w_log w m) q y = Some b ->
  exists2 M, cov_is D w m' p q x y M & nr M = a /\ nc M = b.
Proof.
move=> Hp Hq Ax Ay Fx Fy Wx Wy; have [k [n [F Hk]]] := Hv C; have [Ip Id] := pseudo_in F.
case: F => -[Hz Wz z1 z2] [Hx Wd x1 x2]; have Fz := mean_filled Hz; have Fd := mean_filled Hx; have lt := pseudo_lt.
have [Kz cz [a1 b1]] := run_kernels lt Fz Fz Wz Wz; have [Kzx czx [a2 b2]] := run_kernels lt Fz Fd Wz Wd.
have [Kx cx [a3 b3]] := run_kernels lt Fd Fd Wd Wd; have [K cK [a4 b4]] := run_kernels lt Fx Fy Wx Wy.
have [A cA [a5 b5]] := run_kernels lt Fz Fx Wz Wx; have [B cB [a6 b6]] := run_kernels lt Fz Fy Wz Wy.
have /= [US Uv UV] := Hk _ _ _ cz czx cx.
have [N HN] := approx_kernel C Ip Id cz czx cx Hp Hq Ax Ay cK cA cB.
move: US Uv UV; rewrite -a1 -x1 => US Uv UV.
have G : gfits (d_method d) (d_noise d) Kz (o_noise o) Kzx Kx.
  by split; [by rewrite a1 | by rewrite a1 z1 z2 | by rewrite a1 a2 b2 x1 | by rewrite a3 b3 x1 | split].
have [||||M EM] := @g_value_some R _ _ _ _ _ _ K A B G _ _ _ _ UV; rewrite ?a1 ?a5 ?a6 ?b5 ?b6 //.
by have [_ _ _ [s1 s2] _] := g_value EM; exists M; [exists N; rewrite HN | rewrite s1 s2].
Qed.
Lemma run_pseudo_means p x a : p \in ps -> mean_input (w_log w m) p x -> widths true (w_log w m) p x = Some a ->
  exists2 e, mean_is D w m' p x e & size e = a.
Proof.
move=> Hp Hm Wx; have [k [n [F Hk]]] := Hv C; have [Ip Id] := pseudo_in F.
case: F => -[Hz Wz z1 z2] [Hx Wd x1 x2]; have Fz := mean_filled Hz; have Fd := mean_filled Hx; have lt := pseudo_lt.
have Fx := mean_filled Hm.
have [Kz cz [a1 b1]] := run_kernels lt Fz Fz Wz Wz; have [Kzx czx [a2 b2]] := run_kernels lt Fz Fd Wz Wd.
have [Kx cx [a3 b3]] := run_kernels lt Fd Fd Wd Wd; have [A cA [a5 b5]] := run_kernels lt Fz Fx Wz Wx.
have [e me se] := run_means lt Hm Wx; have [ez mz sz] := run_means lt Hz Wz; have [ex mx sx] := run_means lt Hx Wd.
have /= [US Uv UV] := Hk _ _ _ cz czx cx.
have [N HN] := approx_mean C Ip Id cz czx cx Hp me mz mx cA.
move: US Uv UV; rewrite -a1 -x1 => US Uv UV.
have G : gfits (d_method d) (d_noise d) Kz (o_noise o) Kzx Kx.
  by split; [by rewrite a1 | by rewrite a1 z1 z2 | by rewrite a1 a2 b2 x1 | by rewrite a3 b3 x1 | split].
have [|||||M EM] := @g_mean_some R _ _ _ _ _ _ e ez ex (d_y d) A G _ _ _ _ _ UV; rewrite ?a1 ?x1 ?a5 ?b5 //.
by have [_ _ _ sM _] := g_mean_value EM; exists M; [exists N; rewrite HN | rewrite sM].
Qed.
End Pseudo.
End Run.
End TotalThms.

Section Positive.
Variable R : realFieldType.
Lemma width_dif h (p : pid) (x : input R) a : width false h p x = Some a -> width true h p x = Some a.
Proof.
elim: h p x a => [|pm par IH o|r d rest IH] p x a //=.
  case: ifP => // Hs /IH ->; rewrite (_ : seen (width true par) o = true) //; move: Hs; rewrite /seen.
  have S q z : isSome (wlift (width false par q) z) -> isSome (wlift (width true par q) z).
    by case E: (wlift (width false par q) z) => [k|] // _; rewrite (wlift_sub (g := width true par q) _ E) //; apply: IH.
  by case/andP => /S -> /=; case: (o_data o) => // dd /andP [-> /S ->].
case: eqP => _; last exact: IH.
have two (q q' : pid) : (if width false rest q x == width false rest q' x then width false rest q x else None) = Some a ->
    (if width true rest q x == width true rest q' x then width true rest q x else None) = Some a.
  by case: eqP => // e H; rewrite (IH q x a) ?(IH q' x a) ?eqxx -?e.
case: d => [mu k|mu k lr|q|q c|q f|q q'|q c|q f|q t t0|q dd|ps] //=; try exact: IH.
- by case: x {two} => // xs; case: eqP => // e [<-]; rewrite (IH _ _ _ e) eqxx.
- exact: two.
- case: f => [g|//|m' q']; last exact: two.
  by case: x {two} => // xs; case: eqP => // e [<-]; rewrite (IH _ _ _ e) eqxx.
- by case: x {two} => // xs; apply: IH.
- by case: x {two}.
- case: x {two} => // [xs|q x]; last by case: ifP => // _; apply: wlift_sub => y b; apply: IH.
  elim: ps a => //= q ps IHp a.
  case E: (width false rest q (Num xs)) => [c|] //; case E': (wsum _ ps) => [c'|] // [<-].
  by rewrite (IH _ _ _ E) (IHp _ E').
Qed.
Lemma widths_dif h (p : pid) (x : input R) a : widths false h p x = Some a -> widths true h p x = Some a.
Proof. by apply: wlift_sub => y b; apply: width_dif. Qed.

Variable D : nat -> (point R -> R) -> point R -> R.
Variables (mu : pid -> point R -> R) (ka : pid -> point R -> point R -> R).
Hypothesis D0 : forall d t, D d (fun=> 0) t = 0.
Hypothesis ka_sym : forall p s t, ka p s t = ka p t s.
Hypothesis ka_psd : forall p, psd_fun (ka p).
Variable ops : seq (op R).
Let w := run_ops ops.
Variable dif : bool.
Hypothesis Hd : dif -> differences D.
Hypothesis Hp : mixed D mu ka world0 ops.
Hypothesis Hfa : factors dif ops.
Hypothesis Ho : forall o, In o ops -> total_call D o.
Hypothesis Hc : cross_last ops.
Hypothesis Hn : pd_noise ops.
Hypothesis Hf : sizes_fit dif w.

Lemma cross_last_gp (os : seq (op R)) : cross_last os -> gp_first os.
Proof.
elim: os => //= o os IH; case: o => //= ps ord; apply: contra; elim: os {IH} => //= o os IH /orP [|/IH ->]; last by rewrite orbT.
by case: o.
Qed.
Lemma quad_mx (N : dmat R) n (v : 'rV[R]_n) :
  (v *m mx_at N n n *m v^T) 0 0 = \sum_(i < n) \sum_(j < n) v 0 i * v 0 j * ent N i j.
Proof.
rewrite mxE exchange_big /=; apply: eq_bigr => i _; rewrite !mxE big_distrl /=; apply: eq_bigr => j _.
by rewrite !mxE mulrAC.
Qed.
Lemma ordc n (v : 'rV[R]_n) : exists c : nat -> R, forall i : 'I_n, v 0 i = c i.
Proof.
exists (fun i => if insub i is Some i' then v 0 i' else 0) => i.
by rewrite valK.
Qed.
Lemma pd_psd_noise : psd_noise ops.
Proof.
move=> m o Hin; have [[e H] Hd'] := Hn Hin; split; last first.
  by move=> d /Hd'; apply: sub_all => a; apply: Order.POrderTheory.ltW.
move=> l Hl.
pose c i := \sum_(a <- l | a.2 == i) a.1.
have E : quad (ent (o_noise o)) l = \sum_(i < nr (o_noise o)) \sum_(j < nr (o_noise o)) c i * c j * ent (o_noise o) i j.
  have S (F : nat -> R) : \sum_(a <- l) a.1 * F a.2 = \sum_(i < nr (o_noise o)) c i * F i.
    elim: l Hl @c => [|a l IH] /=; first by move=> _; rewrite big_nil big1 // => i _; rewrite big_nil mul0r.
    case/andP => la Hl; rewrite big_cons (IH Hl).
    rewrite -[a.1 * F a.2](_ : \sum_(i < nr (o_noise o)) (if a.2 == i then a.1 * F i else 0) = _); last first.
      by rewrite -big_mkcond /= (big_pred1 (Ordinal la)) // => i; apply: eq_sym.
    rewrite -big_split /=; apply: eq_bigr => i _; rewrite big_cons; case: eqP => [_|_]; rewrite ?mulrDl ?add0r //.
  rewrite /quad; under eq_bigr => a _.
    under eq_bigr => b _ do rewrite -mulrA.
    rewrite -big_distrr /= (S (fun j => ent (o_noise o) a.2 j)).
  over.
  rewrite (S (fun i => \sum_(j < nr (o_noise o)) c j * ent (o_noise o) i j)).
  by apply: eq_bigr => i _; rewrite big_distrr /=; apply: eq_bigr => j _; rewrite mulrA.
rewrite E; case: (altP (@allP _ (fun i : 'I_(nr (o_noise o)) => c i == 0) (enum 'I_(nr (o_noise o))))) => Hc0.
  by rewrite big1 // => i _; rewrite big1 // => j _; rewrite (eqP (Hc0 i (mem_enum _ _))) !mul0r.
by apply: Order.POrderTheory.ltW; apply: H; case/allPn: Hc0 => i _ ci; exists i.
Qed.
Lemma base_pd m m' o par : base (w_log w m') = Some (m, par, o) ->
  pd_matrix (o_noise o) /\ forall d, o_data o = Some d -> all (fun a => 0 < a) (d_noise d).
Proof.
pose Ns (o : obs R) := pd_matrix (o_noise o) /\ forall d, o_data o = Some d -> all (fun a => 0 < a) (d_noise d).
have [//|c Gd] := @lgood_run _ D mu ka (fun _ _ => True) Ns ops Hp _ Hn (cross_last_gp Hc).
have := lg_good Gd m'; rewrite -[a_log _ _]/(w_log w m').
by elim: (w_log w m') => [//|pm' par' _ o' /= H [_ _ <-]|q d h IH /= [_ H] E]; [case: H | exact: IH E].
Qed.
Lemma factors_dif : factors true ops.
Proof. by move=> p q ord m H Hpm Hqm; have [H1 H2] := Hfa H Hpm Hqm; case: (dif) H1 H2 => // /width_dif -> /width_dif ->. Qed.
Lemma wdif h p x a : @widths R dif h p x = Some a -> widths true h p x = Some a.
Proof. by case: (dif) => // /widths_dif. Qed.
Lemma pd_pos (N : dmat R) k : pd_matrix N -> nr N = k -> pos (mx_at N k k).
Proof.
move=> [e H] f3 v nz; rewrite f3 in H; rewrite quad_mx; have [c Ec] := ordc v.
rewrite (_ : \sum_(i < k) _ = \sum_(i < k) \sum_(j < k) c i * c j * ent N i j); last first.
  by apply: eq_bigr => i _; apply: eq_bigr => j _; rewrite !Ec.
apply: H; case: (altP (@allP _ (fun i : 'I_k => c i == 0) (enum 'I_k))) => Hc0.
  case/eqP: nz; apply/rowP => i; rewrite mxE Ec; exact/eqP/(Hc0 i (mem_enum _ _)).
by case/allPn: Hc0 => i _ ci; exists i => //.
Qed.
Lemma base_lt m' m par o : (m' < w_nm w)%N -> base (w_log w m') = Some (m, par, o) -> (m < w_nm w)%N.
Proof. by move=> lt eb; have [lp _ _] := l_base (v_log (winv_run ops).1) lt eb; exact: ltn_trans lp lt. Qed.
Lemma noisy_pos m p x k K N : (m < w_nm w)%N -> widths dif (w_log w m) p x = Some k -> cov_is D w m p p x x K ->
  pd_matrix N -> nr N = k -> pos (mx_at K k k + mx_at N k k).
Proof.
move=> lm f2 HK HN f3 v nz; rewrite mulmxDr mulmxDl mxE; apply: ltr_paddl; last exact: pd_pos.
rewrite quad_mx; have [c Ec] := ordc v.
rewrite (_ : \sum_(i < k) _ = \sum_(i < k) \sum_(j < k) c i * c j * ent K i j); last first.
  by apply: eq_bigr => i _; apply: eq_bigr => j _; rewrite !Ec.
have Hg := cross_last_gp Hc.
have [eK1 eK2] := mixed_shape D0 Hd ka_sym Hp Hg Hfa lm f2 f2 HK.
have := @mixed_joint_psd R D mu ka dif D0 Hd ka_sym ops Hp Hg Hfa m [:: (p, x)] (fun _ _ => K) (fun _ => c) ka_psd pd_psd_noise lm.
rewrite /block_quad /= big_ord1 big_ord1 eK1 eK2; apply.
  by case=> // _; rewrite /lname /linput /= f2.
by case=> // -[].
Qed.
Lemma pd_usable m m' o ps : conditioned w m' m o ps -> usable D w m o.
Proof.
move=> Hco; have [|[k [f1 f2 f3 f4 f5]]] := Hf.1 _ _ _ _ Hco; first by left.
right; exists k; first by split=> //; apply: wdif.
move=> K HK; apply: pos_unit; case: Hco => lt _ [par eb _].
by apply: noisy_pos HK (base_pd eb).1 f3 => //; apply: base_lt eb.
Qed.
Lemma pd_usable_pseudo m m' o d ps : approximated w m' m o d ps -> usable_pseudo D w m o d.
Proof.
move=> Hco; have [k [n [[f1 f2 f3 f4] [g1 g2 g3 g4]]]] := Hf.2 _ _ _ _ _ Hco.
exists k, n; split; first by split; split=> //; apply: wdif.
move=> Kz Kzx Kx HKz HKzx HKx; case: Hco => lt eo [par eb _]; have lm := base_lt lt eb.
have [PN /(_ d eo) Pn] := base_pd eb.
have PS := noisy_pos lm f2 HKz PN f3; move=> S C v.
have Pv i : 0 < v i.
  have Pi : 0 < nth 0 (d_noise d) i by apply: (allP Pn); rewrite mem_nth // g3.
  rewrite /v /model_noise; case: (d_method d) => //; apply: ltr_paddr => //; rewrite subr_ge0.
  have [W [G [eps [_ _ _ a4 [a5 NN]]]]] := mixed_joint D0 Hd ka_sym Hp (cross_last_gp Hc) Hfa.
  have {}NN := NN ka_psd pd_psd_noise.
  have [uz Hz sz] := a4 _ _ _ _ lm f2; have [ux Hx sx] := a4 _ _ _ _ lm g2.
  have [_ _ Cz] := (a5 _ _ _ _ Hz).2 _ _ _ _ Hz HKz.
  have [_ _ Czx] := (a5 _ _ _ _ Hz).2 _ _ _ _ Hx HKzx.
  have [_ _ Cx] := (a5 _ _ _ _ Hx).2 _ _ _ _ Hx HKx.
  have := @prediction_le R W k (vget uz) (vget ux i) (mx_at (o_noise o) k k) NN (pd_pos PN f3).
  have -> : \matrix_(i, j) cov (vget uz i) (vget uz j) = mx_at Kz k k.
    by apply/matrixP => a b; rewrite !mxE Cz // sz.
  move=> /(_ (pos_unit PS)); rewrite -Cx ?sx //; apply: Order.POrderTheory.le_trans.
  rewrite /nystrom -/S; have -> : \col_a cov (vget uz a) (vget ux i) = col i C.
    by apply/colP => a; rewrite !mxE Czx ?sz ?sx.
  rewrite tr_col -row_mul [in X in X <= _]mxE [in X in _ <= X]mxE.
  by rewrite (eq_bigr (fun j => row i (C^T *m invmx S) 0 j * col i C j 0)) // => a _; rewrite [row _ _ _ _]mxE [col _ _ _ _]mxE.
split; [exact: pos_unit PS | by move=> i; rewrite Order.POrderTheory.gt_eqF | exact: pos_unit (var_pos C PS Pv)].
Qed.
Lemma pd_kernels m p q x y a b : (m < w_nm w)%N -> filled x -> filled y ->
  widths true (w_log w m) p x = Some a -> widths true (w_log w m) q y = Some b ->
  exists2 M, cov_is D w m p q x y M & nr M = a /\ nc M = b.
Proof. exact: (run_kernels Ho Hc factors_dif pd_usable pd_usable_pseudo). Qed.
Lemma pd_means m p x a : (m < w_nm w)%N -> mean_input (w_log w m) p x -> widths true (w_log w m) p x = Some a ->
  exists2 e, mean_is D w m p x e & size e = a.
Proof. exact: (run_means Ho Hc factors_dif pd_usable pd_usable_pseudo). Qed.

Lemma pd_pseudo_kernels m' m o d ps : approximated w m' m o d ps ->
  forall p q x y a b, p \in ps -> q \in ps -> atom x -> atom y -> filled x -> filled y ->
  widths true (w_log w m) p x = Some a -> widths true (w_log w m) q y = Some b ->
  exists2 M, cov_is D w m' p q x y M & nr M = a /\ nc M = b.
Proof. exact: (run_pseudo_kernels Ho Hc factors_dif pd_usable pd_usable_pseudo). Qed.
Lemma pd_pseudo_means m' m o d ps : approximated w m' m o d ps ->
  forall p x a, p \in ps -> mean_input (w_log w m) p x -> widths true (w_log w m) p x = Some a ->
  exists2 e, mean_is D w m' p x e & size e = a.
Proof. exact: (run_pseudo_means Ho Hc factors_dif pd_usable pd_usable_pseudo). Qed.

(* The numbers exist and are those of the model. *)
Lemma pd_joint : exists (W : space R) (G : pid -> point R -> rv W) (eps : mid -> nat -> rv W),
  [/\ forall p, (forall s t, Ex (G p s) = mu p s /\ cov (G p s) (G p t) = ka p s t) \/ product_part ops p,
      forall p q s t, p <> q -> cov (G p s) (G q t) = 0,
      forall m pm par o i j, (m < w_nm w)%N -> base (w_log w m) = Some (pm, par, o) ->
        (i < nr (full_noise o))%N -> (j < nr (full_noise o))%N ->
        [/\ Ex (eps m i) = 0, cov (eps m i) (eps m j) = ent (full_noise o) i j,
            forall p t, cov (eps m i) (G p t) = 0 & forall m' i', m <> m' -> cov (eps m i) (eps m' i') = 0],
      forall m p x a, (m < w_nm w)%N -> widths dif (w_log w m) p x = Some a -> mean_input (w_log w m) p x ->
        exists u e, [/\ is_at D G eps w m p x u, size u = a, mean_is D w m p x e & e = map (@Ex R W) u] &
      forall m p q x y a b, (m < w_nm w)%N -> filled x -> filled y ->
        widths dif (w_log w m) p x = Some a -> widths dif (w_log w m) q y = Some b ->
        exists u v M, [/\ is_at D G eps w m p x u, is_at D G eps w m q y v, size u = a /\ size v = b,
          cov_is D w m p q x y M & covmat M u v]].
Proof.
have [W [G [eps [a1 a2 a3 a4 [a5 _]]]]] := mixed_joint D0 Hd ka_sym Hp (cross_last_gp Hc) Hfa.
exists W, G, eps; split=> //.
  move=> m p x a lt Ha Hm; have [u Hu su] := a4 _ _ _ _ lt Ha.
  have [e He se] := pd_means lt Hm (wdif Ha); exists u, e; split=> //.
  by have [H _] := a5 _ _ _ _ Hu; apply: H.
move=> m p q x y a b lt Fx Fy Ha Hb.
have [u Hu su] := a4 _ _ _ _ lt Ha; have [v Hv sv] := a4 _ _ _ _ lt Hb.
have [M HM _] := pd_kernels lt Fx Fy (wdif Ha) (wdif Hb).
exists u, v, M; split=> //; have [_ H] := a5 _ _ _ _ Hu; exact: H Hv HM.
Qed.
End Positive.

(* Without products of processes. *)
Section PlainPositive.
Variable R : realFieldType.
Variable D : nat -> (point R -> R) -> point R -> R.
Variables (mu : pid -> point R -> R) (ka : pid -> point R -> point R -> R).
Hypothesis D0 : forall d t, D d (fun=> 0) t = 0.
Hypothesis ka_sym : forall p s t, ka p s t = ka p t s.
Hypothesis ka_psd : forall p, psd_fun (ka p).
Variable ops : seq (op R).
Let w := run_ops ops.
Hypothesis Hp : plain D mu ka world0 ops.
Hypothesis Ho : forall o, In o ops -> total_call D o.
Hypothesis Hc : cross_last ops.
Hypothesis Hn : pd_noise ops.
Hypothesis Hf : sizes_fit false w.

Lemma plain_is_mixed os w0 : plain D mu ka w0 os -> mixed D mu ka w0 os.
Proof. by elim: os w0 => //= o os IH w0 [H1 /IH H2]; split=> //; case: o H1 {H2}. Qed.
Lemma plain_no_mul os w0 p q ord : plain D mu ka w0 os -> ~ In (OMul p q ord) os.
Proof. by elim: os w0 => [|o os IH] w0 /=; [move=> _ [] | case=> H1 H2 [e|]; [rewrite e in H1 | apply: IH H2]]. Qed.
Lemma plain_factors dif : factors dif ops.
Proof. by move=> p q ord m /(plain_no_mul Hp). Qed.
Let Hm := plain_is_mixed Hp.
Lemma no_dif : false -> differences D. Proof. by []. Qed.
Lemma plain_pd_kernels m p q x y a b : (m < w_nm w)%N -> filled x -> filled y ->
  widths true (w_log w m) p x = Some a -> widths true (w_log w m) q y = Some b ->
  exists2 M, cov_is D w m p q x y M & nr M = a /\ nc M = b.
Proof. exact: (pd_kernels D0 ka_sym ka_psd no_dif Hm (plain_factors false) Ho Hc Hn Hf). Qed.
Lemma plain_pd_means m p x a : (m < w_nm w)%N -> mean_input (w_log w m) p x -> widths true (w_log w m) p x = Some a ->
  exists2 e, mean_is D w m p x e & size e = a.
Proof. exact: (pd_means D0 ka_sym ka_psd no_dif Hm (plain_factors false) Ho Hc Hn Hf). Qed.
Lemma plain_pd_joint : exists (W : space R) (G : pid -> point R -> rv W) (eps : mid -> nat -> rv W),
  [/\ forall p q s t, cov (G p s) (G q t) = if p == q then ka p s t else 0,
      forall p t, Ex (G p t) = mu p t,
      forall m pm par o i j, (m < w_nm w)%N -> base (w_log w m) = Some (pm, par, o) ->
        (i < nr (full_noise o))%N -> (j < nr (full_noise o))%N ->
        [/\ Ex (eps m i) = 0, cov (eps m i) (eps m j) = ent (full_noise o) i j,
            forall p t, cov (eps m i) (G p t) = 0 & forall m' i', m <> m' -> cov (eps m i) (eps m' i') = 0],
      forall m p x a, (m < w_nm w)%N -> widths false (w_log w m) p x = Some a -> mean_input (w_log w m) p x ->
        exists u e, [/\ is_at D G eps w m p x u, size u = a, mean_is D w m p x e & e = map (@Ex R W) u] &
      forall m p q x y a b, (m < w_nm w)%N -> filled x -> filled y ->
        widths false (w_log w m) p x = Some a -> widths false (w_log w m) q y = Some b ->
        exists u v M, [/\ is_at D G eps w m p x u, is_at D G eps w m q y v, size u = a /\ size v = b,
          cov_is D w m p q x y M & covmat M u v]].
Proof.
have [W [G [eps [a1 a2 a3 a4 a5]]]] := plain_joint D0 ka_sym Hp (cross_last_gp Hc).
exists W, G, eps; split=> //.
  move=> m p x a lt Ha Hx; have [u Hu su] := a4 _ _ _ _ lt Ha.
  have [e He se] := plain_pd_means lt Hx (widths_dif Ha); exists u, e; split=> //.
  by have [H _] := a5 _ _ _ _ Hu; apply: H.
move=> m p q x y a b lt Fx Fy Ha Hb.
have [u Hu su] := a4 _ _ _ _ lt Ha; have [v Hv sv] := a4 _ _ _ _ lt Hb.
have [M HM _] := plain_pd_kernels lt Fx Fy (widths_dif Ha) (widths_dif Hb).
exists u, v, M; split=> //; have [_ H] := a5 _ _ _ _ Hu; exact: H Hv HM.
Qed.
End PlainPositive.
