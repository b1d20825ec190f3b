(* Random variables for models with products of processes and derivatives. *)
From Coq Require Import List.
From mathcomp Require Import all_ssreflect all_algebra.
From mathcomp Require Import zify ring.
From Verif Require Import Graph Machine Refine Worlds Eval GraphSpec GraphProofs GraphOps RV RVProofs Sound Typing ModelSpec Formal ModelFacts Plain PointFacts ModelThms MulFacts Schur ProdSpec ProdLogs TotalLogs Total.
Set Implicit Arguments. Unset Strict Implicit. Unset Printing Implicit Defensive.
Import GRing.Theory Num.Theory.
Local Open Scope ring_scope.

Section Psd.
Variable R : realFieldType.
Variable D : nat -> (point R -> R) -> point R -> R.
Lemma regular_psd (w : world R) P mu ka (Rg : regular D w P mu ka) : (forall p, psd_fun (ka p)) ->
  (forall m pm par o, (m < w_nm w)%N -> base (w_log w m) = Some (pm, par, o) -> psd_matrix (full_noise o)) ->
  nonneg (Formal.W Rg).
Proof.
move=> ka_psd Hn v.
suff H : forall l, 0 <= quad (wkap w ka) l by exact: (H v.2).
apply: (quad_ge0 (wkap_lab w ka)).
case=> [p|m] l /all_filterP <-.
  have := ka_psd p [seq (a.1, if a.2 is AG _ t then t else [::]) | a <- l & alab a.2 == inl p].
  rewrite /quad big_map !big_filter; congr (_ <= _); apply: eq_bigr => -[c [q s|//]] /eqP [->].
  rewrite big_map !big_filter; apply: eq_bigr => -[c' [q' t|//]] /eqP [->] /=.
  by rewrite eqxx.
set l' := filter _ l.
have -> : quad (wkap w ka) l' = quad (nz w m) [seq (a.1, if a.2 is AE _ i then i else 0%N) | a <- l'].
  rewrite /quad big_map /l' !big_filter; apply: eq_bigr => -[c [//|m1 i]] /eqP [->].
  rewrite big_map !big_filter; apply: eq_bigr => -[c' [//|m2 j]] /eqP [->] /=.
  by rewrite eqxx.
move: [seq _ | _ <- l'] => {l l'} l; rewrite /nz.
case E: (base _) => [[[pm par] o]|]; last first.
  by rewrite /quad big1 // => a _; rewrite big1 // => b _; rewrite mulr0.
case: ltnP => lt /=; last by rewrite /quad big1 // => a _; rewrite big1 // => b _; rewrite mulr0.
have := Hn _ _ _ _ lt E [seq a <- l | (a.2 < nr (full_noise o))%N] (filter_all _ _).
rewrite /quad big_filter big_mkcond /=; congr (_ <= _); apply: eq_bigr => a _; case: ifP => li; last first.
  by rewrite big1 // => b _; rewrite mulr0.
by rewrite big_filter big_mkcond /=; apply: eq_bigr => b _; case: ifP => lj; rewrite ?mulr0.
Qed.
End Psd.

Section CovPsd.
Variables (R : realFieldType) (W : space R) (T : Type) (Z : T -> rv W).
Lemma cov_psd : nonneg W -> psd_fun (fun i j => cov (Z i) (Z j)).
Proof.
move=> nn ls; pose S ls' := foldr (fun a v => radd (rscale a.1 (Z a.2)) v) (rscale 0 (rone W)) ls'.
have L ls' (v : rv W) : cov (S ls') v = \sum_(a <- ls') a.1 * cov (Z a.2) v.
  elim: ls' => [|a s IH] /=; first by rewrite big_nil covZ mul0r.
  by rewrite big_cons covD covZ IH.
have -> : quad (fun i j => cov (Z i) (Z j)) ls = cov (S ls) (S ls); last exact: nn.
rewrite L /quad; apply: eq_bigr => a _; rewrite covC L mulr_sumr; apply: eq_bigr => b _.
by rewrite (covC (Z b.2)) mulrA.
Qed.
End CovPsd.

Section Below.
Variable R : fieldType.
Implicit Types (h : hist R).
(* Every independent process that process [q] depends on is below [N]. *)
Fixpoint below (N : nat) h (q : pid) : Prop :=
  match h with
  | HRoot => True
  | HPost _ par o => q \in pids par -> below N par q /\ forall a, a \in o_pids o -> below N par a
  | HAdd r d rest =>
    if q == r then if d is DInd _ _ then is_true (r < N)%N else forall a, a \in needs d -> below N rest a
    else below N rest q
  end.
Lemma below_out N h q : q \notin pids h -> below N h q.
Proof.
elim: h q => [|pm par IH o|r d rest IH] q //=; first by move=> /negP.
by rewrite inE negb_or => /andP [/negbTE -> /IH].
Qed.
Lemma below_ext N h h' q : ext h h' -> wfh h' -> q \in pids h -> below N h' q <-> below N h q.
Proof.
elim=> // r d h2 E IH /= /and3P [rn _ Wf] Hq.
case: eqP => [e|_]; last exact: IH.
by move: rn; rewrite -e (ext_pids E Hq).
Qed.
Lemma hlt_below N h q : hlt N h -> below N h q.
Proof.
elim: h q => [|pm par IH o|r d rest IH] q //=; first by move=> H _; split=> [|a _]; apply: IH.
case=> lt H; case: eqP => _; last exact: IH.
by case: d => // *; apply: IH.
Qed.
Lemma ext_same h p d d' r r' : wfh h -> ext (HAdd p d r) h -> ext (HAdd p d' r') h -> d = d' /\ r = r'.
Proof.
move=> Wf E E'; move: Wf; move e: (HAdd p d r) E => h0 E.
elim: E E' e => [|q e h1 E IH] E' e0 Wf.
  subst h0; inversion E' as [eq|q0 d0 h0 E0]; subst => //.
  case/and3P: Wf => /negP []; by apply: (ext_pids E0); rewrite inE eqxx.
have Wf' : wfh h1 by case/and3P: Wf.
inversion E' as [eq|q0 d0 h2 E0]; subst; last exact: IH.
case/and3P: Wf => /negP []; by apply: (ext_pids E); rewrite inE eqxx.
Qed.
Lemma ext_hasind h p mu k r : ext (HAdd p (DInd mu k) r) h -> hasind p h.
Proof. by elim=> /= [|q d h' _ ->]; rewrite ?eqxx ?orbT. Qed.
Lemma hasind_ext h p : hasind p h -> exists mu k r, ext (HAdd p (DInd mu k) r) h.
Proof.
elim: h => //= q d h IH /orP [/andP [/eqP -> ]|/IH [mu [k [r E]]]]; last by exists mu, k, r; constructor.
by case: d => // mu k _; exists mu, k, h; constructor.
Qed.
End Below.

Section Main.
Variable R : realFieldType.
Variable D : nat -> (point R -> R) -> point R -> R.
Variables (mu : pid -> point R -> R) (ka : pid -> point R -> point R -> R).
Variable dif : bool.
Variable cs : nat -> seq (R * (point R -> point R)).
Hypothesis Hcs : dif -> forall d f x, D d f x = \sum_(c <- cs d) c.1 * f (c.2 x).
Hypothesis D0 : forall d t, D d (fun=> 0) t = 0.
Hypothesis ka_sym : forall p s t, ka p s t = ka p t s.
Variable ops : seq (op R).
Hypothesis Hm : mixed D mu ka world0 ops.
Hypothesis Hg : gp_first ops.
Hypothesis Hf : factors dif ops.
Let w := run_ops ops.
Let l := w_log w.
Let nm := w_nm w.
Let Pr f g : Prop := exists ord, In (OMul f g ord) ops.
Let Ns (o : obs R) : Prop := exists m, In (OCond m o) ops.
Let I : winv w := winv_run ops.

Definition der (W : space R) (d : nat) (F : point R -> rv W) (x : point R) : rv W :=
  foldr (fun c v => radd (rscale c.1 (F (c.2 x))) v) (rscale 0 (rone W)) (cs d).
Lemma der_ok (W : space R) : dif -> forall d F, derivative (W := W) D d F (@der W d F).
Proof.
move=> /Hcs H d F; split=> [x|x v]; rewrite H /der; elim: (cs d) => [|c s IH] /=.
- by rewrite big_nil ExZ mul0r.
- by rewrite big_cons ExD ExZ IH.
- by rewrite big_nil covZ mul0r.
- by rewrite big_cons covD covZ IH.
Qed.

Lemma noise_mixed os w0 m o : mixed D mu ka w0 os -> In (OCond m o) os -> square_sym (o_noise o).
Proof. by elim: os w0 => //= a os IH w0 [Ho Hos] [e|Hin]; [rewrite e in Ho | apply: IH Hos Hin]. Qed.

Lemma all_good m : good D mu ka Pr Ns m (l m).
Proof.
have [|m' o Hin|c Gd] := @lgood_run _ D mu ka Pr Ns ops Hm _ _ Hg; first by move=> p q ord H; exists ord.
  by exists m'.
exact: (lg_good Gd).
Qed.
Lemma all_lt m : hlt (w_np w) (l m).
Proof.
have [|m' o Hin|c Gd] := @lgood_run _ D mu ka Pr Ns ops Hm _ _ Hg; first by move=> p q ord H; exists ord.
  by exists m'.
exact: (lg_lt Gd).
Qed.
Lemma all_un m m' p : hasind p (l m) -> hasind p (l m') -> m = m'.
Proof.
have [|m1 o Hin|c Gd] := @lgood_run _ D mu ka Pr Ns ops Hm _ _ Hg; first by move=> p1 q ord H; exists ord.
  by exists m1.
exact: (lg_un Gd).
Qed.
Lemma good_ext m h p d rest : ext (HAdd p d rest) h -> good D mu ka Pr Ns m h -> good D mu ka Pr Ns m (HAdd p d rest).
Proof. by elim=> // q e h' _ IH [_]. Qed.
Lemma good_base m h pm par o : base h = Some (pm, par, o) -> good D mu ka Pr Ns m h -> Ns o.
Proof. by elim: h => //= [pm' par' _ o' [_ _ <-] []|q d h IH /IH H [_]]. Qed.
Lemma base_ext (h : hist R) pm par o : base h = Some (pm, par, o) -> ext (HPost pm par o) h.
Proof. by elim: h => //= [pm' par' _ o' [-> -> ->]|q d h IH /IH H]; constructor. Qed.

Lemma wf m : (m < nm)%N -> wfh (l m). Proof. exact: (l_wf (v_log I.1)). Qed.
Lemma needs_pids m p d rest q : (m < nm)%N -> ext (HAdd p d rest) (l m) -> q \in needs d -> q \in pids rest.
Proof.
move=> lt E Hq; have [Hd _] := good_ext E (all_good m).
have /and3P [_ /allP da _] := wfh_ext E (wf lt).
case: d E Hd da Hq => [mE k|mE k lr|q1|q1 c|q1 f|q1 q2|q1 c|q1 f|q1 t t0|q1 dd|ps] //= _ Hd da; try exact: da.
case: f Hd => [g|//|m' q2] Hd; try exact: da.
by rewrite inE => /orP [/eqP ->|]; [apply: da; rewrite mem_head | rewrite inE => /eqP ->].
Qed.

Definition Pn (N : nat) (m : mid) (q : pid) : Prop := below N (l m) q.
Lemma Pn_ext N m h q : (m < nm)%N -> ext h (l m) -> q \in pids h -> Pn N m q <-> below N h q.
Proof. by move=> lt E; apply: below_ext E (wf lt). Qed.
Lemma Pn_needs N m p d rest q : (m < nm)%N -> ext (HAdd p d rest) (l m) -> Pn N m p -> q \in needs d -> Pn N m q.
Proof.
move=> lt E Hp Hq; have Hq' := needs_pids lt E Hq.
have /(Pn_ext N lt E) H : p \in pids (HAdd p d rest) by rewrite inE eqxx.
apply/(Pn_ext N lt (ext_tail E) Hq'); move/H: Hp; rewrite /= eqxx.
by case: (d) Hq => // *; auto.
Qed.
Lemma Pn_base N m pm par o p : (m < nm)%N -> base (l m) = Some (pm, par, o) -> Pn N m p -> p \in pids par ->
  Pn N pm p /\ forall a, a \in o_pids o -> Pn N pm a.
Proof.
move=> lt E Hp Hin; have [ltp Ep Ho] := l_base (v_log I.1) lt E; have lt' := ltn_trans ltp lt.
move/(Pn_ext N lt (base_ext E) Hin): Hp => /(_ Hin) [H1 H2]; split; first by apply/(Pn_ext N lt' Ep).
move=> a Ha; case: (boolP (a \in pids (l pm))) => [/(Ho _ Ha) Hi|]; last exact: below_out.
by apply/(Pn_ext N lt' Ep Hi); apply: H2.
Qed.
Lemma Pn_ind N m p mu' k rest : (m < nm)%N -> ext (HAdd p (DInd mu' k) rest) (l m) -> Pn N m p <-> (p < N)%N.
Proof.
move=> lt E; have Hp : p \in pids (HAdd p (DInd mu' k) rest) by rewrite inE eqxx.
by rewrite (Pn_ext N lt E Hp) /= eqxx.
Qed.

(* What is required of an independent process. *)
Definition fitsk (k : kexp R) (f : point R -> point R -> R) : Prop := forall n xs ys M,
  evk (see_k w) (see_m w) D n k (Num xs) (Num ys) = Some M ->
  [/\ nr M = size xs, nc M = size ys & forall i j, (i < size xs)%N -> (j < size ys)%N ->
        ent M i j = f (nth [::] xs i) (nth [::] ys j)].
Definition fitsm (mu' : mexp R) (f : point R -> R) : Prop := forall n x xs v,
  points x = Some xs -> evm (see_k w) (see_m w) D n mu' x = Some v -> v = map f xs.
Definition upd (T : Type) (F : pid -> T) (N : pid) (v : T) : pid -> T := fun p => if p == N then v else F p.

Lemma regular_step N mu' ka' mN kN : regular D w (Pn N) mu' ka' -> (forall s t, kN s t = kN t s) ->
  (forall m mE k rest, (m < nm)%N -> ext (HAdd N (DInd mE k) rest) (l m) -> fitsk k kN /\ fitsm mE mN) ->
  regular D w (Pn N.+1) (upd mu' N mN) (upd ka' N kN).
Proof.
move=> Rg sy H; split.
- by move=> m p d rest q; apply: Pn_needs.
- by move=> m pm par o p; apply: Pn_base.
- by move=> m p mE k lr rest lt E; have [] := good_ext E (all_good m).
- by move=> p s t; rewrite /upd; case: eqP => _; [apply: sy | apply: (rg_sym Rg)].
- move=> m p mE k rest n xs ys M lt E Hp Ev; rewrite /upd; case: eqP => [e|/eqP ne].
    by subst p; have [Fk _] := H _ _ _ _ lt E; apply: Fk Ev.
  apply: (rg_cov Rg lt E _ Ev); apply/(Pn_ind N lt E).
  by move/(Pn_ind N.+1 lt E): Hp; rewrite ltnS leq_eqVlt (negbTE ne).
- move=> m p mE k rest n x xs v lt E Hp Ex Ev; rewrite /upd; case: eqP => [e|/eqP ne].
    by subst p; have [_ Fm] := H _ _ _ _ lt E; apply: Fm Ex Ev.
  apply: (rg_mean Rg lt E _ Ex Ev); apply/(Pn_ind N lt E).
  by move/(Pn_ind N.+1 lt E): Hp; rewrite ltnS leq_eqVlt (negbTE ne).
- by move=> m pm par o lt E; apply: (rg_noise Rg lt E).
- exact: D0.
Qed.

(* The independent part of a product. *)
Section Product.
Variables (N : nat) (mu' : pid -> point R -> R) (ka' : pid -> point R -> point R -> R).
Hypothesis Rg : regular D w (Pn N) mu' ka'.
Let W := Formal.W Rg.
Let G := Formal.G Rg.
Let eps := Formal.eps Rg.
Lemma prod_model : model D G eps w (Pn N).
Proof.
split; first exact: (formal_valid I Rg).
apply: crosslast_ordered => m p mE k rest q lt E _ _; apply: nocross_free.
by have [[]] := good_ext E (all_good m).
Qed.
Variables (m : mid) (rest : hist R) (f g : pid) (mE : mexp R) (k : kexp R).
Hypotheses (lt : (m < nm)%N) (E : ext (HAdd N (DInd mE k) rest) (l m)) (Hpr : Pr f g).
Hypotheses (Hfp : f \in pids rest) (Hgp : g \in pids rest).
Let Er : ext rest (l m) := ext_tail E.
Lemma prod_rest : nocross rest /\ hlt N rest.
Proof. by have [[]] := good_ext E (all_good m). Qed.
Lemma prod_width q : q = f \/ q = g -> forall ys, width dif (l m) q (Num ys) = Some (size ys).
Proof.
move=> Hq; have [nc _] := prod_rest; have Hqp : q \in pids rest by case: Hq => ->.
move=> ys; rewrite (width_ext' dif _ Er (wf lt) Hqp); apply: width_all => //.
rewrite -(width_ext' dif _ Er (wf lt) Hqp); case: Hpr => ord Hin.
have [] := Hf (m := m) Hin; rewrite ?members_log // ?mem_rev; try exact: (ext_pids Er).
by move=> H1 H2; case: Hq => ->.
Qed.
Lemma prod_P q : q \in pids rest -> Pn N m q.
Proof. by move=> Hq; apply/(Pn_ext N lt Er Hq); apply: hlt_below; case: prod_rest. Qed.
Lemma prod_val q : q = f \/ q = g -> forall t, {v : rv W | is_at D G eps w m q (Num [:: t]) [:: v]}.
Proof.
move=> Hq t; have [u Hu su] := at_exists G eps (@der_ok W) (winvid_run ops m) (prod_width Hq [:: t]).
by case: u su Hu => // v [|//] _ Hu; exists v; split=> //; apply: lift_num.
Qed.
Lemma prod_pt q x xs (Hq : q = f \/ q = g) (F : point R -> rv W) :
  (forall t, is_at D G eps w m q (Num [:: t]) [:: F t]) -> points x = Some xs ->
  exists u, [/\ is_at D G eps w m q x u, size u = size xs & forall i, (i < size xs)%N -> aseq (vget u i) (F (nth [::] xs i))].
Proof.
move=> HF Hx; have Hqp : q \in pids rest by case: Hq => ->.
have [u Hu su] := denotes_exists G eps (@der_ok W) (winvid_run ops m) (widths_all (prod_width Hq) Hx).
exists u; split=> // i li; have [_ HFi] := HF (nth [::] xs i).
have nc : single rest q by apply: nocross_single; case: prod_rest.
move: HFi Hu; rewrite (full D G eps I lt Er Hqp) => HFi Hu.
exact: (den_point (j := 0%N) nc Hu HFi Hx (points_num [:: nth [::] xs i]) li).
Qed.
Lemma aseq_cov (a a' b b' : rv W) : aseq a a' -> aseq b b' -> cov a b = cov a' b'.
Proof. by move=> [_ ->] [_ Hb]; rewrite covC Hb covC. Qed.
Variables (F H : point R -> rv W).
Hypothesis HF : forall t, is_at D G eps w m f (Num [:: t]) [:: F t].
Hypothesis HH : forall t, is_at D G eps w m g (Num [:: t]) [:: H t].
Let Z (i : bool * point R) : rv W := if i.1 then H i.2 else F i.2.
Definition kprod (s t : point R) : R := prodk (fun i j => cov (Z i) (Z j)) s t.
Definition mprod (s : point R) : R := (-1 * Ex (F s)) * Ex (H s).

Lemma kprod_fits kff kgg kfg kgf : KA m rest f f = Some kff -> KA m rest g g = Some kgg ->
  KA m rest f g = Some kfg -> KA m rest g f = Some kgf -> fitsk (mulk kff kgg kfg kgf) kprod.
Proof.
move=> E1 E2 E3 E4 n xs ys M Ev.
have see i j kij : i \in pids rest -> j \in pids rest -> KA m rest i j = Some kij -> see_k w m i j = Some kij.
  by move=> Hi Hj; rewrite see_k_log // lt; have [-> _] := KA_ext m Er (wf lt) (fun _ => Hi) (fun _ => Hj).
have {}Ev : vk (see_k w) (see_m w) D (mulk kff kgg kfg kgf) (Num xs) (Num ys) M by exists n.
have ax : atom (Num xs) by []. have ay : atom (Num ys) by [].
have [A [B [VA VB /dmap2E [a1 a2 b1 b2 eM]]]] := vk_add ax ay Ev.
have [A1 [A2 [V1 V2 /dmap2E [c1 c2 d1 d2 eA]]]] := vk_mul ax ay VA.
have [A3 [A4 [V3 V4 /dmap2E [e1 e2 f1 f2 eB]]]] := vk_mul ax ay VB.
have [uf [Huf suf Puf]] := prod_pt (or_introl erefl) HF (points_num xs).
have [ug [Hug sug Pug]] := prod_pt (or_intror erefl) HH (points_num xs).
have [vf' [Hvf svf Pvf]] := prod_pt (or_introl erefl) HF (points_num ys).
have [vg [Hvg svg Pvg]] := prod_pt (or_intror erefl) HH (points_num ys).
have cv i j kij x y Mij u v : i \in pids rest -> j \in pids rest -> KA m rest i j = Some kij ->
    vk (see_k w) (see_m w) D kij x y Mij -> is_at D G eps w m i x u -> is_at D G eps w m j y v -> covmat Mij u v.
  move=> Hi Hj Ek V Hu Hv; apply: (covs (model_sound prod_model) (prod_P Hi) (prod_P Hj) Hu Hv).
  by apply/cov_isP; exists kij => //; apply: see.
have [r1 r2 r3] := cv _ _ _ _ _ _ _ _ Hfp Hfp E1 V1 Huf Hvf.
have [_ _ s3] := cv _ _ _ _ _ _ _ _ Hgp Hgp E2 V2 Hug Hvg.
have [_ _ t3] := cv _ _ _ _ _ _ _ _ Hfp Hgp E3 V3 Huf Hvg.
have [_ _ u3] := cv _ _ _ _ _ _ _ _ Hgp Hfp E4 V4 Hug Hvf.
split; [by rewrite -a1 -c1 r1 suf | by rewrite -a2 -c2 r2 svf | move=> i j li lj].
rewrite eM eA eB r3 ?suf ?svf // s3 ?sug ?svg // t3 ?suf ?svg // u3 ?sug ?svf //.
rewrite (aseq_cov (Puf i li) (Pvf j lj)) (aseq_cov (Pug i li) (Pvg j lj)).
by rewrite (aseq_cov (Puf i li) (Pvg j lj)) (aseq_cov (Pug i li) (Pvf j lj)).
Qed.
Lemma mprod_fits a b : MA m rest f = Some a -> MA m rest g = Some b -> fitsm (MMul (MScale (-1) a) b) mprod.
Proof.
move=> E1 E2 n x xs v Hx Ev.
have see i a' : i \in pids rest -> MA m rest i = Some a' -> see_m w m i = Some a'.
  by move=> Hi; rewrite see_m_log // lt (MA_ext m Er (wf lt) (fun _ => Hi)).
have {}Ev : vm (see_k w) (see_m w) D (MMul (MScale (-1) a) b) x v by exists n.
have [a' [b' [VA VB /vmap2E [s1 s2 ev]]]] := vm_mul Ev; have [a1 Va1 ea1] := vm_scale VA.
have [uf [Huf suf Puf]] := prod_pt (or_introl erefl) HF Hx.
have [ug [Hug sug Pug]] := prod_pt (or_intror erefl) HH Hx.
have ea : a1 = map (@Ex R W) uf by apply: (ModelThms.means (model_sound prod_model) (prod_P Hfp) Huf); apply/mean_isP; exists a => //; apply: see.
have eb : b' = map (@Ex R W) ug by apply: (ModelThms.means (model_sound prod_model) (prod_P Hgp) Hug); apply/mean_isP; exists b => //; apply: see.
have sv : size v = size xs by rewrite -s2 eb size_map sug.
apply: (@eq_from_nth _ 0); rewrite ?size_map // => i li.
have li' : (i < size xs)%N by rewrite -sv.
rewrite ev // ea1 ea eb (nth_map [::]) //.
rewrite (nth_map 0) ?size_map ?suf // !(nth_map (rone W)) ?suf ?sug //.
by have [e1 _] := Puf i li'; have [e2 _] := Pug i li'; rewrite /mprod -e1 -e2.
Qed.
Lemma kprod_sym s t : kprod s t = kprod t s.
Proof. by apply: prodk_sym => i j; apply: covC. Qed.
Lemma kprod_psd : nonneg W -> psd_fun kprod.
Proof.
by move=> nn; apply: prodk_psd; [move=> i j; apply: covC | apply: cov_psd].
Qed.
End Product.

Lemma sym_base m pm par o : base (l m) = Some (pm, par, o) -> square_sym (o_noise o).
Proof. by move=> E; have [m' Hin] := good_base E (all_good m); apply: noise_mixed Hm Hin. Qed.
Lemma psd_base m pm par o : psd_noise ops -> base (l m) = Some (pm, par, o) -> psd_matrix (full_noise o).
Proof. by move=> Hn E; have [m' Hin] := good_base E (all_good m); have [H1 H2] := Hn m' o Hin; apply: full_psd. Qed.

Definition reg (N : nat) (mu' : pid -> point R -> R) (ka' : pid -> point R -> point R -> R) : Prop :=
  [/\ regular D w (Pn N) mu' ka', forall p, (mu' p = mu p /\ ka' p = ka p) \/ product_part ops p &
      (forall p, psd_fun (ka p)) -> psd_noise ops -> forall p, psd_fun (ka' p)].
Lemma reg0 : reg 0 mu ka.
Proof.
split=> //; [split | by left].
- by move=> m p d rest q; apply: Pn_needs.
- by move=> m pm par o p; apply: Pn_base.
- by move=> m p mE k lr rest lt E; have [] := good_ext E (all_good m).
- exact: ka_sym.
- by move=> m p mE k rest n xs ys M lt E /(Pn_ind 0 lt E).
- by move=> m p mE k rest n x xs v lt E /(Pn_ind 0 lt E).
- by move=> m pm par o lt E; have [m' Hin] := good_base E (all_good m); apply: noise_mixed Hm Hin.
- exact: D0.
Qed.
Lemma regS N mu' ka' : reg N mu' ka' -> exists mu'' ka'', reg N.+1 mu'' ka''.
Proof.
case=> Rg Hor Hpsd.
have updor mN kN : (mN = mu N /\ kN = ka N) \/ product_part ops N ->
    forall p, (upd mu' N mN p = mu p /\ upd ka' N kN p = ka p) \/ product_part ops p.
  by move=> H p; rewrite /upd; case: eqP => [->|_] //.
case Hex: (has (fun m => hasind N (l m)) (iota 0 nm)); last first.
  have no m mE k rest : (m < nm)%N -> ext (HAdd N (DInd mE k) rest) (l m) -> False.
    move=> lt /ext_hasind Hi; move/negP: Hex; apply; apply/hasP; exists m => //.
    by rewrite mem_iota.
  exists (upd mu' N (mu N)), (upd ka' N (ka N)); split.
  - by apply: regular_step => // m mE k rest lt /(no _ _ _ _ lt).
  - by apply: updor; left.
  - by move=> H1 H2 p; rewrite /upd; case: eqP => [_|_]; [apply: H1 | apply: Hpsd].
have /hasP [m Hmi Hin] := Hex; have lt : (m < nm)%N by move: Hmi; rewrite mem_iota.
have [mE [k [rest E]]] := hasind_ext Hin.
have uniq m' mE' k' rest' : (m' < nm)%N -> ext (HAdd N (DInd mE' k') rest') (l m') -> mE' = mE /\ k' = k.
  move=> lt' E'; have em : m' = m by apply: all_un (ext_hasind E') Hin.
  by subst m'; have [[-> ->] _] := ext_same (wf lt) E' E.
have [[nc hl Hk] _] := good_ext E (all_good m).
case: Hk => [[Hmean Hker]|].
  exists (upd mu' N (mu N)), (upd ka' N (ka N)); split.
  - apply: regular_step => // m' mE' k' rest' lt' /(uniq _ _ _ _ lt') [-> ->]; split.
      by move=> n xs ys M; apply: Hker.
    by move=> n x xs v; apply: Hmean.
  - by apply: updor; left.
  - by move=> H1 H2 p; rewrite /upd; case: eqP => [_|_]; [apply: H1 | apply: Hpsd].
case=> f [g [a [b [kff [kgg [kfg [kgf [Hpr [Ma Mb] [K1 K2] [K3 K4] [eE ek]]]]]]]]].
have Hfp : f \in pids rest by apply: (MA_pids (m := m)); rewrite Ma.
have Hgp : g \in pids rest by apply: (MA_pids (m := m)); rewrite Mb.
pose SF := prod_val Rg lt E Hpr Hfp Hgp (or_introl (erefl f)).
pose SH := prod_val Rg lt E Hpr Hfp Hgp (or_intror (erefl g)).
pose F t := sval (SF t); pose H t := sval (SH t).
have HF t : is_at D (Formal.G Rg) (Formal.eps Rg) w m f (Num [:: t]) [:: F t] := svalP (SF t).
have HH t : is_at D (Formal.G Rg) (Formal.eps Rg) w m g (Num [:: t]) [:: H t] := svalP (SH t).
exists (upd mu' N (mprod F H)), (upd ka' N (kprod F H)); split.
- apply: regular_step => // [s t|m' mE' k' rest' lt' /(uniq _ _ _ _ lt') [-> ->]]; first exact: kprod_sym.
  rewrite ek eE; split; first exact: (kprod_fits lt E Hpr Hfp Hgp HF HH).
  exact: (mprod_fits lt E Hpr Hfp Hgp HF HH).
- apply: updor; right; case: (Hpr) => ord Hord.
  have Er := ext_tail E.
  have sk i j kij : i \in pids rest -> j \in pids rest -> KA m rest i j = Some kij -> see_k w m i j = Some kij.
    by move=> Hi Hj; rewrite see_k_log // lt; have [-> _] := KA_ext m Er (wf lt) (fun _ => Hi) (fun _ => Hj).
  have sm i a' : i \in pids rest -> MA m rest i = Some a' -> see_m w m i = Some a'.
    by move=> Hi; rewrite see_m_log // lt (MA_ext m Er (wf lt) (fun _ => Hi)).
  exists m, f, g, ord, a, b, kff, kgg, kfg, kgf; split=> //; try by split; [apply: sk | apply: sk].
    by split=> //; move: (ext_made E); rewrite ek eE.
  by split; apply: sm.
- move=> H1 H2 p; rewrite /upd; case: eqP => [_|_]; last exact: Hpsd.
  apply: kprod_psd; apply: regular_psd; first exact: Hpsd.
  by move=> m' pm par o _; apply: psd_base.
Qed.
Lemma reg_all N : exists mu' ka', reg N mu' ka'.
Proof. by elim: N => [|N [mu' [ka' /regS]]] //; exists mu, ka; exact: reg0. Qed.

Lemma regular_all : exists mu' ka', [/\ regular D w everywhere mu' ka',
  forall p, (mu' p = mu p /\ ka' p = ka p) \/ product_part ops p &
  (forall p, psd_fun (ka p)) -> psd_noise ops -> forall p, psd_fun (ka' p)].
Proof.
have [mu' [ka' [Rg Hor Hpsd]]] := reg_all (w_np w); exists mu', ka'; split=> //.
have all m q : Pn (w_np w) m q by apply: hlt_below; apply: all_lt.
case: Rg => h1 h2 h3 h4 h5 h6 h7 h8; split=> //.
- by move=> m p mE k lr rest lt E _; apply: h3 lt E (all _ _).
- by move=> m p mE k rest n xs ys M lt E _; apply: h5 lt E (all _ _).
- by move=> m p mE k rest n x xs v lt E _; apply: h6 lt E (all _ _).
Qed.
Lemma crosslast_all : crosslast w everywhere.
Proof.
move=> m p mE k rest q lt E _ _; apply: nocross_free.
by have [[]] := good_ext E (all_good m).
Qed.
End Main.
