(* Random variables for all models: the construction. *)
From Coq Require Import List.
From mathcomp Require Import all_ssreflect all_algebra.
From mathcomp Require Import zify ring.
From Verif Require Import TotalLogs Graph Machine Refine Worlds Eval GraphSpec GraphProofs GraphOps RV RVProofs Sound Typing ModelSpec Formal ModelFacts Plain PointFacts ModelThms MulFacts Total Schur ProdSpec ProdLogs Prod SymSpec SymEval ExactSpec Shape Exact ExactLogs ExactRV.
Set Implicit Arguments. Unset Strict Implicit. Unset Printing Implicit Defensive.
Import GRing.Theory Num.Theory.
Local Open Scope ring_scope.

Section Covered.
Variable R : fieldType.
Variables (dif : bool) (ops : seq (op R)).
Implicit Types (h : hist R).
Notation covered := (covered dif ops). Notation part_of := (part_of ops).
(* [covered], and every independent process that process [q] depends on is below [N]. *)
Fixpoint cvb (N : nat) (m : mid) h (q : pid) : Prop :=
  match h with
  | HRoot => True
  | HPost pm par o => q \in pids par -> cvb N pm par q /\ forall a, a \in o_pids o -> cvb N pm par a
  | HAdd r d rest =>
    if q == r then
      match d with
      | DInd _ _ => (r < N)%N /\ forall f g, part_of m r f g ->
          [/\ single rest f, single rest g, width dif rest f (Num [:: [::]]) = Some 1%N,
              width dif rest g (Num [:: [::]]) = Some 1%N & covered m rest f /\ covered m rest g]
      | DUser _ _ _ => False
      | _ => forall a, a \in needs d -> cvb N m rest a
      end
    else cvb N m rest q
  end.
Lemma cvb_out N m h q : q \notin pids h -> cvb N m h q.
Proof.
elim: h m q => [|pm par IH o|r d rest IH] m q //=; first by move=> /negP.
by rewrite inE negb_or => /andP [/negbTE -> /IH].
Qed.
Lemma cvb_ext N m h h' q : ext h h' -> wfh h' -> q \in pids h -> cvb N m h' q <-> cvb N m h q.
Proof.
elim=> // r d h2 E IH /= /and3P [rn _ Wf] Hq.
case: eqP => [e|_]; last exact: IH.
by move: rn; rewrite -e (ext_pids E Hq).
Qed.
Lemma covered_ext m h h' q : ext h h' -> wfh h' -> q \in pids h -> covered m h' q <-> covered m h q.
Proof.
elim=> // r d h2 E IH /= /and3P [rn _ Wf] Hq.
case: eqP => [e|_]; last exact: IH.
by move: rn; rewrite -e (ext_pids E Hq).
Qed.
Lemma hlt_cvb N m h q : hlt N h -> covered m h q -> cvb N m h q.
Proof.
elim: h m q => [|pm par IH o|r d rest IH] m q //=.
  by move=> H Hq Hi; have [H1 H2] := Hq Hi; split=> [|a /H2 Ha]; apply: IH.
case=> lt H; case: eqP => _; last exact: IH.
by case: d => //= *; auto.
Qed.
Lemma cvb_covered N m h q : cvb N m h q -> covered m h q.
Proof.
elim: h m q => [|pm par IH o|r d rest IH] m q //=.
  by move=> Hq Hi; have [H1 H2] := Hq Hi; split=> [|a /H2 Ha]; apply: IH.
case: eqP => _; last exact: IH.
by case: d => //= [mu k []|*|*|*|*|*|*|*|*|*] //; auto.
Qed.
End Covered.

Section ProductKernel.
Variables (R : realFieldType) (W : space R) (F H : point R -> rv W).
Let Z (i : bool * point R) : rv W := if i.1 then H i.2 else F i.2.
Definition ekprod (s t : point R) : R := prodk (fun i j => cov (Z i) (Z j)) s t.
Definition emprod (s : point R) : R := (-1 * Ex (F s)) * Ex (H s).
Lemma ekprod_sym s t : ekprod s t = ekprod t s.
Proof. by apply: prodk_sym => i j; apply: covC. Qed.
Lemma ekprod_psd : nonneg W -> psd_fun ekprod.
Proof. by move=> nn; apply: prodk_psd; [move=> i j; apply: covC | apply: cov_psd]. Qed.
Lemma aseq_cov' (a a' b b' : rv W) : aseq a a' -> aseq b b' -> cov a b = cov a' b'.
Proof. by move=> [_ ->] [_ Hb]; rewrite covC Hb covC. Qed.
End ProductKernel.

Section Main.
Variable R : realFieldType.
Variable D : nat -> (point R -> R) -> point R -> R.
Variables (mu : pid -> point R -> R) (ka : pid -> point R -> point R -> R).
Variable dif : bool.
Variable cs : nat -> seq (R * (point R -> point R)).
Hypothesis Hcs : dif -> forall d f x, D d f x = \sum_(c <- cs d) c.1 * f (c.2 x).
Hypothesis D0 : forall d t, D d (fun=> 0) t = 0.
Hypothesis ka_sym : forall p s t, ka p s t = ka p t s.
Variable ops : seq (op R).
Let w := run_ops ops.
Hypothesis Hm : general D mu ka world0 ops.
Hypothesis HU : forall k, given_kernel ops k -> shaped_kernel D w k.
Let l := w_log w.
Let nm := w_nm w.
Let Pr f g : Prop := exists ord, In (OMul f g ord) ops.
Let Ns (o : obs R) : Prop := exists m, In (OCond m o) ops.
Let I : winv w := winv_run ops.
Notation cvb := (cvb dif ops). Notation covered := (covered dif ops). Notation part_of := (part_of ops).
Notation egood := (egood D mu ka Pr Ns).

Lemma noise_general os w0 m o : general D mu ka w0 os -> In (OCond m o) os -> square_sym (o_noise o).
Proof. by elim: os w0 => //= a os IH w0 [Ho Hos] [e|Hin]; [rewrite e in Ho | apply: IH Hos Hin]. Qed.
Let EG : elgood D mu ka Pr Ns (abs w).
Proof. by apply: elgood_run => // [p q ord H|m o H]; [exists ord | exists m]. Qed.
Lemma eall_good m : egood m (l m). Proof. exact: (eg_good EG). Qed.
Lemma eall_lt m : hlt (w_np w) (l m). Proof. exact: (eg_lt EG). Qed.
Lemma eall_un m m' p : hasind p (l m) -> hasind p (l m') -> m = m'. Proof. exact: (eg_un EG). Qed.
Lemma egood_ext m h p d rest : ext (HAdd p d rest) h -> egood m h -> egood m (HAdd p d rest).
Proof. by elim=> // q e h' _ IH [_]. Qed.
Lemma egood_base m h pm par o : base h = Some (pm, par, o) -> egood m h -> Ns o.
Proof. by elim: h => //= [pm' par' _ o' [_ _ <-] []|q d h IH /IH H [_]]. Qed.
Lemma eall_crosses m : crosses (l m).
Proof.
suff H h m' : egood m' h -> crosses h by exact: (H _ _ (eall_good m)).
elim: h m' => [|pm par IH o|p d rest IH] m' //=; first by case=> _; apply: IH.
by case=> Hd /IH H; split=> //; case: d Hd.
Qed.

Lemma ewf m : (m < nm)%N -> wfh (l m). Proof. exact: (l_wf (v_log I.1)). Qed.
Lemma eneeds_pids m p d rest q : (m < nm)%N -> ext (HAdd p d rest) (l m) -> q \in needs d -> q \in pids rest.
Proof.
move=> lt E Hq; have [Hd _] := egood_ext E (eall_good m).
have /and3P [_ /allP da _] := wfh_ext E (ewf lt).
case: d E Hd da Hq => [mE k|mE k lr|q1|q1 c|q1 f|q1 q2|q1 c|q1 f|q1 t t0|q1 dd|ps] //= _ Hd da; try exact: da.
case: f Hd => [g|//|m' q2] Hd; try exact: da.
by rewrite inE => /orP [/eqP ->|]; [apply: da; rewrite mem_head | rewrite inE => /eqP ->].
Qed.

Definition Pc (N : nat) (m : mid) (q : pid) : Prop := cvb N m (l m) q.
Lemma Pc_ext N m h q : (m < nm)%N -> ext h (l m) -> q \in pids h -> Pc N m q <-> cvb N m h q.
Proof. by move=> lt E; apply: cvb_ext E (ewf lt). Qed.
Lemma Pc_needs N m p d rest q : (m < nm)%N -> ext (HAdd p d rest) (l m) -> Pc N m p -> q \in needs d -> Pc N m q.
Proof.
move=> lt E Hp Hq; have Hq' := eneeds_pids lt E Hq.
have /(Pc_ext N lt E) H : p \in pids (HAdd p d rest) by rewrite inE eqxx.
apply/(Pc_ext N lt (ext_tail E) Hq'); move/H: Hp; rewrite /= eqxx.
by case: (d) Hq => // *; auto.
Qed.
Lemma Pc_base N m pm par o p : (m < nm)%N -> base (l m) = Some (pm, par, o) -> Pc N m p -> p \in pids par ->
  Pc N pm p /\ forall a, a \in o_pids o -> Pc N pm a.
Proof.
move=> lt E Hp Hin; have [ltp Ep Ho] := l_base (v_log I.1) lt E; have lt' := ltn_trans ltp lt.
move/(Pc_ext N lt (base_ext E) Hin): Hp => /(_ Hin) [H1 H2]; split; first by apply/(Pc_ext N lt' Ep).
move=> a Ha; case: (boolP (a \in pids (l pm))) => [/(Ho _ Ha) Hi|]; last exact: cvb_out.
by apply/(Pc_ext N lt' Ep Hi); apply: H2.
Qed.
Lemma Pc_user N m p mu' k lr rest : (m < nm)%N -> ext (HAdd p (DUser mu' k lr) rest) (l m) -> ~ Pc N m p.
Proof.
move=> lt E; have Hp : p \in pids (HAdd p (DUser mu' k lr) rest) by rewrite inE eqxx.
by move/(Pc_ext N lt E Hp); rewrite /= eqxx.
Qed.
Definition leaf m p rest : Prop := forall f g, part_of m p f g ->
          [/\ single rest f, single rest g, width dif rest f (Num [:: [::]]) = Some 1%N,
              width dif rest g (Num [:: [::]]) = Some 1%N & covered m rest f /\ covered m rest g].
Lemma Pc_ind N m p mu' k rest : (m < nm)%N -> ext (HAdd p (DInd mu' k) rest) (l m) -> Pc N m p <-> (p < N)%N /\ leaf m p rest.
Proof.
move=> lt E; have Hp : p \in pids (HAdd p (DInd mu' k) rest) by rewrite inE eqxx.
by rewrite (Pc_ext N lt E Hp) /= eqxx.
Qed.

(* What is required of an independent process. *)
Notation fitsk := (Prod.fitsk D ops). Notation fitsm := (Prod.fitsm D ops).
Lemma eregular_step N mu' ka' mN kN : regular D w (Pc N) mu' ka' -> (forall s t, kN s t = kN t s) ->
  (forall m mE k rest, (m < nm)%N -> ext (HAdd N (DInd mE k) rest) (l m) -> leaf m N rest -> fitsk k kN /\ fitsm mE mN) ->
  regular D w (Pc N.+1) (upd mu' N mN) (upd ka' N kN).
Proof.
move=> Rg sy H; split.
- by move=> m p d rest q; apply: Pc_needs.
- by move=> m pm par o p; apply: Pc_base.
- by move=> m p mE k lr rest; apply: Pc_user.
- by move=> p s t; rewrite /upd; case: eqP => _; [apply: sy | apply: (rg_sym Rg)].
- move=> m p mE k rest n xs ys M lt E /(Pc_ind N.+1 lt E) [lp Lf] Ev; rewrite /upd; case: eqP => [e|/eqP ne].
    by subst p; have [Fk _] := H _ _ _ _ lt E Lf; apply: Fk Ev.
  apply: (rg_cov Rg lt E _ Ev); apply/(Pc_ind N lt E); split=> //.
  by move: lp; rewrite ltnS leq_eqVlt (negbTE ne).
- move=> m p mE k rest n x xs v lt E /(Pc_ind N.+1 lt E) [lp Lf] Ex Ev; rewrite /upd; case: eqP => [e|/eqP ne].
    by subst p; have [_ Fm] := H _ _ _ _ lt E Lf; apply: Fm Ex Ev.
  apply: (rg_mean Rg lt E _ Ex Ev); apply/(Pc_ind N lt E); split=> //.
  by move: lp; rewrite ltnS leq_eqVlt (negbTE ne).
- by move=> m pm par o lt E; apply: (rg_noise Rg lt E).
- exact: D0.
Qed.

Lemma width_pt (h : hist R) q t : width dif h q (Num [:: [::]]) = Some 1%N -> width dif h q (Num [:: t]) = Some 1%N.
Proof. by move=> H; rewrite -H; apply: width_num. Qed.

Section Product.
Variables (N : nat) (mu' : pid -> point R -> R) (ka' : pid -> point R -> point R -> R).
Hypothesis Rg : regular D w (Pc N) mu' ka'.
Let W := Formal.W Rg.
Let G := Formal.G Rg.
Let eps := Formal.eps Rg.
Let Va : valid D G eps w (Pc N) := formal_valid I Rg.
Variables (m : mid) (rest : hist R) (f g : pid) (mE : mexp R) (k : kexp R).
Hypotheses (lt : (m < nm)%N) (E : ext (HAdd N (DInd mE k) rest) (l m)).
Hypotheses (Hfp : f \in pids rest) (Hgp : g \in pids rest).
Let Er : ext rest (l m) := ext_tail E.
Lemma eprod_val q : q \in pids rest -> width dif rest q (Num [:: [::]]) = Some 1%N ->
  forall t, {v : rv W | is_at D G eps w m q (Num [:: t]) [:: v]}.
Proof.
move=> Hq Hw t; have Hw' : width dif (l m) q (Num [:: t]) = Some 1%N.
  by rewrite (width_ext' dif _ Er (ewf lt) Hq); apply: width_pt.
have [u Hu su] := at_exists G eps (@der_ok _ _ _ _ Hcs W) (winvid_run ops m) Hw'.
by case: u su Hu => // v [|//] _ Hu; exists v; split=> //; apply: lift_num.
Qed.
Variables (F H : point R -> rv W).
Hypothesis HF : forall t, is_at D G eps w m f (Num [:: t]) [:: F t].
Hypothesis HH : forall t, is_at D G eps w m g (Num [:: t]) [:: H t].
Hypothesis Hpart : part_of m N f g.
Hypothesis Lf : leaf m N rest.
Lemma eprod_P q : q = f \/ q = g -> Pc N m q.
Proof.
move=> Hq; have Hqp : q \in pids rest by case: Hq => ->.
apply/(Pc_ext N lt Er Hqp); apply: hlt_cvb; first by have [[]] := egood_ext E (eall_good m).
by have [_ _ _ _ [H1 H2]] := Lf Hpart; case: Hq => ->.
Qed.
Lemma eprod_single q : q = f \/ q = g -> single rest q.
Proof. by have [H1 H2 _ _ _] := Lf Hpart; case=> ->. Qed.
Lemma eprod_width q : q = f \/ q = g -> forall ys, width dif (l m) q (Num ys) = Some (size ys).
Proof.
move=> Hq ys; have Hqp : q \in pids rest by case: Hq => ->.
rewrite (width_ext' dif _ Er (ewf lt) Hqp); apply: width_single; first exact: eprod_single.
by have [_ _ H1 H2 _] := Lf Hpart; case: Hq => ->.
Qed.
Lemma eprod_pt q x xs (Hq : q = f \/ q = g) (F0 : point R -> rv W) :
  (forall t, is_at D G eps w m q (Num [:: t]) [:: F0 t]) -> points x = Some xs ->
  exists u, [/\ is_at D G eps w m q x u, size u = size xs & forall i, (i < size xs)%N -> aseq (vget u i) (F0 (nth [::] xs i))].
Proof.
move=> HF0 Hx; have Hqp : q \in pids rest by case: Hq => ->.
have [u Hu su] := denotes_exists G eps (@der_ok _ _ _ _ Hcs W) (winvid_run ops m) (widths_all (eprod_width Hq) Hx).
exists u; split=> // i li; have [_ HFi] := HF0 (nth [::] xs i).
have nc := eprod_single Hq.
move: HFi Hu; rewrite (full D G eps I lt Er Hqp) => HFi Hu.
exact: (den_point (j := 0%N) nc Hu HFi Hx (points_num [:: nth [::] xs i]) li).
Qed.

Lemma ekprod_fits kff kgg kfg kgf : KA m rest f f = Some kff -> KA m rest g g = Some kgg ->
  KA m rest f g = Some kfg -> KA m rest g f = Some kgf -> fitsk (mulk kff kgg kfg kgf) (ekprod F H).
Proof.
move=> E1 E2 E3 E4 n xs ys M Ev.
have see i j kij : i \in pids rest -> j \in pids rest -> KA m rest i j = Some kij -> see_k w m i j = Some kij.
  by move=> Hi Hj; rewrite see_k_log // lt; have [-> _] := KA_ext m Er (ewf lt) (fun _ => Hi) (fun _ => Hj).
have {}Ev : vk (see_k w) (see_m w) D (mulk kff kgg kfg kgf) (Num xs) (Num ys) M by exists n.
have ax : atom (Num xs) by []. have ay : atom (Num ys) by [].
have [A [B [VA VB /dmap2E [a1 a2 b1 b2 eM]]]] := vk_add ax ay Ev.
have [A1 [A2 [V1 V2 /dmap2E [c1 c2 d1 d2 eA]]]] := vk_mul ax ay VA.
have [A3 [A4 [V3 V4 /dmap2E [e1 e2 f1 f2 eB]]]] := vk_mul ax ay VB.
have lf : f = f \/ f = g by left. have rg : g = f \/ g = g by right.
have [uf [Huf suf Puf]] := eprod_pt lf HF (points_num xs).
have [ug [Hug sug Pug]] := eprod_pt rg HH (points_num xs).
have [vf' [Hvf svf Pvf]] := eprod_pt lf HF (points_num ys).
have [vg [Hvg svg Pvg]] := eprod_pt rg HH (points_num ys).
have cv i j kij Mij u v : i = f \/ i = g -> j = f \/ j = g -> KA m rest i j = Some kij ->
    vk (see_k w) (see_m w) D kij (Num xs) (Num ys) Mij -> is_at D G eps w m i (Num xs) u -> is_at D G eps w m j (Num ys) v ->
    size u = size xs -> size v = size ys -> covmat Mij u v.
  move=> Hi Hj Ek [n' V] [_ Hu] [_ Hv] su sv.
  have Hip : i \in pids rest by case: Hi => ->. have Hjp : j \in pids rest by case: Hj => ->.
  have Ev' : kernel_at D n' w m i j (Num xs) (Num ys) = Some Mij by rewrite /kernel_at (see _ _ _ Hip Hjp Ek).
  have [_ _ C] := exact_k I (winvid_run ops) Va eall_crosses (shapes HU) lt (eprod_P Hi) (eprod_P Hj) Ev' Hu Hv.
  have [z1 z2] := log_ss I Rg lt Er (eprod_P Hi) (eprod_P Hj) (eprod_single Hi) (eprod_single Hj) Ek V.
  by apply: C; rewrite ?z1 ?z2.
have [r1 r2 r3] := cv _ _ _ _ _ _ lf lf E1 V1 Huf Hvf suf svf.
have [_ _ s3] := cv _ _ _ _ _ _ rg rg E2 V2 Hug Hvg sug svg.
have [_ _ t3] := cv _ _ _ _ _ _ lf rg E3 V3 Huf Hvg suf svg.
have [_ _ u3] := cv _ _ _ _ _ _ rg lf E4 V4 Hug Hvf sug svf.
split; [by rewrite -a1 -c1 r1 suf | by rewrite -a2 -c2 r2 svf | move=> i j li lj].
rewrite eM eA eB r3 ?suf ?svf // s3 ?sug ?svg // t3 ?suf ?svg // u3 ?sug ?svf //.
rewrite (aseq_cov' (Puf i li) (Pvf j lj)) (aseq_cov' (Pug i li) (Pvg j lj)).
by rewrite (aseq_cov' (Puf i li) (Pvg j lj)) (aseq_cov' (Pug i li) (Pvf j lj)).
Qed.
Lemma emprod_fits a b : MA m rest f = Some a -> MA m rest g = Some b -> fitsm (MMul (MScale (-1) a) b) (emprod F H).
Proof.
move=> E1 E2 n x xs v Hx Ev.
have see i a' : i \in pids rest -> MA m rest i = Some a' -> see_m w m i = Some a'.
  by move=> Hi; rewrite see_m_log // lt (MA_ext m Er (ewf lt) (fun _ => Hi)).
have {}Ev : vm (see_k w) (see_m w) D (MMul (MScale (-1) a) b) x v by exists n.
have [a' [b' [VA [n2 VB] /vmap2E [s1 s2 ev]]]] := vm_mul Ev; have [a1 [n1 Va1] ea1] := vm_scale VA.
have lf : f = f \/ f = g by left. have rg : g = f \/ g = g by right.
have [uf [Huf suf Puf]] := eprod_pt lf HF Hx.
have [ug [Hug sug Pug]] := eprod_pt rg HH Hx.
have ex := exact_m I (winvid_run ops) Va eall_crosses (shapes HU) lt.
have ea : a1 = map (@Ex R W) uf.
  by apply: (ex n1 f x a1 uf (eprod_P lf) _ Huf.2); rewrite /mean_at (see f a).
have eb : b' = map (@Ex R W) ug.
  by apply: (ex n2 g x b' ug (eprod_P rg) _ Hug.2); rewrite /mean_at (see g b).
have sv : size v = size xs by rewrite -s2 eb size_map sug.
apply: (@eq_from_nth _ 0); rewrite ?size_map // => i li.
have li' : (i < size xs)%N by rewrite -sv.
rewrite ev // ea1 ea eb (nth_map [::]) //.
rewrite (nth_map 0) ?size_map ?suf // !(nth_map (rone W)) ?suf ?sug //.
by have [e1 _] := Puf i li'; have [e2 _] := Pug i li'; rewrite /emprod -e1 -e2.
Qed.
End Product.

Lemma esym_base m pm par o : base (l m) = Some (pm, par, o) -> square_sym (o_noise o).
Proof. by move=> E; have [m' Hin] := egood_base E (eall_good m); apply: noise_general Hm Hin. Qed.
Lemma epsd_base m pm par o : psd_noise ops -> base (l m) = Some (pm, par, o) -> psd_matrix (full_noise o).
Proof. by move=> Hn E; have [m' Hin] := egood_base E (eall_good m); have [H1 H2] := Hn m' o Hin; apply: full_psd. Qed.

Definition ereg (N : nat) (mu' : pid -> point R -> R) (ka' : pid -> point R -> point R -> R) : Prop :=
  [/\ regular D w (Pc N) mu' ka', forall p, (mu' p = mu p /\ ka' p = ka p) \/ product_part ops p &
      (forall p, psd_fun (ka p)) -> psd_noise ops -> forall p, psd_fun (ka' p)].
Lemma ereg0 : ereg 0 mu ka.
Proof.
split=> //; [split | by left].
- by move=> m p d rest q; apply: Pc_needs.
- by move=> m pm par o p; apply: Pc_base.
- by move=> m p mE k lr rest; apply: Pc_user.
- exact: ka_sym.
- by move=> m p mE k rest n xs ys M lt E /(Pc_ind 0 lt E) [].
- by move=> m p mE k rest n x xs v lt E /(Pc_ind 0 lt E) [].
- by move=> m pm par o lt E; have [m' Hin] := egood_base E (eall_good m); apply: noise_general Hm Hin.
- exact: D0.
Qed.
Lemma eregS N mu' ka' : ereg N mu' ka' -> exists mu'' ka'', ereg N.+1 mu'' ka''.
Proof.
case=> Rg Hor Hpsd.
have updor mN kN : (mN = mu N /\ kN = ka N) \/ product_part ops N ->
    forall p, (upd mu' N mN p = mu p /\ upd ka' N kN p = ka p) \/ product_part ops p.
  by move=> H p; rewrite /upd; case: eqP => [->|_] //.
have dflt : (forall m mE k rest, (m < nm)%N -> ext (HAdd N (DInd mE k) rest) (l m) -> leaf m N rest ->
      fitsk k (ka N) /\ fitsm mE (mu N)) -> exists mu'' ka'', ereg N.+1 mu'' ka''.
  move=> H; exists (upd mu' N (mu N)), (upd ka' N (ka N)); split.
  - exact: eregular_step.
  - by apply: updor; left.
  - by move=> H1 H2 p; rewrite /upd; case: eqP => [_|_]; [apply: H1 | apply: Hpsd].
case Hex: (has (fun m => hasind N (l m)) (iota 0 nm)); last first.
  apply: dflt => m mE k rest lt /ext_hasind Hi; move/negP: Hex; case; apply/hasP; exists m => //.
  by rewrite mem_iota.
have /hasP [m Hmi Hin] := Hex; have lt : (m < nm)%N by move: Hmi; rewrite mem_iota.
have [mE [k [rest E]]] := hasind_ext Hin.
have uniq m' mE' k' rest' : (m' < nm)%N -> ext (HAdd N (DInd mE' k') rest') (l m') ->
    [/\ m' = m, rest' = rest, mE' = mE & k' = k].
  move=> lt' E'; have em : m' = m by apply: eall_un (ext_hasind E') Hin.
  by subst m'; have [[-> ->] ->] := ext_same (ewf lt) E' E.
have [[hl Hk] _] := egood_ext E (eall_good m).
case: Hk => [[Hmean Hker]|].
  apply: dflt => m' mE' k' rest' lt' /(uniq _ _ _ _ lt') [_ _ -> ->] _; split.
    by move=> n xs ys M; apply: Hker.
  by move=> n x xs v; apply: Hmean.
case=> f [g [a [b [kff [kgg [kfg [kgf [Hpr [Ma Mb] [K1 K2] [K3 K4] [eE ek]]]]]]]]].
have Hfp : f \in pids rest by apply: (MA_pids (m := m)); rewrite Ma.
have Hgp : g \in pids rest by apply: (MA_pids (m := m)); rewrite Mb.
have Er := ext_tail E.
have Hpart : part_of m N f g.
  case: (Hpr) => ord Hord.
  have sk i j kij : i \in pids rest -> j \in pids rest -> KA m rest i j = Some kij -> see_k w m i j = Some kij.
    by move=> Hi Hj; rewrite see_k_log // lt; have [-> _] := KA_ext m Er (ewf lt) (fun _ => Hi) (fun _ => Hj).
  have sm i a' : i \in pids rest -> MA m rest i = Some a' -> see_m w m i = Some a'.
    by move=> Hi; rewrite see_m_log // lt (MA_ext m Er (ewf lt) (fun _ => Hi)).
  exists ord, a, b, kff, kgg, kfg, kgf; split=> //; try by split; [apply: sk | apply: sk].
    by split=> //; move: (ext_made E); rewrite ek eE.
  by split; apply: sm.
case Hw: ((width dif rest f (Num [:: [::]]) == Some 1%N) && (width dif rest g (Num [:: [::]]) == Some 1%N)); last first.
  apply: dflt => m' mE' k' rest' lt' /(uniq _ _ _ _ lt') [-> -> _ _] Lf.
  by have [_ _ h1 h2 _] := Lf _ _ Hpart; move: Hw; rewrite h1 h2 eqxx.
case/andP: Hw => /eqP wf /eqP wg.
pose SF := eprod_val Rg lt E Hfp wf.
pose SH := eprod_val Rg lt E Hgp wg.
pose F t := sval (SF t); pose H t := sval (SH t).
have HF t : is_at D (Formal.G Rg) (Formal.eps Rg) w m f (Num [:: t]) [:: F t] := svalP (SF t).
have HH t : is_at D (Formal.G Rg) (Formal.eps Rg) w m g (Num [:: t]) [:: H t] := svalP (SH t).
exists (upd mu' N (emprod F H)), (upd ka' N (ekprod F H)); split.
- apply: eregular_step => // [s t|m' mE' k' rest' lt' /(uniq _ _ _ _ lt') [-> -> -> ->] Lf]; first exact: ekprod_sym.
  rewrite ek eE; split; first exact: (ekprod_fits lt E Hfp Hgp HF HH Hpart Lf).
  exact: (emprod_fits lt E Hfp Hgp HF HH Hpart Lf).
- apply: updor; right; exists m, f, g; exact: Hpart.
- move=> H1 H2 p; rewrite /upd; case: eqP => [_|_]; last exact: Hpsd.
  apply: ekprod_psd; apply: regular_psd; first exact: Hpsd.
  by move=> m' pm par o _; apply: epsd_base.
Qed.
Lemma ereg_all N : exists mu' ka', ereg N mu' ka'.
Proof. by elim: N => [|N [mu' [ka' /eregS]]] //; exists mu, ka; exact: ereg0. Qed.

Definition cvd (m : mid) (q : pid) : Prop := covered m (l m) q.
Lemma eregular_all : exists mu' ka', [/\ regular D w cvd mu' ka',
  forall p, (mu' p = mu p /\ ka' p = ka p) \/ product_part ops p &
  (forall p, psd_fun (ka p)) -> psd_noise ops -> forall p, psd_fun (ka' p)].
Proof.
have [mu' [ka' [Rg Hor Hpsd]]] := ereg_all (w_np w); exists mu', ka'; split=> //.
have to m q : cvd m q -> Pc (w_np w) m q by move=> H; apply: hlt_cvb => //; apply: eall_lt.
have from m q : Pc (w_np w) m q -> cvd m q by apply: cvb_covered.
case: Rg => h1 h2 h3 h4 h5 h6 h7 h8; split=> //.
- by move=> m p d rest q lt E /to H Hq; apply: from; apply: h1 lt E H Hq.
- by move=> m pm par o p lt E /to H Hp; have [a b] := h2 _ _ _ _ _ lt E H Hp; split=> [|c /b]; apply: from.
- by move=> m p mE k lr rest lt E /to; apply: h3 lt E.
- by move=> m p mE k rest n xs ys M lt E /to; apply: h5 lt E.
- by move=> m p mE k rest n x xs v lt E /to; apply: h6 lt E.
Qed.
End Main.
