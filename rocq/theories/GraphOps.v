(* What each operation does to the logs, and consequences for scope and rules. *)
From mathcomp Require Import all_ssreflect all_algebra.
From mathcomp Require Import zify.
From Verif Require Lazy.
From Verif Require Import Graph Machine Refine Worlds Eval GraphSpec GraphProofs.
Set Implicit Arguments. Unset Strict Implicit. Unset Printing Implicit Defensive.
Import GRing.Theory.

Section GraphOps.
Variable R : fieldType.
Notation kexp := (kexp R). Notation mexp := (mexp R). Notation hist := (hist R).
Notation pdef := (pdef R). Notation world := (world R). Notation heap := (heap R).
Notation op := (op R). Notation aworld := (aworld R).
Implicit Types (w : world) (s : aworld) (h : hist) (o : op) (d : pdef) (ops : seq op).

Lemma ldefine_ok s m p d s1 : ldefine m p d s = (s1, ROk tt) ->
  s1 = added s m p d /\
  exists mu k, pint (sk s) (sm s) (mean_of m d) = Some mu /\
               pint (sk s) (sm s) (own_of m d) = Some k.
Proof. by case: (ldefineP s m p d) => // mu k Em Ek [<-]; split=> //; exists mu, k. Qed.

Lemma lbind_ok A B (f : lact R A) (g : A -> lact R B) s s2 v :
  lbind f g s = (s2, ROk v) -> exists a s1, f s = (s1, ROk a) /\ g a s1 = (s2, ROk v).
Proof.
by rewrite /lbind; case E: (f s) => [s1 [a| |]] // H; exists a, s1.
Qed.

Lemma out_unit (r : out unit) v : r = ROk v -> r = ROk tt. Proof. by case: v. Qed.

Record adds (res : pid) (ms : seq mid) (f : mid -> hist -> hist -> Prop) s s1 : Prop := Adds {
  ad_nm : a_nm s1 = a_nm s;
  ad_np : a_np s <= a_np s1;
  ad_in : forall m, m \in ms -> f m (a_log s m) (a_log s1 m);
  ad_out : forall m, m \notin ms -> a_log s1 m = a_log s m;
  ad_res : a_gm s1 res = a_gm s res ++ ms;
  ad_gm : forall p, p < a_np s -> p != res -> a_gm s1 p = a_gm s p }.

Lemma liter_adds res f (g : mid -> lact R unit) ms s s1 :
  (forall m s s1, g m s = (s1, ROk tt) -> res < a_np s -> adds res [:: m] f s s1) ->
  res < a_np s ->
  uniq ms -> liter g ms s = (s1, ROk tt) -> adds res ms f s s1.
Proof.
move=> H; elim: ms s => [|m ms IH] s lt /=.
  by move=> _ [<-]; split=> //; rewrite cats0.
case/andP=> mn un E; have [[] [s2 [E1 E2]]] := lbind_ok E.
have [a1 a2 a3 a4 a5 a6] := H _ _ _ E1 lt.
have [b1 b2 b3 b4 b5 b6] := IH s2 (leq_trans lt a2) un E2.
split; rewrite ?b1 //; first exact: leq_trans b2.
- move=> m'; rewrite inE => /orP [/eqP ->|mm]; first by rewrite b4 //; apply: a3; rewrite inE.
  by have := b3 m' mm; rewrite a4 // inE; apply: contraNneq mn => <-.
- by move=> m'; rewrite inE negb_or => /andP [ne mm]; rewrite b4 // a4 // inE.
- by rewrite b5 a5 -catA.
- by move=> p lp pr; rewrite b6 ?a6 //; apply: leq_trans a2.
Qed.

Definition added1 (res : pid) (d : pdef) : mid -> hist -> hist -> Prop :=
  fun _ h h' => h' = HAdd res d h.

Lemma define_adds m res d s s1 : ldefine m res d s = (s1, ROk tt) ->
  adds res [:: m] (added1 res d) s s1 /\ a_np s1 = a_np s.
Proof.
case/ldefine_ok=> -> _; do 2! split=> //=.
- by move=> m'; rewrite inE => /eqP ->; rewrite /log_set eqxx.
- by move=> m'; rewrite inE /log_set => /negbTE ->.
- by rewrite /gm_add eqxx cats1.
- by move=> p _ /negbTE ne; rewrite /gm_add ne.
Qed.

(* Products, measure.py:253-269. *)
Definition mul3 (m : mid) (p q t : pid) h : hist :=
  HAdd t.+2 (DSum t t.+1)
    (HAdd t.+1 (DFun p (FMean m q)) (HAdd t (DFun q (FMean m p)) h)).
Definition mulk (kpp kqq kpq kqp : kexp) : kexp := KAdd (KMul kpp kqq) (KMul kpq kqp).
Definition addedmul (res p q : pid) : mid -> hist -> hist -> Prop := fun m h h' =>
  exists t a b kpp kqq kpq kqp,
    let h3 := mul3 m p q t h in
    [/\ MA m h3 p = Some a /\ MA m h3 q = Some b,
        KA m h3 p p = Some kpp /\ KA m h3 q q = Some kqq,
        KA m h3 p q = Some kpq /\ KA m h3 q p = Some kqp &
        h' = HAdd res (DSum t.+2 t.+3)
               (HAdd t.+3 (DInd (MMul (MScale (-1)%R a) b) (mulk kpp kqq kpq kqp)) h3)] /\
    (res < t)%N.

Lemma mul_adds m res p q s s1 : ldefine_mul m res p q s = (s1, ROk tt) -> res < a_np s ->
  adds res [:: m] (addedmul res p q) s s1.
Proof.
move=> E lt; move: E; rewrite /ldefine_mul.
have step1 A (g : pid -> lact R A) d s0 s2 v :
    lbind (@lnew_gp R) (fun t => lbind (ldefine m t d) (fun _ => g t)) s0 = (s2, ROk v) ->
    g (a_np s0) (added (AW (a_nm s0) (a_np s0).+1 (a_gm s0) (a_log s0)) m (a_np s0) d) = (s2, ROk v).
  move=> E; have [t [u [[eu et] E2]]] := lbind_ok E; subst t u.
  by have [[] [u [E3 E4]]] := lbind_ok E2; have [<- _] := ldefine_ok E3.
move=> E0; have E1 := step1 _ _ _ _ _ _ E0; have E2 := step1 _ _ _ _ _ _ E1.
have E := step1 _ _ _ _ _ _ E2; clear E0 E1 E2; move: E.
match goal with |- lbind _ _ ?x = _ -> _ => set u := x end.
have ul : a_log u m = mul3 m p q (a_np s) (a_log s m).
  by rewrite /u /added /= /log_set !eqxx.
move=> E; have [mu [u7 [E1 H]]] := lbind_ok E; move: E1; rewrite {1}/lreads.
rewrite /= /sm; case Ea: (MA m _ p) => [a|] //=; case Eb: (MA m _ q) => [b|] //= [e7 emu].
subst u7 mu; have [k [u8 [E1 H']]] := lbind_ok H; move: E1; rewrite {1}/lreads.
rewrite /= /sk; case E1: (KA m _ p p) => [kpp|] //=; case E2: (KA m _ q q) => [kqq|] //=.
case E3: (KA m _ p q) => [kpq|] //=; case E4: (KA m _ q p) => [kqp|] //= [e8 ek].
subst u8 k; have := step1 _ _ _ _ _ _ H'.
case/ldefine_ok=> -> _.
have {Ea} Ea : MA m (mul3 m p q (a_np s) (a_log s m)) p = Some a by rewrite -ul.
have {Eb} Eb : MA m (mul3 m p q (a_np s) (a_log s m)) q = Some b by rewrite -ul.
have {E1} E1 : KA m (mul3 m p q (a_np s) (a_log s m)) p p = Some kpp by rewrite -ul.
have {E2} E2 : KA m (mul3 m p q (a_np s) (a_log s m)) q q = Some kqq by rewrite -ul.
have {E3} E3 : KA m (mul3 m p q (a_np s) (a_log s m)) p q = Some kpq by rewrite -ul.
have {E4} E4 : KA m (mul3 m p q (a_np s) (a_log s m)) q p = Some kqp by rewrite -ul.
have gmne g t m' p' : p' != t -> gm_add g t m' p' = g p' by rewrite /gm_add => /negbTE ->.
have gmlt p' t : p' < a_np s -> a_np s <= t -> p' != t.
  by move=> l1 l2; rewrite neq_ltn (leq_trans l1 l2).
split=> //=.
- lia.
- move=> m'; rewrite inE => /eqP ->; rewrite /log_set eqxx.
  exists (a_np s), a, b, kpp, kqq, kpq, kqp; split; last by []; split; [by []|by []|by []|].
  by [].
- by move=> m'; rewrite inE /log_set => /negbTE ->.
- by rewrite {1}/gm_add eqxx !gmne ?cats1 //; apply: gmlt => //; lia.
- by move=> p' lp /gmne ->; rewrite !gmne //; apply: gmlt => //; lia.
Qed.

(* The definition that an operation adds. *)
Definition odef o : option pdef :=
  match o with
  | OGP m mu k => Some (DInd mu k)
  | OUser m mu k l _ => Some (DUser mu k l)
  | OCopy m p => Some (DCopy p)
  | OAddC p c => Some (DAddC p c)
  | OAddF p f => Some (DAddF p f)
  | OScale p c => Some (DScale p c)
  | OMulF p f => Some (DFun p (FUser f))
  | OShift p c => Some (DShift p c)
  | OStretch p c => Some (DStretch p c)
  | OSelect p c => Some (DSelect R p c)
  | OTransform p f => Some (DTransform p f)
  | ODiff p d => Some (DDiff p d)
  | OSum p q _ => Some (DSum p q)
  | OCross ps _ => Some (DCross ps)
  | _ => None
  end.
Definition oadded o (r : pid) : mid -> hist -> hist -> Prop :=
  match o with
  | OMul p q _ => addedmul r p q
  | _ => if odef o is Some d then added1 r d else fun _ _ _ => False
  end.
(* The measures in which the new process is defined. *)
Definition scope w o (ms : seq mid) : Prop :=
  match o with
  | OGP m _ _ | OUser m _ _ _ _ | OCopy m _ => ms = [:: m]
  | OAddC p _ | OAddF p _ | OScale p _ | OMulF p _ | OShift p _ | OStretch p _
  | OSelect p _ | OTransform p _ | ODiff p _ => ms = w_gm w p
  | OSum p q ord | OMul p q ord => perm_eq ms (group w [:: p; q]) /\ same_home1 w [:: p; q]
  | OCross ps ord => [/\ perm_eq ms (group w ps), same_home1 w ps & ps != [::]]
  | _ => False
  end.

Definition creates o : bool :=
  match o with
  | OMeasure | OCond _ _ | OReadK _ _ _ | OReadM _ _ => false
  | _ => true
  end.

Lemma gm_new w : winv w -> w_gm w (w_np w) = [::].
Proof.
move=> [I _]; case E: (w_gm w (w_np w)) => [|m ms] //.
have : m \in a_gm (abs w) (w_np w) by rewrite /= E mem_head.
rewrite (v_gm I) => /andP [lt] /(v_np I lt) /=; by rewrite ltnn.
Qed.

Lemma step_ok w o w' res : winv w -> step w o = (w', ROk res) -> op_exists w o /\
  lexec o (abs w) = (abs w', ROk res).
Proof.
move=> I E; have [_] := matches_step o I; rewrite E /= /lstep lexistsE.
by case: ifP => // _ /(congr1 snd).
Qed.

Lemma creates_spec w o w' res : winv w -> step w o = (w', ROk res) -> creates o ->
  res = RPid R (w_np w) /\ (w_np w).+1 <= w_np w' /\
  exists ms, [/\ uniq ms, scope w o ms & adds (w_np w) ms (oadded o (w_np w)) (abs w) (abs w')].
Proof.
move=> I E; have [ex] := step_ok I E; move=> {E} E; set r := w_np w.
pose s0 : aworld := AW (w_nm w) (w_np w).+1 (w_gm w) (w_log w).
have AA ms f s1 : adds r ms f s0 s1 -> adds r ms f (abs w) s1.
  by case=> a1 a2 a3 a4 a5 a6; split=> //= [|p lp]; [exact: ltnW | apply: a6; exact: ltnW].
have Dadd d ms s1 : uniq ms -> liter (fun m => ldefine m r d) ms s0 = (s1, ROk tt) ->
    adds r ms (added1 r d) s0 s1.
  by move=> un; apply: liter_adds => // m s s2 /define_adds [].
have G1 m d : o <> OMeasure -> lbind (@lnew_gp R) (fun p => lbind (ldefine m p d) (fun _ => lret (RPid R p))) (abs w) =
    (abs w', ROk res) -> res = RPid R r /\ (w_np w).+1 <= w_np w' /\ adds r [:: m] (added1 r d) (abs w) (abs w').
  move=> _ E1; have [t1 [u1 [[eu et] E2]]] := lbind_ok E1; subst t1 u1.
  have [[] [u2 [D H]]] := lbind_ok E2.
  case: H => e1 <-; subst u2; split=> //; have [A _] := define_adds D.
  by split; [exact: (ad_np A) | apply: AA].
have G2 p d : lunary p d (abs w) = (abs w', ROk res) ->
    res = RPid R r /\ (w_np w).+1 <= w_np w' /\ adds r (w_gm w p) (added1 r d) (abs w) (abs w').
  rewrite /lunary => E1; have [t1 [u1 [[eu et] E2]]] := lbind_ok E1; subst t1 u1.
  have [[] [u2 [D H]]] := lbind_ok E2.
  case: H => e1 <-; subst u2; split=> //; have A := Dadd _ _ _ (v_un I.1 p) D.
  by split; [exact: (ad_np A) | apply: AA].
have G3 ps ord g f : lnary ps ord g (abs w) = (abs w', ROk res) ->
    (forall ms s1, uniq ms -> liter (fun m => g m r) ms s0 = (s1, ROk tt) -> adds r ms f s0 s1) ->
    res = RPid R r /\ (w_np w).+1 <= w_np w' /\ exists ms, [/\ uniq ms, perm_eq ms (group w ps), same_home1 w ps, ps != [::] &
      adds r ms f (abs w) (abs w')].
  rewrite /lnary => E1 Hf; have [t1 [u1 [[eu et] E2]]] := lbind_ok E1; subst t1 u1.
  move: E2; case: ifP => // sh E2; have [[] [u2 [D H]]] := lbind_ok E2.
  case: H => e1 <-; subst u2; split=> //.
  have un : uniq (order ord (lgroup s0 ps)) by rewrite (perm_uniq (order_perm _ _)) lgroup_uniq.
  have A := Hf _ _ un D; split; first exact: (ad_np A).
  exists (order ord (lgroup s0 ps)); split=> //.
  - exact: order_perm.
  - by rewrite -lsame_homeE.
  - by case: (ps) sh.
  - exact: AA.
have W m : uniq [:: m] by [].
case: o ex E G1 => [|m mu k|m mu k l r'|m p|p c|p f|p c|p f|p c|p c|p dims|p f|p d|p q ord|p q ord|ps ord|m ob|m i j|m i] ex E G1 //= _;
  try by [have [e1 [e2 e3]] := G1 _ _ (fun e => ltac:(discriminate e)) E; do 2! split=> //; exists [:: m]; split];
  try by [have [e1 [e2 e3]] := G2 _ _ E; do 2! split=> //; exists (w_gm w p); split=> //; exact: (v_un I.1)].
- have [e1 [e2 [ms [un pe sh _ A]]]] := G3 _ _ _ _ E (Dadd _); do 2! split=> //.
  by exists ms; split.
- have Mul ms s1 : uniq ms -> liter (fun m => ldefine_mul m r p q) ms s0 = (s1, ROk tt) ->
      adds r ms (addedmul r p q) s0 s1.
    by move=> un; apply: liter_adds => // m s s2 H lt; apply: mul_adds.
  have [e1 [e2 [ms [un pe sh _ A]]]] := G3 _ _ _ _ E Mul; do 2! split=> //.
  by exists ms; split.
- have [e1 [e2 [ms [un pe sh nn A]]]] := G3 _ _ _ _ E (Dadd _); do 2! split=> //.
  by exists ms; split.
Qed.

(* Consequences for what can be observed. *)
Lemma mem_gm w p m : winv w -> (m \in w_gm w p) = (m < w_nm w) && (p \in members w m).
Proof.
move=> I; have := v_gm I.1 p m; rewrite /= => ->.
by case: ltnP => //= lt; rewrite members_log // mem_rev.
Qed.

Lemma mem_group w ps m : winv w -> ps != [::] ->
  (m \in group w ps) = (m < w_nm w) && all (fun p => p \in members w m) ps.
Proof.
move=> I nn; have := lgroupP m I.1 nn; rewrite /lgroup /group; case: ps nn => // p ps _ /= ->.
by case: ltnP => //= lt; rewrite members_log // mem_rev; congr (_ && _); apply: eq_all => q; rewrite mem_rev.
Qed.

Lemma new_notin w m : winv w -> m < w_nm w -> w_np w \notin pids (w_log w m).
Proof. by move=> I lt; apply/negP => /(v_np I.1 lt) /=; rewrite ltnn. Qed.

Lemma members_uniq w m : winv w -> uniq (members w m).
Proof.
move=> I; case: (ltnP m (w_nm w)) => lt; last by rewrite /members ltnNge lt.
by rewrite members_log // rev_uniq wfh_uniq // (l_wf (v_log I.1)).
Qed.

Lemma log_view w w' m i j : winv w -> winv w' -> w_nm w' = w_nm w -> w_log w' m = w_log w m ->
  [/\ members w' m = members w m, see_k w' m i j = see_k w m i j & see_m w' m i = see_m w m i].
Proof.
move=> I I' e1 e2; rewrite !see_k_log // !see_m_log // e1; case: ifP => lt.
  by rewrite !members_log ?e1 // e2.
by rewrite /members e1 lt.
Qed.

Lemma adds_members w w' r ms f m : winv w -> winv w' -> adds r ms f (abs w) (abs w') ->
  r \in members w' m -> r \notin members w m -> m \in ms.
Proof.
move=> I I' A Hr Hn; apply/negPn/negP => mn.
by have [e _ _] := log_view 0 0 I I' (ad_nm A) (ad_out A mn); rewrite -e Hr in Hn.
Qed.

Lemma scope_group w o ps ms m : winv w -> operands o = Some ps -> scope w o ms ->
  (m \in ms) = (m < w_nm w) && all (fun p => p \in members w m) ps.
Proof.
move=> I; have G p : (m \in w_gm w p) = (m < w_nm w) && all (fun p => p \in members w m) [:: p].
  by rewrite mem_gm //= andbT.
case: o => [|? ? ?|? ? ? ? ?|? ?|p c|p f|p c|p f|p c|p c|p dims|p f|p d|p q ord|p q ord|qs ord|? ?|? ? ?|? ?] // [<-];
  try by move=> ->.
- by case=> /perm_mem -> _; rewrite mem_group.
- by case=> /perm_mem -> _; rewrite mem_group.
- by case=> /perm_mem -> _ nn; rewrite mem_group.
Qed.

Lemma oadded_pids o r m h h' : oadded o r m h h' -> creates o -> exists l, pids h' = r :: l ++ pids h /\
  (forall i, i \in l -> (r < i)%N).
Proof.
case: o => [|? ? ?|? ? ? ? ?|? ?|p c|p f|p c|p f|p c|p c|p dims|p f|p d|p q ord|p q ord|qs ord|? ?|? ? ?|? ?] //=;
  try by (move=> -> _; exists [::]).
case=> t [a [b [k1 [k2 [k3 [k4 [[_ _ _ ->] lt]]]]]]] _.
exists [:: t.+3; t.+2; t.+1; t]; split=> // i; rewrite !inE.
by case/or4P=> /eqP ->; lia.
Qed.

Lemma derived w o ps w' res : winv w -> operands o = Some ps -> step w o = (w', ROk res) ->
  let r := w_np w in
  [/\ res = RPid R r,
      forall m, (m \in w_gm w' r) = (m < w_nm w) && all (fun p => m \in w_gm w p) ps,
      forall m, count_mem r (members w' m) = (m \in w_gm w' r),
      forall m, m \notin w_gm w' r ->
        [/\ members w' m = members w m, forall i j, see_k w' m i j = see_k w m i j &
            forall i, see_m w' m i = see_m w m i] &
      forall p, (p < w_np w)%N -> w_gm w' p = w_gm w p] /\
  (if ps is [:: p] then (if o is OCross _ _ then True else w_gm w' r = w_gm w p) else True).
Proof.
move=> I op E r.
have cr : creates o by case: (o) op.
have [er [lt [ms [un sc A]]]] := creates_spec I E cr.
have I' : winv w' by have := winv_step o I; rewrite E.
have gr : w_gm w' r = ms by have := ad_res A; rewrite /= gm_new.
have sg m := scope_group m I op sc.
have ga m : m < w_nm w -> all (fun p => m \in w_gm w p) ps = all (fun p => p \in members w m) ps.
  by move=> l; apply: eq_all => p; rewrite mem_gm // l.
split; last first.
  case: (o) op sc => [|? ? ?|? ? ? ? ?|? ?|p c|p f|p c|p f|p c|p c|p dims|p f|p d|p q ord|p q ord|qs ord|? ?|? ? ?|? ?] //= [<-] //;
    try by (rewrite gr; move=> ->).
  by case: (qs) => // p [|].
split=> //.
- by move=> m; rewrite gr sg; case: ltnP => //= l; rewrite ga.
- move=> m; rewrite count_uniq_mem ?members_uniq //; congr nat_of_bool; rewrite gr.
  have H := mem_gm r m I'; rewrite gr in H.
  have nm : w_nm w' = w_nm w := ad_nm A.
  rewrite H; case: ltnP => //= l; by rewrite /members ltnNge l.
- rewrite gr => m mn; split.
  + by have [] := log_view 0 0 I I' (ad_nm A) (ad_out A mn).
  + by move=> i j; have [] := log_view i j I I' (ad_nm A) (ad_out A mn).
  + by move=> i; have [] := log_view i 0 I I' (ad_nm A) (ad_out A mn).
- by move=> p lp; have := ad_gm A lp; rewrite /= neq_ltn lp; apply.
Qed.

(* Failing operations. *)
Lemma mixing w o ps p q : winv w -> op_exists w o -> binary o = Some ps ->
  p \in ps -> q \in ps -> home w p <> home w q ->
  (step w o).2 = RErr (result R) /\ same_view (step w o).1 w.
Proof.
move=> I ex bi Hp Hq ne; have [I'] := matches_step o I; rewrite /lstep lexistsE ex.
have sh : same_home1 w ps = false.
  apply/negP; case: (ps) Hp Hq => [|a [|b l]] //.
    by rewrite /= !inE => /eqP e1 /eqP e2; rewrite e1 e2 in ne.
  rewrite /= => Hp Hq /and3P [_ /eqP e /allP H]; apply: ne.
  have K x : x \in [:: a, b & l] -> home w x = home w a.
    by rewrite !inE => /or3P [/eqP ->|/eqP ->|/H /eqP].
  by rewrite (K p) // (K q).
have X : lexec o (abs w) = (AW (w_nm w) (w_np w).+1 (w_gm w) (w_log w), RErr (result R)).
  set s0 := AW _ _ _ _.
  have sl : lsame_home s0 ps = false by rewrite -sh -lsame_homeE.
  have N ord f : lnary ps ord f (abs w) = (s0, RErr (result R)).
    rewrite -[lnary _ _ _ _]/(if lsame_home s0 ps then
      lbind (liter (fun m => f m (w_np w)) (order ord (lgroup s0 ps)))
        (fun _ => lret (RPid R (w_np w))) s0 else (s0, RErr (result R))).
    by rewrite sl.
  by case: (o) bi => // [p' q' ord|p' q' ord|qs ord] [e]; rewrite -e in N; apply: N.
rewrite X => X1; split; first by have := congr1 snd X1.
have := congr1 fst X1; rewrite /= => -[e1 _ e3 e4].
apply: same_view_intro.
- by move=> m i j; rewrite !see_k_log // -e1 -e4.
- by move=> m i; rewrite !see_m_log // -e1 -e4.
- move=> m; case: (ltnP m (w_nm w)) => lt; last by rewrite /members -e1 ltnNge lt.
  by rewrite !members_log -?e1 // e4.
- by move=> x; rewrite e3.
Qed.

(* The rules of the constructions, as read in the world right after them. *)
Lemma new_def w o w' res m d : winv w -> step w o = (w', ROk res) -> odef o = Some d ->
  m \in w_gm w' (w_np w) -> m < w_nm w /\ m < w_nm w' /\ w_log w' m = HAdd (w_np w) d (w_log w m).
Proof.
move=> I E od Hm; have cr : creates o by case: (o) od.
have [er [lt [ms [un sc A]]]] := creates_spec I E cr.
have I' : winv w' by have := winv_step o I; rewrite E.
have gr : w_gm w' (w_np w) = ms by have := ad_res A; rewrite /= gm_new.
have lm' : m < w_nm w' by move: Hm; rewrite mem_gm // => /andP [].
have nm : w_nm w' = w_nm w := ad_nm A.
rewrite -nm; split=> //; split=> //.
rewrite gr in Hm; have := ad_in A Hm; rewrite /oadded od.
by case: (o) od.
Qed.

Lemma fresh_ne w m i : winv w -> m < w_nm w -> i \in members w m -> (i == w_np w) = false.
Proof.
move=> I lt; rewrite members_log // mem_rev => Hi; apply/negP => /eqP e.
by have := new_notin I lt; rewrite -e Hi.
Qed.

(* The kernel rules of a copy, of an independent process and of a process of the user. *)
Lemma copy_rules w m p w' res : winv w -> step w (OCopy m p) = (w', ROk res) ->
  let r := w_np w in
  [/\ res = RPid R r, p \in members w m, see_m w' m r = see_m w m p &
      see_k w' m r r = see_k w m p p] /\
  (forall j, j \in members w m ->
     see_k w' m r j = see_k w m p j /\ see_k w' m j r = see_k w m j p).
Proof.
move=> I E r; have I' : winv w' by have := winv_step (OCopy m p) I; rewrite E.
have [er [lt [ms [un /= em A]]]] := creates_spec I E isT; subst ms.
have gr : m \in w_gm w' r by have := ad_res A; rewrite /= gm_new // => ->; rewrite inE.
have [lm [lm' e]] := new_def I E (erefl : odef (OCopy m p) = Some (DCopy p)) gr.
have [[ex]] := step_ok I E; rewrite /= => X.
have Hp : p \in pids (w_log w m).
  have [t1 [u1 [[eu et] X2]]] := lbind_ok X; subst t1 u1.
  have [[] [u2 [D _]]] := lbind_ok X2; have [_ [mu [k [Em _]]]] := ldefine_ok D.
  by apply: (@MA_pids _ m); move: Em; rewrite /= /sm /=; case: (MA m _ p).
rewrite !see_k_log // !see_m_log // lm lm' members_log // mem_rev; split.
  rewrite e /= eqxx; split=> //; rewrite /onM /onk /onm eqxx.
    by case: (MA _ _ _).
  by case: (KA _ _ _ _).
move=> j; rewrite mem_rev => Hj; rewrite !see_k_log // lm lm' e /= eqxx.
have -> : (j == r) = false by apply: (fresh_ne I lm); rewrite members_log // mem_rev.
rewrite Hj /onk /onm eqxx.
have -> : (j == w_np w) = false by apply: (fresh_ne I lm); rewrite members_log // mem_rev.
by split; case: (KA _ _ _ _).
Qed.

Lemma indep_rules w m mu k w' res : winv w -> step w (OGP m mu k) = (w', ROk res) ->
  let r := w_np w in
  [/\ res = RPid R r, see_m w' m r = Some mu, see_k w' m r r = Some k &
      forall j, j \in members w m -> see_k w' m r j = Some KZero /\ see_k w' m j r = Some KZero].
Proof.
move=> I E r; have I' : winv w' by have := winv_step (OGP m mu k) I; rewrite E.
have [er [lt [ms [un /= em A]]]] := creates_spec I E isT; subst ms.
have gr : m \in w_gm w' r by have := ad_res A; rewrite /= gm_new // => ->; rewrite inE.
have [lm [lm' e]] := new_def I E (erefl : odef (OGP m mu k) = Some (DInd mu k)) gr.
split=> //; first by rewrite see_m_log // lm' e /= eqxx.
  by rewrite see_k_log // lm' e /= eqxx.
move=> j Hj; have ne := fresh_ne I lm Hj; rewrite !see_k_log // lm' e /= eqxx ne.
by move: Hj; rewrite members_log // mem_rev => ->.
Qed.

Lemma user_rules w m mu k l rr w' res : winv w -> step w (OUser m mu k l rr) = (w', ROk res) ->
  let r := w_np w in
  [/\ res = RPid R r, see_m w' m r = Some mu, see_k w' m r r = Some k &
      forall j, j \in members w m ->
        see_k w' m r j = l j /\ see_k w' m j r = omap (fun k => KRev k) (l j)].
Proof.
move=> I E r; have I' : winv w' by have := winv_step (OUser m mu k l rr) I; rewrite E.
have [er [lt [ms [un /= em A]]]] := creates_spec I E isT; subst ms.
have gr : m \in w_gm w' r by have := ad_res A; rewrite /= gm_new // => ->; rewrite inE.
have [lm [lm' e]] := new_def I E (erefl : odef (OUser m mu k l rr) = Some (DUser mu k l)) gr.
split=> //; first by rewrite see_m_log // lm' e /= eqxx.
  by rewrite see_k_log // lm' e /= eqxx.
move=> j Hj; have ne := fresh_ne I lm Hj; rewrite !see_k_log // lm' e /= eqxx ne.
by move: Hj; rewrite members_log // mem_rev => ->; rewrite /onk /onm eqxx /= eqxx; case: (l j).
Qed.

(* Processes enter a measure only when they are created. *)
Definition hk A (n : nat) (Q : A -> Prop) (f : lact R A) : Prop := forall s, (n <= a_np s)%N ->
  [/\ (n <= a_np (f s).1)%N, (a_nm s <= a_nm (f s).1)%N,
      forall m p, (m < a_nm s)%N -> (p < n)%N -> (p \in pids (a_log (f s).1 m)) = (p \in pids (a_log s m)) &
      forall v, (f s).2 = ROk v -> Q v].

Lemma hk_bind A B n (Q : A -> Prop) (Q' : B -> Prop) f (g : A -> lact R B) :
  hk n Q f -> (forall v, Q v -> hk n Q' (g v)) -> hk n Q' (lbind f g).
Proof.
move=> Hf Hg s le; have := Hf s le; rewrite /lbind; case: (f s) => s1 [v| |] /= [a b c e] //.
have [a' b' c' e'] := Hg v (e v erefl) s1 a; split=> //; first exact: leq_trans b'.
by move=> m p lt lp; rewrite c' ?c //; apply: leq_trans b.
Qed.
Lemma hk_ret A n (Q : A -> Prop) v : Q v -> hk n Q (lret v).
Proof. by move=> H s le; split=> //= u [<-]. Qed.
Lemma hk_new_gp n : hk n (fun p => n <= p)%N (@lnew_gp R).
Proof. by move=> s le; split=> //=; [exact: leqW | move=> v [<-]]. Qed.
Lemma hk_reads A n (c : prog R A) : hk n (fun _ => True) (lreads c).
Proof. by move=> s le; split. Qed.
Lemma hk_define n m p d : (n <= p)%N -> hk n (fun _ => True) (ldefine m p d).
Proof.
move=> lp s le; case: (ldefineP s m p d) => [mu k _ _|]; last by split.
split=> //= m' p' _ lp'; rewrite /log_set; case: eqP => [->|_] //=.
by rewrite inE; case: eqP => // e; move: (leq_trans lp' lp); rewrite e ltnn.
Qed.
Lemma hk_iter n A (f : A -> lact R unit) ms :
  (forall m, hk n (fun _ => True) (f m)) -> hk n (fun _ => True) (liter f ms).
Proof.
by move=> H; elim: ms => [|m ms IH] /=; [apply: hk_ret | apply: (hk_bind (H m))].
Qed.
Lemma hk_mul n m res p q : (n <= res)%N -> hk n (fun _ => True) (ldefine_mul m res p q).
Proof.
move=> lr; apply: (hk_bind (@hk_new_gp n)) => t1 l1; apply: (hk_bind (hk_define _ _ l1)) => _ _.
apply: (hk_bind (@hk_new_gp n)) => t2 l2; apply: (hk_bind (hk_define _ _ l2)) => _ _.
apply: (hk_bind (@hk_new_gp n)) => t3 l3; apply: (hk_bind (hk_define _ _ l3)) => _ _.
apply: (hk_bind (@hk_reads _ n _)) => mu _; apply: (hk_bind (@hk_reads _ n _)) => k _.
apply: (hk_bind (@hk_new_gp n)) => t4 l4; apply: (hk_bind (hk_define _ _ l4)) => _ _.
exact: hk_define.
Qed.
Lemma hk_state A n (Q : A -> Prop) (f : aworld -> lact R A) :
  (forall s, hk n Q (f s)) -> hk n Q (fun s => f s s).
Proof. by move=> H s; apply: H. Qed.
Lemma hk_new_measure n (s : aworld) : (n <= a_np s)%N ->
  forall m p, (m < a_nm s)%N -> (p \in pids (log_set (a_log s) (a_nm s) HRoot m)) = (p \in pids (a_log s m)).
Proof. by move=> _ m p lt; rewrite /log_set; case: eqP => // e; rewrite e ltnn in lt. Qed.

Lemma hk_exec n o : hk n (fun _ => True) (lexec o).
Proof.
have G1 m d : hk n (fun _ => True) (lbind (@lnew_gp R) (fun p => lbind (ldefine m p d) (fun _ => lret (RPid R p)))).
  by apply: (hk_bind (@hk_new_gp n)) => t l; apply: (hk_bind (hk_define _ _ l)) => _ _; apply: hk_ret.
have G2 p d : hk n (fun _ => True) (lunary p d).
  apply: (hk_bind (@hk_new_gp n)) => t l.
  apply: (@hk_state _ n _ (fun s0 => lbind (liter (fun m => ldefine m t d) (a_gm s0 p)) (fun _ => lret (RPid R t)))) => s0.
  by apply: (@hk_bind _ _ n (fun _ => True)) => [|_ _]; [apply: hk_iter => m; apply: hk_define | apply: hk_ret].
have G3 ps ord f : (forall m res, (n <= res)%N -> hk n (fun _ => True) (f m res)) ->
    hk n (fun _ => True) (lnary ps ord f).
  move=> H; apply: (hk_bind (@hk_new_gp n)) => t l.
  apply: (@hk_state _ n _ (fun s0 => fun s => if lsame_home s0 ps then
     lbind (liter (fun m => f m t) (order ord (lgroup s0 ps))) (fun _ => lret (RPid R t)) s
     else (s, RErr (result R)))) => s0 s le; case: ifP => _; last by split.
  by apply: (@hk_bind _ _ n (fun _ => True)) le => [|_ _]; [apply: hk_iter => m; apply: H | apply: hk_ret].
case: o => [|m mu k|m mu k l r|m p|p c|p f|p c|p f|p c|p c|p dims|p f|p d|p q ord|p q ord|ps ord|m ob|m i j|m i];
  try by [apply: G1 | apply: G2].
- move=> s le; rewrite /= /lbind /=; split=> //.
  by move=> m p lt _; apply: (hk_new_measure le).
- by apply: G3 => m res; apply: hk_define.
- by apply: G3 => m res; apply: hk_mul.
- by apply: G3 => m res; apply: hk_define.
- move=> s le; rewrite /= /lcondition /lbind /=; split=> //.
  move=> m' p lt _; rewrite {1}/log_set; case: eqP => [e|_]; first by rewrite e ltnn in lt.
  exact: (hk_new_measure le).
- by apply: (hk_bind (@hk_reads _ n _)) => k _; apply: hk_ret.
- by apply: (hk_bind (@hk_reads _ n _)) => k _; apply: hk_ret.
Qed.

Lemma step_old w o m p : winv w -> (m < w_nm w)%N -> (p < w_np w)%N ->
  (p \in members (step w o).1 m) = (p \in members w m).
Proof.
move=> I lt lp; have lt' := leq_trans lt (t_nm (later_step o I)).
rewrite !members_log ?mem_rev //; last exact: winv_step.
have [_] := matches_step o I; rewrite /lstep; case: ifP => ex; last by move/(congr1 fst) => /= [_ _ _ <-].
move/(congr1 fst) => /= e; have [_ _ c _] := hk_exec o (leqnn (a_np (abs w))).
by have := c m p lt lp; rewrite e.
Qed.

Lemma from_old w ops m p : winv w -> (m < w_nm w)%N -> (p < w_np w)%N ->
  (p \in members (run_from w ops) m) = (p \in members w m).
Proof.
rewrite /run_from; elim: ops w => //= o ops IH w I lt lp.
have L := later_step o I.
rewrite IH ?step_old //; first exact: winv_step.
  exact: leq_trans (t_nm L).
exact: leq_trans (t_np L).
Qed.

(* Conditioning. *)
Lemma cond_view w m ob : winv w -> op_exists w (OCond m ob) ->
  exists w', [/\ step w (OCond m ob) = (w', ROk (RMid R (w_nm w))), winv w',
    w_nm w' = (w_nm w).+1, w_np w' = w_np w &
    w_log w' (w_nm w) = HPost m (w_log w m) ob] /\
    (forall p, w_gm w' p = if p \in members w m then rcons (w_gm w p) (w_nm w) else w_gm w p).
Proof.
move=> I ex; have [I'] := matches_step (OCond m ob) I; rewrite /lstep lexistsE ex.
have lt : m < w_nm w by move: ex; rewrite /op_exists /= !andbT => /andP [].
have ne : (m == w_nm w) = false by apply/negP => /eqP e; rewrite -e ltnn in lt.
rewrite /= /lcondition /lbind /=; case E: (step w (OCond m ob)) => [w' r] X.
have := congr1 snd X; have := congr1 fst X; rewrite /= => -[e1 e2 e3 e4] e5.
exists w'; rewrite -e5 -e1 -e2; rewrite E in I'; split; first split=> //.
  by rewrite -e4 /log_set eqxx ne.
by move=> p; rewrite -e3 members_log // /log_set ne.
Qed.

Lemma cond_scope w m ob w' res : winv w -> step w (OCond m ob) = (w', ROk res) ->
  [/\ res = RMid R (w_nm w), members w' (w_nm w) = members w m,
      forall p, (w_nm w \in w_gm w' p) = (p \in members w m) &
      forall p, (p < w_np w)%N -> p \notin members w m -> forall ops,
        let w'' := run_from w' ops in
        [/\ p \notin members w'' (w_nm w), see_m w'' (w_nm w) p = None &
            forall j, see_k w'' (w_nm w) p j = None /\ see_k w'' (w_nm w) j p = None]].
Proof.
move=> I E; have ex : op_exists w (OCond m ob) by move: E; rewrite /step; case: ifP.
have [w2 [[E2 I' nm np lg] gm]] := cond_view I ex.
move: E2; rewrite E => -[ew er]; subst w2 res.
have lm : m < w_nm w by move: ex; rewrite /op_exists /= !andbT => /andP [].
have mm : members w' (w_nm w) = members w m by rewrite !members_log // ?nm // lg.
have ng p : (w_nm w \in w_gm w p) = false by rewrite mem_gm // ltnn.
split=> //.
  by move=> p; rewrite gm; case: ifP => _; rewrite ?ng // mem_rcons mem_head.
move=> p lp pn ops w''; have I'' : winv w'' by apply: winv_from.
have pn'' : p \notin members w'' (w_nm w) by rewrite /w'' from_old ?nm ?np ?mm.
split=> //.
  by case X: (see_m _ _ _) => //; rewrite (see_m_members I'' X) in pn''.
by move=> j; split; case X: (see_k _ _ _ _) => //; have := see_k_members I'' X;
  rewrite (negbTE pn'') ?andbF.
Qed.

End GraphOps.
