(* Proofs about model graphs. *)
From Coq Require Import FunctionalExtensionality.
From mathcomp Require Import all_ssreflect all_algebra.
From mathcomp Require Import zify.
From Verif Require Lazy.
From Verif Require Import Graph Machine Refine Worlds Eval GraphSpec.
Set Implicit Arguments. Unset Strict Implicit. Unset Printing Implicit Defensive.
Import GRing.Theory.

Section GraphProofs.
Variable R : fieldType.
Notation kexp := (kexp R). Notation mexp := (mexp R). Notation hist := (hist R).
Notation pdef := (pdef R). Notation world := (world R). Notation heap := (heap R).
Notation op := (op R). Notation aworld := (aworld R).
Implicit Types (w : world) (s : aworld) (h : hist) (o : op) (d : pdef) (ops : seq op).

(* What can be observed is determined by the log. *)
Lemma members_log w m : winv w -> m < w_nm w -> members w m = rev (pids (w_log w m)).
Proof. by move=> I lt; rewrite /members lt; case: (I.2 m lt). Qed.

Lemma see_k_log w m i j : winv w ->
  see_k w m i j = if m < w_nm w then KA m (w_log w m) i j else None.
Proof.
move=> I; case: ifP => lt; first exact: read_k.
by rewrite /see_k lt.
Qed.
Lemma see_m_log w m i : winv w ->
  see_m w m i = if m < w_nm w then MA m (w_log w m) i else None.
Proof.
move=> I; case: ifP => lt; first exact: read_m.
by rewrite /see_m lt.
Qed.

Lemma same_view_intro w w' :
  (forall m i j, see_k w m i j = see_k w' m i j) ->
  (forall m i, see_m w m i = see_m w' m i) ->
  (forall m, members w m = members w' m) ->
  (forall p, w_gm w p = w_gm w' p) -> same_view w w'.
Proof.
move=> Hk Hm; split=> //.
have Ek : see_k w = see_k w'.
  by do 3! apply: functional_extensionality => ?.
have Em : see_m w = see_m w'.
  by do 2! apply: functional_extensionality => ?.
by rewrite /kernel_at /mean_at Ek Em.
Qed.

Lemma abs_view w w' : winv w -> winv w' -> abs w = abs w' -> same_view w w'.
Proof.
move=> I I' [e1 e2 e3 e4]; apply: same_view_intro.
- by move=> m i j; rewrite !see_k_log // e1 e4.
- by move=> m i; rewrite !see_m_log // e1 e4.
- move=> m; case: (ltnP m (w_nm w)) => lt; last first.
    by rewrite /members -e1 ltnNge lt.
  by rewrite !members_log -?e1 // e4.
- by move=> p; rewrite e3.
Qed.

Lemma abs_step w w' o : winv w -> winv w' -> abs w = abs w' ->
  abs (step w o).1 = abs (step w' o).1 /\ (step w o).2 = (step w' o).2.
Proof.
move=> I I' e; have [_ E] := matches_step o I; have [_ E'] := matches_step o I'.
rewrite -e E in E'; split; first exact: (congr1 fst E').
exact: (congr1 snd E').
Qed.

Lemma winv_step w o : winv w -> winv (step w o).1.
Proof. by move=> I; case: (matches_step o I). Qed.

Lemma winv_from w ops : winv w -> winv (run_from w ops).
Proof. by rewrite /run_from; elim: ops w => //= o ops IH w I; apply/IH/winv_step. Qed.

Lemma run_ops_cat ops1 ops2 : run_ops (ops1 ++ ops2) = run_from (run_ops ops1) ops2 :> world.
Proof. by rewrite /run_ops foldl_cat. Qed.

Lemma read_abs w o : winv w -> is_read o -> abs (step w o).1 = abs w.
Proof.
move=> I H; have [_] := matches_step o I; rewrite /lstep; case: ifP => _; last by move/(congr1 fst) => /= <-.
move/(congr1 fst) => /= <-; case: o H => //= [m i j|m i] _; rewrite /lbind /lreads /=.
  by case: (sk _ m i j).
by case: (sm _ m i).
Qed.

Lemma results_abs ops w w' : winv w -> winv w' -> abs w = abs w' ->
  results w ops = results w' ops /\ abs (run_from w ops) = abs (run_from w' ops).
Proof.
rewrite /run_from; elim: ops w w' => //= o ops IH w w' I I' e.
have [e1 e2] := abs_step o I I' e.
have [-> ->] := IH _ _ (winv_step o I) (winv_step o I') e1.
by rewrite e2.
Qed.

Lemma results_filter ops w : winv w ->
  results w ops = results w (filter (@not_read R) ops) /\
  abs (run_from w ops) = abs (run_from w (filter (@not_read R) ops)).
Proof.
rewrite /run_from; elim: ops w => //= o ops IH w I; rewrite /not_read.
have [-> ->] := IH _ (winv_step o I); case E: (is_read o) => /=; last by rewrite E.
exact: (results_abs _ (winv_step o I) I (read_abs I E)).
Qed.

Lemma pure_results ops ops' :
  filter (@not_read R) ops = filter (@not_read R) ops' ->
  results world0 ops = results world0 ops' /\ same_view (run_ops ops) (run_ops ops').
Proof.
move=> e; have [e1 e2] := results_filter ops (winv0 R).
have [e3 e4] := results_filter ops' (winv0 R).
split; first by rewrite e1 e3 e.
by apply: abs_view; rewrite ?/run_ops; [exact: winv_run | exact: winv_run | rewrite -/(run_from _ _) e2 e4 e].
Qed.

Lemma read_result w m i j : winv w -> op_exists w (@OReadK R m i j) ->
  (step w (OReadK m i j)).2 = if see_k w m i j is Some k then ROk (RK k) else RErr (result R).
Proof.
move=> I ex; have [_] := matches_step (OReadK m i j) I; rewrite /lstep lexistsE ex.
move/(congr1 snd) => /= <-; rewrite /lbind /lreads /= see_k_log //.
by move: ex; rewrite /op_exists /= !andbT => /andP [_ ->]; rewrite /sk /=; case: (KA _ _ _ _).
Qed.
Lemma read_result_m w m i : winv w -> op_exists w (@OReadM R m i) ->
  (step w (OReadM m i)).2 = if see_m w m i is Some k then ROk (RM k) else RErr (result R).
Proof.
move=> I ex; have [_] := matches_step (OReadM m i) I; rewrite /lstep lexistsE ex.
move/(congr1 snd) => /= <-; rewrite /lbind /lreads /= see_m_log //.
by move: ex; rewrite /op_exists /= !andbT => /andP [_ ->]; rewrite /sm /=; case: (MA _ _ _).
Qed.

(* How logs grow. *)
Definition opS (o : op) (d : pdef) : Prop :=
  if d is DUser _ _ l then if o is OUser _ _ _ l' _ then l = l' else False else True.

Inductive extS (S : pdef -> Prop) (h : hist) : hist -> Prop :=
| extS_refl : extS S h h
| extS_add p d h' : S d -> extS S h h' -> extS S h (HAdd p d h').

Lemma extS_ext S h h' : extS S h h' -> ext h h'.
Proof. by elim=> [|p d h2 _ _ IH]; constructor. Qed.
Lemma extS_trans S h1 h2 h3 : extS S h1 h2 -> extS S h2 h3 -> extS S h1 h3.
Proof. by move=> E; elim=> // p d h Sd _ IH; constructor. Qed.

Definition grow (S : pdef -> Prop) (s s1 : aworld) : Prop :=
  [/\ a_nm s1 = a_nm s, a_np s <= a_np s1, forall m, extS S (a_log s m) (a_log s1 m) &
      forall p, exists l, a_gm s1 p = a_gm s p ++ l].

Lemma grow_refl S s : grow S s s.
Proof. by split=> // [m|p]; [constructor | exists [::]; rewrite cats0]. Qed.
Lemma grow_trans S s1 s2 s3 : grow S s1 s2 -> grow S s2 s3 -> grow S s1 s3.
Proof.
move=> [a1 a2 a3 a4] [b1 b2 b3 b4]; split; rewrite ?b1 //; first exact: leq_trans b2.
  by move=> m; apply: extS_trans (b3 m).
by move=> p; have [l ->] := b4 p; have [l' ->] := a4 p; exists (l' ++ l); rewrite catA.
Qed.
Lemma grow_bind S A B (f : lact R A) (g : A -> lact R B) s :
  grow S s (f s).1 -> (forall v s1, grow S s1 (g v s1).1) -> grow S s (lbind f g s).1.
Proof.
rewrite /lbind; case: (f s) => s1 [v| |] //= F G; exact: grow_trans (G v s1).
Qed.
Lemma grow_new_gp S s : grow S s (lnew_gp s).1.
Proof. by split=> //= [m|p]; [constructor | exists [::]; rewrite cats0]. Qed.
Lemma grow_define (S : pdef -> Prop) m p d s : S d -> grow S s (ldefine m p d s).1.
Proof.
move=> Sd; case: (ldefineP s m p d) => [mu k _ _|] /=; last exact: grow_refl.
split=> //= [m'|p']; first by rewrite /log_set; case: eqP => [->|_]; repeat constructor.
rewrite /gm_add; case: eqP => _; [exists [:: m]; by rewrite cats1 | exists [::]; by rewrite cats0].
Qed.
Lemma grow_iter S A (f : A -> lact R unit) ms s :
  (forall m s, grow S s (f m s).1) -> grow S s (liter f ms s).1.
Proof.
move=> H; elim: ms s => [|m ms IH] s /=; first exact: grow_refl.
by apply: grow_bind => // _ s1; apply: IH.
Qed.
Lemma grow_mul (S : pdef -> Prop) m res p q s : (forall d, ~~ (if d is DUser _ _ _ then true else false) -> S d) ->
  grow S s (ldefine_mul m res p q s).1.
Proof.
move=> Sd.
do 6! [apply: grow_bind => [|? ?]; first by [exact: grow_new_gp | apply: grow_define; apply: Sd]].
do 2! [apply: grow_bind => [|? ?]; first exact: grow_refl].
do 2! [apply: grow_bind => [|? ?]; first by [exact: grow_new_gp | apply: grow_define; apply: Sd]].
by apply: grow_define; apply: Sd.
Qed.

(* One operation: at most one measure is created. *)
Record grown (o : op) (s s1 : aworld) : Prop := Grown {
  g_nm : a_nm s <= a_nm s1;
  g_np : a_np s <= a_np s1;
  g_log : forall m, m < a_nm s -> extS (opS o) (a_log s m) (a_log s1 m);
  g_new : forall m, a_nm s <= m -> m < a_nm s1 ->
    (o = OMeasure /\ a_log s1 m = HRoot) \/
    exists m0 ob, o = OCond m0 ob /\ a_log s1 m = HPost m0 (a_log s m0) ob;
  g_gm : forall p, exists l, a_gm s1 p = a_gm s p ++ l }.

Lemma grow_grown o s s1 : grow (opS o) s s1 -> grown o s s1.
Proof.
by move=> [a b c e]; split; rewrite ?a // => m le lt; move: (leq_trans lt le); rewrite ltnn.
Qed.

Lemma lexec_grown o s : lexists s o -> grown o s (lexec o s).1.
Proof.
move=> ex.
have G1 m d : opS o d -> grown o s
  (lbind (@lnew_gp R) (fun p => lbind (ldefine m p d) (fun _ => lret (RPid R p))) s).1.
  move=> Sd; apply: grow_grown; apply: grow_bind; first exact: grow_new_gp.
  move=> v s1; apply: grow_bind; first exact: grow_define.
  by move=> _ s2; apply: grow_refl.
have G2 p d : opS o d -> grown o s (lunary p d s).1.
  move=> Sd; apply: grow_grown; apply: grow_bind; first exact: grow_new_gp.
  move=> v s1; apply: grow_bind; first by apply: grow_iter => m s2; apply: grow_define.
  by move=> _ s2; apply: grow_refl.
have G3 ps ord f : (forall m res s, grow (opS o) s (f m res s).1) -> grown o s (lnary ps ord f s).1.
  move=> H; apply: grow_grown; apply: grow_bind; first exact: grow_new_gp.
  move=> v s1; case: ifP => _; last exact: grow_refl.
  apply: grow_bind; last by move=> _ s2; apply: grow_refl.
  by apply: grow_iter => m s2; apply: H.
case: o ex G1 G2 G3 => [|m mu k|m mu k l r|m p|p c|p f|p c|p f|p c|p c|p dims|p f|p d|p q ord|p q ord|ps ord|m ob|m i j|m i] ex G1 G2 G3;
  try by [apply: G1 | apply: G2].
- rewrite /= /lbind /=; split=> //=; rewrite ?leqnSn //.
  + by move=> m lt; rewrite /log_set; case: eqP => [e|_]; [rewrite e ltnn in lt | constructor].
  + move=> m le lt; have -> : m = a_nm s by lia.
    by left; rewrite /log_set eqxx.
  + by move=> p; exists [::]; rewrite cats0.
- by apply: G3 => m res s1; apply: grow_define.
- by apply: G3 => m res s1; apply: grow_mul; case.
- by apply: G3 => m res s1; apply: grow_define.
- rewrite /= /lcondition /lbind /=; split=> //=; rewrite ?leqnSn //.
  + move=> m' lt; rewrite /log_set; case: eqP => [e|_]; first by rewrite e ltnn in lt.
    by constructor.
  + move=> m' le lt; have -> : m' = a_nm s by lia.
    right; exists m, ob; rewrite /log_set eqxx; split=> //; case: eqP => // e.
    by move: ex; rewrite /lexists /= e ltnn !andbF.
  + move=> p; case: ifP => _; [by eexists; rewrite -cats1 | by exists [::]; rewrite cats0].
- rewrite /= /lbind /lreads /=; apply: grow_grown.
  by case: (sk s m i j) => [k|] /=; apply: grow_refl.
- rewrite /= /lbind /lreads /=; apply: grow_grown.
  by case: (sm s m i) => [k|] /=; apply: grow_refl.
Qed.

Lemma step_grown w o : winv w -> grown o (abs w) (abs (step w o).1).
Proof.
move=> I; have [_] := matches_step o I; rewrite /lstep; case: ifP => ex.
  by move/(congr1 fst) => /= <-; apply: lexec_grown.
by move/(congr1 fst) => /= <-; apply/grow_grown/grow_refl.
Qed.

(* Later worlds. *)
Record later (w w' : world) : Prop := Later {
  t_nm : w_nm w <= w_nm w';
  t_np : w_np w <= w_np w';
  t_log : forall m, m < w_nm w -> ext (w_log w m) (w_log w' m);
  t_gm : forall p, exists l, w_gm w' p = w_gm w p ++ l }.

Lemma later_refl w : later w w.
Proof. by split=> // [m _|p]; [constructor | exists [::]; rewrite cats0]. Qed.
Lemma later_trans w1 w2 w3 : later w1 w2 -> later w2 w3 -> later w1 w3.
Proof.
move=> [a b c e] [a' b' c' e']; split; [exact: leq_trans a'| exact: leq_trans b' | |].
  by move=> m lt; apply: ext_trans (c m lt) (c' m (leq_trans lt a)).
by move=> p; have [l ->] := e' p; have [l' ->] := e p; exists (l' ++ l); rewrite catA.
Qed.
Lemma later_step w o : winv w -> later w (step w o).1.
Proof.
move=> I; have [a b c _ e] := step_grown o I; split=> //.
by move=> m lt; apply: extS_ext; apply: (c m lt).
Qed.
Lemma later_from w ops : winv w -> later w (run_from w ops).
Proof.
rewrite /run_from; elim: ops w => [|o ops IH] w I /=; first exact: later_refl.
by apply: later_trans (later_step o I) (IH _ (winv_step o I)).
Qed.

Lemma ext_old h h' i : ext h h' -> i \in pids h -> old h h' i.
Proof. by move=> _ H _. Qed.

Lemma later_view w w' m i j : winv w -> winv w' -> later w w' ->
  i \in members w m -> j \in members w m ->
  [/\ i \in members w' m, see_k w' m i j = see_k w m i j & see_m w' m i = see_m w m i].
Proof.
move=> I I' L Hi Hj; have lt : m < w_nm w by move: Hi; rewrite /members; case: ifP.
have lt' := leq_trans lt (t_nm L).
have E := t_log L lt; have W := l_wf (v_log I'.1) lt'.
move: Hi Hj; rewrite !members_log // !mem_rev => Hi Hj.
rewrite !see_k_log // !see_m_log // lt lt' (MA_ext _ E W (ext_old E Hi)).
by rewrite (KA_ext m E W (ext_old E Hi) (ext_old E Hj)).1; split=> //; apply: (ext_pids E).
Qed.

Lemma see_k_members w m i j k : winv w -> see_k w m i j = Some k ->
  (i \in members w m) && (j \in members w m).
Proof.
move=> I; rewrite see_k_log //; case: ifP => // lt E; rewrite members_log // !mem_rev.
by apply: (@KA_pids _ m); rewrite E.
Qed.
Lemma see_m_members w m i k : winv w -> see_m w m i = Some k -> i \in members w m.
Proof.
move=> I; rewrite see_m_log //; case: ifP => // lt E; rewrite members_log // !mem_rev.
by apply: (@MA_pids _ m); rewrite E.
Qed.

Lemma later_values w w' D n : winv w -> winv w' -> later w w' ->
  (forall m i j x y, ole (kernel_at D n w m i j x y) (kernel_at D n w' m i j x y)) /\
  (forall m i x, ole (mean_at D n w m i x) (mean_at D n w' m i x)).
Proof.
move=> I I' L.
have Hk m i j : ole (see_k w m i j) (see_k w' m i j).
  move=> k E; have /andP [Hi Hj] := see_k_members I E.
  by have [_ -> _] := later_view I I' L Hi Hj.
have Hm m i : ole (see_m w m i) (see_m w' m i).
  move=> k E; have Hi := see_m_members I E.
  by have [_ _ ->] := later_view I I' L Hi Hi.
have [H1 [H2 _]] := eval_mono D Hk Hm (leqnn n).
by split=> *; apply: ole_bind => // k _; first [apply: H1 | apply: H2].
Qed.

(* Totality. *)
Definition dsafe (d : pdef) : Prop := if d is DUser _ _ l then forall j, l j <> None else True.
Fixpoint hsafe (h : hist) : Prop :=
  match h with
  | HRoot => True
  | HPost _ par o => hsafe par /\ all (fun p => p \in pids par) (o_pids o)
  | HAdd _ d rest => dsafe d /\ hsafe rest
  end.

Lemma KA_total h : wfh h -> hsafe h -> forall m i j, i \in pids h -> j \in pids h -> KA m h i j.
Proof.
elim: h => [|pm par IH o|p d h IH] //.
  rewrite /= => W [S ob] m i j Hi Hj; rewrite Hi Hj /=; rewrite /post_k.
  have K a b : a \in pids par -> b \in pids par -> exists k, KA pm par a b = Some k.
    by move=> Ha Hb; have := IH W S pm a b Ha Hb; case: (KA pm par a b) => // k _; exists k.
  move: ob; rewrite /o_pids /onk /onm; case: (o_data o) => [d|] /=.
    case/and3P => ob od _; rewrite /post_k2 /= !eqxx.
    have [k1 ->] := K i j Hi Hj; have [k2 ->] := K _ i ob Hi; have [k3 ->] := K _ j ob Hj.
    have [k4 ->] := K _ _ ob od; have [k5 ->] := K _ _ ob ob; have [k6 ->] := K _ _ od od.
    by [].
  rewrite /post_k1 andbT => ob; case: ifP => _ /=; rewrite eqxx; first by have [k ->] := K i j Hi Hj.
  have [k1 ->] := K i j Hi Hj; have [k2 ->] := K _ i ob Hi; have [k3 ->] := K _ j ob Hj.
  by have [k4 ->] := K _ _ ob ob.
rewrite [wfh _]/= => /and3P [pn da W] [Sd S] m i j.
have K a b : a \in pids h -> b \in pids h -> exists k, KA m h a b = Some k.
  by move=> Ha Hb; have := IH W S m a b Ha Hb; case: (KA m h a b) => // k _; exists k.
have arg a : a \in dargs d -> a \in pids h by move/(allP da).
have L b : b \in pids h -> exists k, pint (onk m (KA m h)) (@noM R) (left_of m d b) = Some k.
  move=> Hb; rewrite /onk /onm.
  case: (d) Sd arg => [mu k|mu k l|q|q c|q f|q q'|q c|q f|q t t0|q d'|ps] Sd arg /=; rewrite ?eqxx;
    try by [eexists | (have [k ->] := K q b (arg q (mem_head _ _)) Hb); rewrite /=; eexists].
    by have := Sd b; case: (l b) => // k' _; eexists.
  have [k ->] := K q b (arg q (mem_head _ _)) Hb; rewrite /= ?eqxx.
  have A2 : q' \in pids h by apply: arg; rewrite !inE eqxx orbT.
  by have [k' ->] := K q' b A2 Hb; eexists.
rewrite /= !inE; case: (i =P p) => [-> _|ip /= Hi].
  case: (j =P p) => [-> _|jp /= Hj]; last by rewrite Hj; have [k ->] := L j Hj.
  rewrite /onk /onm.
  case: (d) Sd arg => [mu k|mu k l|q|q c|q f|q q'|q c|q f|q t t0|q d'|ps] Sd arg //=; rewrite ?eqxx;
    try by (have [k ->] := K q q (arg q (mem_head _ _)) (arg q (mem_head _ _))).
  have A1 : q \in pids h by apply: arg; rewrite !inE eqxx.
  have A2 : q' \in pids h by apply: arg; rewrite !inE eqxx orbT.
  have [k1 ->] := K _ _ A1 A1; rewrite /= ?eqxx; have [k2 ->] := K _ _ A2 A2; rewrite /= ?eqxx.
  by have [k3 ->] := K _ _ A1 A2; rewrite /= ?eqxx; have [k4 ->] := K _ _ A2 A1.
case: (j =P p) => [_ _|jp /= Hj]; last by have [k ->] := K i j Hi Hj.
rewrite Hi; have [k E] := L i Hi.
rewrite /onk /onm; case: (d) E arg => [mu k'|mu k' l|q|q c|q f|q q'|q c|q f|q t t0|q d'|ps] E arg //=;
  rewrite ?eqxx.
2: { case: eqP => [e|_]; last by have [k2 ->] := K i q Hi (arg q (mem_head _ _)).
     by case: ip. }
all: by move: E; rewrite /= /onk /onm ?eqxx => E; rewrite ?E.
Qed.

Lemma MA_total h : wfh h -> hsafe h -> forall m i, i \in pids h -> MA m h i.
Proof.
elim: h => [|pm par IH o|p d h IH] //.
  rewrite /= => W [S ob] m i Hi; rewrite Hi /= /post_m.
  have K a b : a \in pids par -> b \in pids par -> exists k, KA pm par a b = Some k.
    by move=> Ha Hb; have := KA_total W S pm Ha Hb; case: (KA pm par a b) => // k _; exists k.
  have M a : a \in pids par -> exists k, MA pm par a = Some k.
    by move=> Ha; have := IH W S pm a Ha; case: (MA pm par a) => // k _; exists k.
  move: ob; rewrite /o_pids /onM /onk /onm; case: (o_data o) => [d|] /=.
    case/and3P => ob od _; rewrite /post_m2 /= !eqxx.
    have [k1 ->] := M i Hi; have [k2 ->] := M _ ob; have [k3 ->] := K _ i ob Hi.
    have [k4 ->] := K _ _ ob od; have [k5 ->] := K _ _ ob ob; have [k6 ->] := K _ _ od od.
    by have [k7 ->] := M _ od.
  rewrite /post_m1 andbT => ob; case: ifP => _ /=; rewrite eqxx; first by have [k ->] := M i Hi.
  have [k1 ->] := M i Hi; have [k2 ->] := M _ ob; have [k3 ->] := K _ i ob Hi.
  by have [k4 ->] := K _ _ ob ob.
rewrite [wfh _]/= => /and3P [pn da W] [Sd S] m i.
have M a : a \in pids h -> exists k, MA m h a = Some k.
  by move=> Ha; have := IH W S m a Ha; case: (MA m h a) => // k _; exists k.
have arg a : a \in dargs d -> a \in pids h by move/(allP da).
rewrite /= inE; case: (i =P p) => [_ _|_ /= Hi]; last exact: IH.
rewrite /onM /onm.
case: (d) arg => [mu k|mu k l|q|q c|q f|q q'|q c|q f|q t t0|q d'|ps] arg //=; rewrite ?eqxx;
  try by (have [k ->] := M q (arg q (mem_head _ _))).
have A2 : q' \in pids h by apply: arg; rewrite !inE eqxx orbT.
by have [k ->] := M q (arg q (mem_head _ _)); rewrite /= ?eqxx; have [k2 ->] := M q' A2.
Qed.

Definition asafe (s : aworld) := forall m, m < a_nm s -> hsafe (a_log s m).

Lemma hsafe_ext (S : pdef -> Prop) h h' : (forall d, S d -> dsafe d) -> extS S h h' -> hsafe h -> hsafe h'.
Proof. by move=> H; elim=> // p d h2 Sd _ IH Hh /=; split; [exact: H | exact: IH]. Qed.

Lemma asafe_step w o : winv w -> op_safe w o -> asafe (abs w) -> asafe (abs (step w o).1).
Proof.
move=> I Os Sf; have [a b c e _] := step_grown o I => m lt.
case: (ltnP m (a_nm (abs w))) => le.
  apply: (hsafe_ext _ (c m le) (Sf m le)) => -[] //= mu k l.
  by case: (o) Os => //= m' mu' k' l' r Ol ->.
case: (e m le lt) => [[_ ->] //|[m0 [ob [eo ->]]]]; rewrite eo /= in Os.
have lt0 : m0 < w_nm w by move: Os => /andP [+ _]; rewrite /members; case: ifP.
split; first exact: Sf.
have Os' : all (fun p => p \in members w m0) (o_pids ob) := Os.
by apply/allP => a0 /(allP Os'); rewrite members_log // mem_rev.
Qed.

Lemma asafe_from w ops : winv w -> asafe (abs w) -> safe w ops -> asafe (abs (run_from w ops)).
Proof.
rewrite /run_from; elim: ops w => //= o ops IH w I Sf [H1 H2].
by apply: IH => //; [exact: winv_step | exact: asafe_step].
Qed.

Lemma asafe0 : asafe (abs world0). Proof. by []. Qed.

Lemma available ops m i j : safe world0 ops ->
  [/\ (see_k (run_ops ops) m i j : bool) =
        (i \in members (run_ops ops) m) && (j \in members (run_ops ops) m) &
      (see_m (run_ops ops) m i : bool) = (i \in members (run_ops ops) m)].
Proof.
move=> S; have I := winv_run ops; have Sf := asafe_from (winv0 R) asafe0 S.
case: (ltnP m (w_nm (run_ops ops))) => lt; last first.
  by rewrite see_k_log // see_m_log // /members ltnNge lt.
have W := l_wf (v_log I.1) lt.
split.
  case E: (see_k _ m i j) => [k|]; first by rewrite (see_k_members I E).
  apply/esym/negP => /andP [Hi Hj]; move: E Hi Hj; rewrite see_k_log // lt members_log // !mem_rev.
  by move=> E Hi Hj; have := KA_total W (Sf m lt) m Hi Hj; rewrite E.
case E: (see_m _ m i) => [k|]; first by rewrite (see_m_members I E).
apply/esym/negP => Hi; move: E Hi; rewrite see_m_log // lt members_log // !mem_rev.
by move=> E Hi; have := MA_total W (Sf m lt) m Hi; rewrite E.
Qed.

(* No operation runs out of fuel. *)
Definition no_oof A (r : out A) : Prop := if r is ROof then False else True.

Lemma noof_bind A B (f : lact R A) (g : A -> lact R B) s :
  no_oof (f s).2 -> (forall v s1, no_oof (g v s1).2) -> no_oof (lbind f g s).2.
Proof. by rewrite /lbind; case: (f s) => s1 [v| |] //= _ H; apply: H. Qed.
Lemma noof_reads A (c : prog R A) s : no_oof (lreads c s).2.
Proof. by rewrite /lreads /=; case: (pint _ _ _). Qed.
Lemma noof_define m p d s : no_oof (ldefine m p d s).2.
Proof. by case: (ldefineP s m p d). Qed.
Lemma noof_mul m res p q s : no_oof (ldefine_mul m res p q s).2.
Proof.
do 6! [apply: noof_bind => [|? ?]; first by [| exact: noof_define]].
do 2! [apply: noof_bind => [|? ?]; first exact: noof_reads].
do 2! [apply: noof_bind => [|? ?]; first by [| exact: noof_define]].
exact: noof_define.
Qed.
Lemma noof_iter A (f : A -> lact R unit) ms s :
  (forall m s, no_oof (f m s).2) -> no_oof (liter f ms s).2.
Proof.
by move=> H; elim: ms s => [|m ms IH] s //=; apply: noof_bind.
Qed.
Lemma noof_exec o s : no_oof (lexec o s).2.
Proof.
have G1 m d : no_oof (lbind (@lnew_gp R) (fun p => lbind (ldefine m p d) (fun _ => lret (RPid R p))) s).2.
  by apply: noof_bind => // v s1; apply: noof_bind => //; apply: noof_define.
have G2 p d : no_oof (lunary p d s).2.
  apply: noof_bind => // v s1; apply: noof_bind => //.
  by apply: noof_iter => m s2; apply: noof_define.
have G3 ps ord f : (forall m res s, no_oof (f m res s).2) -> no_oof (lnary ps ord f s).2.
  move=> H; apply: noof_bind => // v s1; case: ifP => // _; apply: noof_bind => //.
  exact: noof_iter.
case: o => [|m mu k|m mu k l r|m p|p c|p f|p c|p f|p c|p c|p dims|p f|p d|p q ord|p q ord|ps ord|m ob|m i j|m i];
  try by [|apply: G1 | apply: G2].
- by apply: G3 => m res s1; apply: noof_define.
- by apply: G3 => m res s1; apply: noof_mul.
- by apply: G3 => m res s1; apply: noof_define.
- by apply: noof_bind => //; apply: noof_reads.
- by apply: noof_bind => //; apply: noof_reads.
Qed.
Lemma noof_step w o : winv w -> (step w o).2 <> ROof (result R).
Proof.
move=> I; have [_] := matches_step o I; rewrite /lstep; case: ifP => ex; last by move/(congr1 snd) => /= <-.
by move/(congr1 snd) => /= <- E; have := noof_exec o (abs w); rewrite E.
Qed.

End GraphProofs.
