(* Reachable worlds: every operation of the machine (Machine.v) is matched by an operation
   on the log alone, and preserves the invariants of Refine.v. *)
From mathcomp Require Import all_ssreflect all_algebra.
From mathcomp Require Import zify.
From Verif Require Lazy.
From Verif Require Import Graph Machine Refine.
Set Implicit Arguments. Unset Strict Implicit. Unset Printing Implicit Defensive.
Import GRing.Theory.

Section Worlds.
Variable R : fieldType.
Notation kexp := (kexp R). Notation mexp := (mexp R). Notation hist := (hist R).
Notation pdef := (pdef R). Notation world := (world R). Notation heap := (heap R).
Notation prog := (prog R).

(* A world without its heap. *)
Record aworld := AW { a_nm : nat; a_np : nat; a_gm : pid -> seq mid; a_log : mid -> hist }.
Definition abs (w : world) : aworld := AW (w_nm w) (w_np w) (w_gm w) (w_log w).

Record ainv (s : aworld) : Prop := AInv {
  v_log : inv_log (a_nm s) (a_log s);
  v_np : forall m p, m < a_nm s -> p \in pids (a_log s m) -> p < a_np s;
  v_gm : forall p m, (m \in a_gm s p) = (m < a_nm s) && (p \in pids (a_log s m));
  v_un : forall p, uniq (a_gm s p);
  v_ob : forall m pm par o, m < a_nm s -> base (a_log s m) = Some (pm, par, o) ->
         forall a, a \in o_pids o -> a < a_np s }.

Definition winv (w : world) : Prop :=
  ainv (abs w) /\ inv_heap (w_nm w) (w_log w) (w_heap w).

(* [p] has been allocated and nothing has been observed of it. *)
Definition fresh (s : aworld) (p : pid) : Prop :=
  p < a_np s /\
  forall m pm par o, m < a_nm s -> base (a_log s m) = Some (pm, par, o) -> p \notin o_pids o.

Lemma wfh_uniq (h : hist) : wfh h -> uniq (pids h).
Proof. by elim: h => //= p d h IH /and3P [-> _ /IH ->]. Qed.

Fixpoint hdepth (h : hist) : nat :=
  match h with HRoot => 0 | HPost _ par _ => (hdepth par).+1 | HAdd _ _ rest => hdepth rest end.

Lemma hszE (h : hist) : hsz h = (2 * size (pids h) + hdepth h + 1)%N.
Proof. by elim: h => //= [pm par -> o|p d h ->]; lia. Qed.

Lemma hdepth_ext (h h' : hist) : ext h h' -> hdepth h' = hdepth h.
Proof. by elim. Qed.
Lemma hdepth_base (h : hist) : hdepth h = if base h is Some (_, par, _) then (hdepth par).+1 else 0.
Proof. by elim: h. Qed.

Lemma hdepth_le s m : inv_log (a_nm s) (a_log s) -> m < a_nm s -> hdepth (a_log s m) <= m.
Proof.
move=> I; elim/ltn_ind: m => m IH lt; rewrite hdepth_base.
case E: (base _) => [[[pm par] o]|] //; have [lt' E' _] := l_base I lt E.
by rewrite -(hdepth_ext E') ltn_neqAle; have := IH _ lt' (ltn_trans lt' lt); lia.
Qed.

Lemma pids_le s m : ainv s -> m < a_nm s -> size (pids (a_log s m)) <= a_np s.
Proof.
move=> I lt; rewrite -(size_iota 0 (a_np s)); apply: uniq_leq_size.
  by apply: wfh_uniq; apply: (l_wf (v_log I)).
by move=> p /(v_np I lt); rewrite mem_iota.
Qed.

Lemma fuel_enough w m : winv w -> m < w_nm w -> hsz (w_log w m) <= fuel w.
Proof.
move=> [I _] lt; rewrite hszE; have := pids_le I lt; have := hdepth_le (v_log I) lt.
rewrite /fuel /=; lia.
Qed.

(* Reads of the machine deliver what the log determines. *)
Theorem read_k w m i j : winv w -> m < w_nm w ->
  see_k w m i j = KA m (w_log w m) i j.
Proof.
move=> I lt; have [H _] := get_good (v_log I.1) (fuel w).
have := H (w_heap w) m i j lt I.2 (leq_trans (rkk_lt _ _ _) (fuel_enough I lt)).
by case=> _; rewrite /see_k lt /gk /= => ->; case: (KA _ _ _ _).
Qed.

Theorem read_m w m i : winv w -> m < w_nm w -> see_m w m i = MA m (w_log w m) i.
Proof.
move=> I lt; have [_ H] := get_good (v_log I.1) (fuel w).
have := H (w_heap w) m i lt I.2 (leq_trans (rkm_lt _) (fuel_enough I lt)).
by case=> _; rewrite /see_m lt /gm /= => ->; case: (MA _ _ _).
Qed.

(* Actions on the log. *)
Definition lact (A : Type) := aworld -> aworld * out A.
Definition lret A (a : A) : lact A := fun s => (s, ROk a).
Definition lbind A B (c : lact A) (f : A -> lact B) : lact B := fun s =>
  let: (s1, r) := c s in
  match r with ROk a => f a s1 | RErr => (s1, RErr B) | ROof => (s1, ROof B) end.

Definition sk (s : aworld) := fun m i j => KA m (a_log s m) i j.
Definition sm (s : aworld) := fun m i => MA m (a_log s m) i.

Definition lreads A (c : prog A) : lact A := fun s => (s, expect (pint (sk s) (sm s) c)).
Definition lnew_gp : lact pid := fun s =>
  (AW (a_nm s) (a_np s).+1 (a_gm s) (a_log s), ROk (a_np s)).
Definition lnew_measure : lact mid := fun s =>
  (AW (a_nm s).+1 (a_np s) (a_gm s) (log_set (a_log s) (a_nm s) HRoot), ROk (a_nm s)).
Definition ldefine (m : mid) (p : pid) (d : pdef) : lact unit :=
  lbind (lreads (mean_of m d)) (fun _ =>
  lbind (lreads (own_of m d)) (fun _ s =>
    (AW (a_nm s) (a_np s) (gm_add (a_gm s) p m)
        (log_set (a_log s) m (HAdd p d (a_log s m))), ROk tt))).
Fixpoint liter A (f : A -> lact unit) (ms : seq A) : lact unit :=
  match ms with
  | [::] => lret tt
  | m :: ms' => lbind (f m) (fun _ => liter f ms')
  end.
Definition ldefine_mul (m : mid) (res p q : pid) : lact unit :=
  lbind lnew_gp (fun t1 =>
  lbind (ldefine m t1 (DFun q (FMean m p))) (fun _ =>
  lbind lnew_gp (fun t2 =>
  lbind (ldefine m t2 (DFun p (FMean m q))) (fun _ =>
  lbind lnew_gp (fun s =>
  lbind (ldefine m s (DSum t1 t2)) (fun _ =>
  lbind (lreads (let* a := rm R m p in let* b := rm R m q in
                Ret (MMul (MScale (-1)%R a) b))) (fun mu =>
  lbind (lreads (let* a := rk R m p p in let* b := rk R m q q in
                let* c := rk R m p q in let* d := rk R m q p in
                Ret (KAdd (KMul a b) (KMul c d)))) (fun k =>
  lbind lnew_gp (fun t =>
  lbind (ldefine m t (DInd mu k)) (fun _ =>
  ldefine m res (DSum s t))))))))))).

Definition lhome (s : aworld) (p : pid) : option mid := ohead (a_gm s p).
Definition lsame_home (s : aworld) (ps : seq pid) : bool :=
  match ps with
  | [::] => false
  | [:: _] => true
  | p :: ps' => [&& lhome s p & all (fun q => lhome s q == lhome s p) ps']
  end.
Definition lgroup (s : aworld) (ps : seq pid) : seq mid :=
  if ps is p :: ps' then [seq m <- undup (a_gm s p) | all (fun q => m \in a_gm s q) ps'] else [::].

Definition lunary (p : pid) (d : pdef) : lact (result R) :=
  lbind lnew_gp (fun res s =>
    lbind (liter (fun m => ldefine m res d) (a_gm s p)) (fun _ => lret (RPid R res)) s).
Definition lnary (ps : seq pid) (ord : seq mid) (f : mid -> pid -> lact unit) : lact (result R) :=
  lbind lnew_gp (fun res s =>
    if lsame_home s ps then
      lbind (liter (fun m => f m res) (order ord (lgroup s ps))) (fun _ => lret (RPid R res)) s
    else (s, RErr (result R))).
Definition lcondition (m : mid) (o : obs R) : lact (result R) :=
  lbind lnew_measure (fun m' s =>
    (AW (a_nm s) (a_np s)
       (fun p => if p \in rev (pids (a_log s m)) then rcons (a_gm s p) m' else a_gm s p)
       (log_set (a_log s) m' (HPost m (a_log s m) o)), ROk (RMid R m'))).

Definition lexec (o : op R) : lact (result R) :=
  match o with
  | OMeasure => lbind lnew_measure (fun m => lret (RMid R m))
  | OGP m mu k => lbind lnew_gp (fun p => lbind (ldefine m p (DInd mu k)) (fun _ => lret (RPid R p)))
  | OUser m mu k l _ =>
    lbind lnew_gp (fun p => lbind (ldefine m p (DUser mu k l)) (fun _ => lret (RPid R p)))
  | OCopy m p =>
    lbind lnew_gp (fun q => lbind (ldefine m q (DCopy p)) (fun _ => lret (RPid R q)))
  | OAddC p c => lunary p (DAddC p c)
  | OAddF p f => lunary p (DAddF p f)
  | OScale p c => lunary p (DScale p c)
  | OMulF p f => lunary p (DFun p (FUser f))
  | OShift p c => lunary p (DShift p c)
  | OStretch p s => lunary p (DStretch p s)
  | OSelect p dims => lunary p (DSelect R p dims)
  | OTransform p f => lunary p (DTransform p f)
  | ODiff p d => lunary p (DDiff p d)
  | OSum p q ord => lnary [:: p; q] ord (fun m res => ldefine m res (DSum p q))
  | OMul p q ord => lnary [:: p; q] ord (fun m res => ldefine_mul m res p q)
  | OCross ps ord => lnary ps ord (fun m res => ldefine m res (DCross ps))
  | OCond m o => lcondition m o
  | OReadK m p q => lbind (lreads (rk R m p q)) (fun k => lret (RK k))
  | OReadM m p => lbind (lreads (rm R m p)) (fun k => lret (RM k))
  end.

Definition lexists (s : aworld) (o : op R) : bool :=
  all (fun p => p < a_np s) (op_pids o) && all (fun m => m < a_nm s) (op_mids o).
Definition lstep (s : aworld) (o : op R) : aworld * out (result R) :=
  if lexists s o then lexec o s else (s, RErr (result R)).

(* [a] does in the world [w] what [f] does to its log. *)
Definition matches A (a : act R A) (f : lact A) (w : world) : Prop :=
  winv (a w).1 /\ f (abs w) = (abs (a w).1, (a w).2).

Lemma matches_bind A B (a : act R A) f (g : A -> act R B) g' w :
  matches a f w ->
  (forall v w1, winv w1 -> f (abs w) = (abs w1, ROk v) -> matches (g v) (g' v) w1) ->
  matches (abind a g) (lbind f g') w.
Proof.
rewrite /matches /abind /lbind; case: (a w) => w1 [v| |] /= [I E] H; rewrite E //.
exact: H.
Qed.

Lemma matches_ret A (v : A) w : winv w -> matches (@aret R A v) (lret v) w.
Proof. by []. Qed.

Lemma matches_reads A m Pk Pm (c : prog A) w : winv w -> m < w_nm w ->
  only m Pk Pm c -> matches (reads c) (lreads c) w.
Proof.
move=> I lt O; rewrite /matches /reads /lreads.
have [Hk Hm] := get_good (v_log I.1) (fuel w).
have := @run_good _ (w_nm w) (w_log w) A (fuel w) m Pk Pm c (w_heap w) _ _ I.2 O.
case: (run _ _ c _) => h r; case.
- move=> h' i j I' _; apply: Hk => //; exact: leq_trans (rkk_lt _ _ _) (fuel_enough I lt).
- move=> h' i I' _; apply: Hm => //; exact: leq_trans (rkm_lt _) (fuel_enough I lt).
by move=> /= I' ->; split=> //; split=> //; case: I.
Qed.

Lemma matches_new_gp w : winv w -> matches (@new_gp R) lnew_gp w.
Proof.
move=> [[i1 i2 i3 i4 i5] Ih]; split=> //; split=> //; split=> //=.
  by move=> m p lt /(i2 _ _ lt) /leqW.
by move=> m pm par o lt /(i5 _ _ _ _ lt) H a /H /leqW.
Qed.

Lemma ms_new_inv m : inv_ms m HRoot (@ms_new R).
Proof. by split. Qed.

Lemma matches_new_measure w : winv w -> matches (@new_measure R) lnew_measure w.
Proof.
move=> [[[i1 i1'] i2 i3 i4 i5] Ih]; split=> //=.
have L m : m < w_nm w -> log_set (w_log w) (w_nm w) HRoot m = w_log w m.
  by rewrite /log_set; case: eqP => // ->; rewrite ltnn.
have L0 : log_set (w_log w) (w_nm w) (@HRoot R) (w_nm w) = HRoot by rewrite /log_set eqxx.
have C (P : nat -> Prop) : (forall m, m < w_nm w -> P m) -> P (w_nm w) ->
    forall m, m < (w_nm w).+1 -> P m.
  by move=> H H0 m; rewrite ltnS leq_eqVlt => /orP [/eqP ->|/H].
split; first split=> /=.
- split.
  + by apply: C => [m lt|]; [rewrite L //; exact: i1 | rewrite L0].
  + move=> m pm par o lt; move: m lt pm par o; apply: C => [m lt|] pm par o.
      rewrite L // => /(i1' _ _ _ _ lt) [lt' E H]; split=> //.
        by rewrite L //; exact: ltn_trans lt.
      by rewrite L //; exact: ltn_trans lt.
    by rewrite L0.
- by move=> m p lt; move: m lt p; apply: C => [m lt|] p; [rewrite L //; exact: i2 | rewrite L0].
- move=> p m; rewrite i3 /= /log_set; case: eqP => [->|/eqP nm]; first by rewrite ltnn andbF.
  by rewrite (_ : (m < (w_nm w).+1) = (m < w_nm w)) //; lia.
- by [].
- move=> m pm par o lt; move: m lt pm par o; apply: C => [m lt|] pm par o; last by rewrite L0.
  by rewrite L //; exact: i5.
- move=> m lt; move: m lt; apply: C => [m lt|] /=.
    by rewrite L // /hset; case: eqP => [e|_]; [rewrite e ltnn in lt|exact: Ih].
  by rewrite L0 /hset eqxx; exact: ms_new_inv.
Qed.

(* Adding a process. *)
Definition dpre (s : aworld) (m : mid) (p : pid) (d : pdef) : Prop :=
  [/\ m < a_nm s, fresh s p, p \notin pids (a_log s m) &
      if d is DCross ps then {subset ps <= pids (a_log s m)} else True].

Lemma mean_args s m d : (if d is DCross ps then {subset ps <= pids (a_log s m)} else True) ->
  pint (sk s) (sm s) (mean_of m d) -> {subset dargs d <= pids (a_log s m)}.
Proof.
case: d => [mu k|mu k l|p|p c|p f|p q|p c|p f|p t t0|p d|ps] /=; rewrite /sm => cr.
all: try by [].
all: try by (case E: (MA m _ p) => //= _ q; rewrite inE => /eqP ->; apply: (MA_pids (m := m)); rewrite E).
case E: (MA m _ p) => //=; case E': (MA m _ q) => //= _ a.
by rewrite !inE => /orP [] /eqP ->; [apply: (MA_pids (m := m)); rewrite E | apply: (MA_pids (m := m)); rewrite E'].
Qed.

Definition added (s : aworld) (m : mid) (p : pid) (d : pdef) : aworld :=
  AW (a_nm s) (a_np s) (gm_add (a_gm s) p m) (log_set (a_log s) m (HAdd p d (a_log s m))).

Lemma ainv_added s m p d : ainv s -> dpre s m p d -> {subset dargs d <= pids (a_log s m)} ->
  ainv (added s m p d).
Proof.
move=> [[i1 i1'] i2 i3 i4 i5] [lt [lp fr] pn _] da.
have W : wfh (HAdd p d (a_log s m)).
  by rewrite /= pn i1 // andbT; apply/allP.
have B m' : base (log_set (a_log s) m (HAdd p d (a_log s m)) m') = base (a_log s m').
  by rewrite /log_set; case: eqP => [->|].
have X m' : ext (a_log s m') (log_set (a_log s) m (HAdd p d (a_log s m)) m').
  by rewrite /log_set; case: eqP => [->|_]; repeat constructor.
have Xt h m' : ext h (a_log s m') -> ext h (log_set (a_log s) m (HAdd p d (a_log s m)) m').
  by rewrite /log_set; case: eqP => [->|_] //; constructor.
split=> /=.
- split.
  + by move=> m' lt'; rewrite /log_set; case: eqP => // _; apply: i1.
  + move=> m' pm par o lt'; rewrite B => E; have [a b c] := i1' _ _ _ _ lt' E.
    split=> //; first exact: Xt.
    move=> q Hq; rewrite /log_set; case: eqP => [e|_]; last exact: c.
    rewrite /= inE => /orP [/eqP e'|]; last by rewrite -e; apply: c.
    by move: (fr _ _ _ _ lt' E); rewrite -e' Hq.
- move=> m' q lt'; rewrite /log_set; case: eqP => [e|_]; last exact: i2.
  by rewrite inE => /orP [/eqP -> //|]; exact: i2.
- move=> q m'; rewrite /gm_add /log_set; case: (q =P p) => [->|qp].
    rewrite mem_rcons inE i3; case: eqP => [->|_] //=.
    by rewrite inE eqxx lt.
  rewrite i3; case: eqP => [->|_] //=; rewrite inE; by case: eqP.
- move=> q; rewrite /gm_add; case: eqP => [->|_] //; rewrite rcons_uniq i4 andbT.
  by rewrite i3 negb_and pn orbT.
- by move=> m' pm par o lt'; rewrite B => /(i5 _ _ _ _ lt').
Qed.

Lemma fresh_added s m p d q : fresh s q -> fresh (added s m p d) q.
Proof.
case=> lt H; split=> //= m' pm par o lt'; rewrite /log_set; case: eqP => [e|_] /=.
  by subst m'; apply: H.
exact: H.
Qed.

Lemma KA_added s m p d m' i j : p \notin pids (a_log s m) -> i <> p -> j <> p ->
  sk (added s m p d) m' i j = sk s m' i j.
Proof.
move=> pn ip jp; rewrite /sk /= /log_set; case: (m' =P m) => [->|_] //=.
by move/eqP/negbTE: ip => ->; move/eqP/negbTE: jp => ->.
Qed.

Lemma install_inv w m p d mu k :
  winv w -> dpre (abs w) m p d -> {subset dargs d <= pids (w_log w m)} ->
  pint (sk (abs w)) (sm (abs w)) (mean_of m d) = Some mu ->
  pint (sk (abs w)) (sm (abs w)) (own_of m d) = Some k ->
  inv_ms m (HAdd p d (w_log w m)) (install (w_heap w m) m p d mu k).
Proof.
move=> [Ia Ih] [lt _ pn _] da Em Ek; have [j1 j2 j3 j4 j5 [j6 j6'] j7 j8] := Ih m lt.
have Em' : MA m (HAdd p d (w_log w m)) p = Some mu.
  rewrite /= eqxx -Em; apply: (pint_ext (only_mean _ _)) => // a aa.
  by rewrite /onM /onm eqxx.
have Ek' : KA m (HAdd p d (w_log w m)) p p = Some k.
  rewrite /= eqxx -Ek; apply: (pint_ext (only_own _ _)) => // a b [aa bb].
  by rewrite /onk /onm eqxx.
have N i : i \in pids (w_log w m) -> (i == p) = false.
  by move=> ii; apply/eqP => e; rewrite -e ii in pn.
split=> //=.
- by rewrite j1 rev_cons.
- by rewrite j2 j1.
- by rewrite j3 j1.
- split=> /=.
  + move=> i j k'; rewrite /upd2; case: ifP => [/andP [/eqP -> /eqP ->] [<-]//|_] E.
    have E2 := j6 _ _ _ E.
    have /andP [ii jj] : (i \in pids (w_log w m)) && (j \in pids (w_log w m)).
      by apply: (KA_pids (m := m)); rewrite E2.
    by rewrite (N _ ii) (N _ jj).
  + move=> i k'; rewrite /upd1; case: (i =P p) => [_ [<-]|_ E]; first by move: Em'; rewrite /= eqxx.
    have E2 := j6' _ _ E.
    exact: E2.
- move=> i; rewrite inE /upd2 => /orP [/eqP ->|ii]; first by rewrite !eqxx.
  by case: ifP => // _; apply: j7.
- move=> i; rewrite inE /upd1 => /orP [/eqP ->|ii]; first by rewrite !eqxx.
  by case: ifP => // _; apply: j8.
Qed.

Lemma matches_define w m p d : winv w -> dpre (abs w) m p d ->
  matches (define m p d) (ldefine m p d) w.
Proof.
move=> I H; have [lt Fr pn cr] := H.
apply: matches_bind; first exact: (matches_reads I lt (only_mean _ _)).
move=> mu w1 I1; rewrite {1}/lreads; case: w1 I1 => h1 nm1 np1 gm1 l1 I1 [e1 e2 e3 e4 Em].
rewrite /= in e1 e2 e3 e4; subst nm1 np1 gm1 l1.
have Em' : pint (sk (abs w)) (sm (abs w)) (mean_of m d) = Some mu.
  by move: Em; case: (pint _ _ _) => //= a [->].
apply: matches_bind; first exact: (matches_reads I1 lt (only_own _ _)).
move=> k w2 I2; rewrite {1}/lreads; case: w2 I2 => h2 nm2 np2 gm2 l2 I2 [e1 e2 e3 e4 Ek].
rewrite /= in e1 e2 e3 e4; subst nm2 np2 gm2 l2.
have Ek' : pint (sk (abs w)) (sm (abs w)) (own_of m d) = Some k.
  by move: Ek; rewrite /sk /sm /=; case: (pint _ _ _) => //= a [->].
split=> //=.
have da : {subset dargs d <= pids (w_log w m)}.
  by apply: (mean_args (s := abs w) (m := m) cr); rewrite Em'.
split; first exact: (ainv_added I.1 H da).
move=> m' lt'; rewrite /= /hset /log_set; case: eqP => [->|_]; last by apply: I2.2.
exact: (install_inv I2).
Qed.

(* What an action that adds processes to measure [m] leaves alone. *)
Definition frame (m : mid) (s s1 : aworld) : Prop :=
  [/\ a_nm s1 = a_nm s, a_np s <= a_np s1, forall m', m' <> m -> a_log s1 m' = a_log s m' &
      ext (a_log s m) (a_log s1 m)].

Lemma ext_trans (h1 h2 h3 : hist) : ext h1 h2 -> ext h2 h3 -> ext h1 h3.
Proof. by move=> E; elim=> // p d h _ IH; constructor. Qed.

Lemma frame_refl m s : frame m s s.
Proof. by split=> //; constructor. Qed.
Lemma frame_trans m s1 s2 s3 : frame m s1 s2 -> frame m s2 s3 -> frame m s1 s3.
Proof.
move=> [a1 a2 a3 a4] [b1 b2 b3 b4]; split; first by rewrite b1.
- exact: leq_trans b2.
- by move=> m' ne; rewrite b3 // a3.
- exact: ext_trans b4.
Qed.
Lemma frame_fresh m s s1 p : frame m s s1 -> fresh s p -> fresh s1 p.
Proof.
move=> [a1 a2 a3 a4] [b1 b2]; split; first exact: leq_trans a2.
move=> m' pm par o; rewrite a1 => lt; case: (m' =P m) => [e|ne].
  by subst m'; rewrite (ext_base a4); apply: b2.
by rewrite a3 //; apply: b2.
Qed.

Lemma frame_bind m A B (f : lact A) (g : A -> lact B) s :
  frame m s (f s).1 -> (forall v s1, frame m s1 (g v s1).1) -> frame m s (lbind f g s).1.
Proof.
rewrite /lbind; case: (f s) => s1 [v| |] //= F G; exact: frame_trans (G v s1).
Qed.
Lemma frame_new_gp m s : frame m s (lnew_gp s).1.
Proof. by split=> //=; constructor. Qed.
Lemma frame_added m p d s : frame m s (added s m p d).
Proof.
split=> //=; first by move=> m' /eqP/negbTE ne; rewrite /log_set ne.
by rewrite /log_set eqxx; repeat constructor.
Qed.
Lemma frame_define m p d s : frame m s (ldefine m p d s).1.
Proof.
apply: frame_bind => [|mu s1]; first exact: frame_refl.
apply: frame_bind => [|k s2]; first exact: frame_refl.
exact: frame_added.
Qed.
Lemma frame_mul m res p q s : frame m s (ldefine_mul m res p q s).1.
Proof.
do 6! [apply: frame_bind => [|? ?]; first by [exact: frame_new_gp | exact: frame_define]].
do 2! [apply: frame_bind => [|? ?]; first exact: frame_refl].
do 2! [apply: frame_bind => [|? ?]; first by [exact: frame_new_gp | exact: frame_define]].
exact: frame_define.
Qed.

(* Outcomes of [ldefine]. *)
Variant define_spec s m p d : aworld * out unit -> Type :=
| DefOk mu k of pint (sk s) (sm s) (mean_of m d) = Some mu
             & pint (sk s) (sm s) (own_of m d) = Some k :
    define_spec s m p d (added s m p d, ROk tt)
| DefErr : define_spec s m p d (s, RErr unit).

Lemma ldefineP s m p d : define_spec s m p d (ldefine m p d s).
Proof.
rewrite /ldefine /lbind /lreads.
case Em: (pint _ _ (mean_of m d)) => [mu|] /=; last by constructor.
case Ek: (pint _ _ (own_of m d)) => [k|] /=; last by constructor.
exact: DefOk Em Ek.
Qed.

Lemma new_gp_fresh w w1 v : winv w -> lnew_gp (abs w) = (abs w1, ROk v) ->
  [/\ v = w_np w, fresh (abs w1) v, forall m, m < w_nm w1 -> v \notin pids (w_log w1 m) &
      w_nm w1 = w_nm w] /\
  abs w1 = AW (w_nm w) (w_np w).+1 (w_gm w) (w_log w).
Proof.
case: w1 => h1 nm1 np1 gm1 l1 [[i1 i2 i3 i4 i5] _]; rewrite /lnew_gp /abs /=.
case=> <- <- <- <- <-; do 2! split=> //.
  by split=> //= m pm par o lt E; apply/negP => /(i5 _ _ _ _ lt E) /=; rewrite ltnn.
by move=> m lt; apply/negP => /(i2 _ _ lt) /=; rewrite ltnn.
Qed.

Definition can (s : aworld) (m : mid) (p : pid) : Prop :=
  [/\ m < a_nm s, fresh s p & p \notin pids (a_log s m)].

Lemma can_added s m p q d : can s m p -> q <> p -> can (added s m q d) m p.
Proof.
move=> [a b c] ne; split=> //=; first exact: fresh_added.
by rewrite /log_set eqxx /= inE negb_or c andbT; apply/eqP => e; apply: ne.
Qed.

Lemma matches_mul w m res p q : winv w -> can (abs w) m res ->
  matches (define_mul m res p q) (ldefine_mul m res p q) w.
Proof.
move=> I C.
(* one allocation followed by a definition of the new process *)
have alloc A (g : pid -> act R A) g' w0 d :
    (forall mu, (if d is DCross ps then ps = mu else True) -> True) ->
    (if d is DCross _ then False else True) ->
    winv w0 -> can (abs w0) m res ->
    (forall t w1, winv w1 -> can (abs w1) m res -> matches (g t) (g' t) w1) ->
    matches (abind (@new_gp R) (fun t => abind (define m t d) (fun _ => g t)))
            (lbind lnew_gp (fun t => lbind (ldefine m t d) (fun _ => g' t))) w0.
  move=> _ nc I0 [lt Fr pn] H.
  apply: matches_bind; first exact: matches_new_gp.
  move=> t w1 I1 E1; have [[et Ft tn enm] eabs] := new_gp_fresh I0 E1.
  have C1 : can (abs w1) m res.
    by rewrite eabs; split=> //; case: Fr => a b; split=> //=; exact: ltnW.
  have P1 : dpre (abs w1) m t d.
    by split; [case: C1 | exact: Ft | apply: tn; case: C1 | case: (d) nc].
  apply: matches_bind; first exact: matches_define.
  move=> [] w2 I2; case: ldefineP => [mu k Em Ek /(congr1 fst) /= E2|[]] //; apply: H => //.
  by rewrite -E2; apply: can_added => // e; case: Fr => /=; rewrite -e et ltnn.
apply: (alloc) => // t1 w1 I1 C1.
apply: (alloc) => // t2 w2 I2 C2.
apply: (alloc) => // t3 w3 I3 C3.
have lt3 : m < w_nm w3 by case: C3.
apply: matches_bind.
  apply: (matches_reads I3 lt3 (m := m) (Pk := fun _ _ => False) (Pm := fun _ => True)); by [].
move=> mu w4 I4 E4; have C4 : can (abs w4) m res by move/(congr1 fst): E4 => /= <-.
have lt4 : m < w_nm w4 by case: C4.
apply: matches_bind.
  apply: (matches_reads I4 lt4 (m := m) (Pk := fun _ _ => True) (Pm := fun _ => False)); by [].
move=> k w5 I5 E5; have C5 : can (abs w5) m res by move/(congr1 fst): E5 => /= <-.
apply: (alloc) => // t w6 I6 [c1 c2 c3].
exact: matches_define.
Qed.

Lemma matches_iter (body : mid -> act R unit) lbody (J : aworld -> seq mid -> Prop) :
  (forall w m ms, winv w -> J (abs w) (m :: ms) ->
     matches (body m) (lbody m) w /\
     forall w1, winv w1 -> lbody m (abs w) = (abs w1, ROk tt) -> J (abs w1) ms) ->
  forall ms w, winv w -> J (abs w) ms -> matches (aiter body ms) (liter lbody ms) w.
Proof.
move=> H; elim=> [|m ms IH] w I Jw /=; first by [].
have [M N] := H w m ms I Jw; apply: matches_bind => // -[] w1 I1 E1.
by apply: IH => //; apply: N.
Qed.

Definition jdef (res : pid) (ps : seq pid) (s : aworld) (ms : seq mid) : Prop :=
  [/\ fresh s res, uniq ms & forall m, m \in ms ->
     [/\ m < a_nm s, res \notin pids (a_log s m) & {subset ps <= pids (a_log s m)}]].

Lemma jdef_frame res ps s s1 m ms : jdef res ps s (m :: ms) -> frame m s s1 -> jdef res ps s1 ms.
Proof.
move=> [Fr /= /andP [mn un] H] F; split=> //; first exact: (frame_fresh F Fr).
move=> m' mm; have ne : m' <> m by move=> e; rewrite -e mm in mn.
case: F => e1 _ e2 _; rewrite e1 e2 //; apply: H; by rewrite inE mm orbT.
Qed.

Lemma matches_iter_define res d ms w : winv w ->
  jdef res (if d is DCross ps then ps else [::]) (abs w) ms ->
  matches (aiter (fun m => define m res d) ms) (liter (fun m => ldefine m res d) ms) w.
Proof.
apply: (@matches_iter _ _ (jdef res (if d is DCross ps then ps else [::]))) => {ms w} w m ms I J; split.
  case: J => Fr _ /(_ m (mem_head _ _)) [a b c]; apply: matches_define => //; split=> //.
  by case: (d) c.
by move=> w1 I1 E; apply: (jdef_frame J); have := frame_define m res d (abs w); rewrite E.
Qed.
Lemma matches_iter_mul res p q ms w : winv w -> jdef res [::] (abs w) ms ->
  matches (aiter (fun m => define_mul m res p q) ms) (liter (fun m => ldefine_mul m res p q) ms) w.
Proof.
apply: (@matches_iter _ _ (jdef res [::])) => {ms w} w m ms I J; split.
  by case: J => Fr _ /(_ m (mem_head _ _)) [a b c]; apply: matches_mul.
by move=> w1 I1 E; apply: (jdef_frame J); have := frame_mul m res p q (abs w); rewrite E.
Qed.

Lemma matches_unary p d w : winv w -> (if d is DCross _ then False else True) ->
  matches (unary p d) (lunary p d) w.
Proof.
move=> I nc; apply: matches_bind; first exact: matches_new_gp.
move=> res w1 I1 E1; have [[et Ft tn enm] eabs] := new_gp_fresh I E1.
apply: matches_bind; last by move=> v w2 I2 _; exact: matches_ret.
apply: matches_iter_define => //; split=> //; first exact: (v_un I1.1).
move=> m; rewrite (v_gm I1.1) => /andP [a b]; split=> //; first exact: tn.
by case: (d) nc.
Qed.

Lemma order_perm ord g : perm_eq (order ord g) g.
Proof. by rewrite /order; case: ifP. Qed.

Lemma lgroupP s ps m : ainv s -> ps != [::] ->
  (m \in lgroup s ps) = (m < a_nm s) && all (fun p => p \in pids (a_log s m)) ps.
Proof.
move=> I; case: ps => // p ps _; rewrite /lgroup mem_filter mem_undup (v_gm I) /=.
rewrite andbC -andbA; case: (ltnP m (a_nm s)) => //= lt; congr (_ && _).
by apply: eq_all => q; rewrite (v_gm I) lt.
Qed.
Lemma lgroup_uniq s ps : uniq (lgroup s ps).
Proof. by case: ps => //= p ps; rewrite filter_uniq // undup_uniq. Qed.

Lemma jdef_order s res ps ord : ainv s -> fresh s res ->
  (forall m, m < a_nm s -> res \notin pids (a_log s m)) ->
  jdef res ps s (order ord (lgroup s ps)).
Proof.
move=> I Fr tn; split=> //; first by rewrite (perm_uniq (order_perm _ _)) lgroup_uniq.
move=> m; rewrite (perm_mem (order_perm _ _)); case: ps => [|p ps] //.
rewrite lgroupP // => /andP [lt H]; split=> //; first exact: tn.
by move=> q; move/allP: H; apply.
Qed.

Lemma lsame_homeE w ps : lsame_home (abs w) ps = same_home1 w ps.
Proof. by case: ps => [|p [|q ps]]. Qed.

Lemma matches_nary ps ord f f' w : winv w ->
  (forall res w1, winv w1 -> jdef res ps (abs w1) (order ord (lgroup (abs w1) ps)) ->
    matches (aiter (fun m => f m res) (order ord (lgroup (abs w1) ps)))
            (liter (fun m => f' m res) (order ord (lgroup (abs w1) ps))) w1) ->
  matches (nary ps ord f) (lnary ps ord f') w.
Proof.
move=> I H; apply: matches_bind; first exact: matches_new_gp.
move=> res w1 I1 E1; have [[et Ft tn enm] eabs] := new_gp_fresh I E1.
rewrite /matches lsame_homeE; case: ifP => _ //.
apply: matches_bind; last by move=> v w2 I2 _; exact: matches_ret.
by apply: H => //; apply: jdef_order => //; case: I1.
Qed.

Lemma matches_condition m o w : winv w -> m < w_nm w -> (forall a, a \in o_pids o -> a < w_np w) ->
  matches (condition m o) (lcondition m o) w.
Proof.
move=> I lt lo; apply: matches_bind; first exact: matches_new_measure.
move=> m' w1 I1 E1; case: w1 I1 E1 => h1 nm1 np1 gm1 l1 I1; rewrite /lnew_measure /abs /=.
case=> e1 e2 e3 e4 e5; subst nm1 np1 gm1 l1 m'; set l1 := log_set _ _ _ in I1 *.
have [[[i1 i1'] i2 i3 i4 i5] Ih] := I1; rewrite /= in i1 i1' i2 i3 i4 i5 Ih.
have nm' : m <> w_nm w by move=> e; rewrite e ltnn in lt.
have ltm : m < (w_nm w).+1 by exact: leqW.
have P1 := i_ps (Ih m ltm).
split; last by rewrite /abs /= P1.
set l2 := log_set l1 (w_nm w) _.
have L a : a <> w_nm w -> l2 a = l1 a by rewrite /l2 /log_set => /eqP/negbTE ->.
have L2 : l2 (w_nm w) = HPost m (l1 m) o by rewrite /l2 /log_set eqxx.
have L1 : l1 (w_nm w) = HRoot by rewrite /l1 /log_set eqxx.
have lts a pm par o' : a < (w_nm w).+1 -> base (l1 a) = Some (pm, par, o') -> pm <> w_nm w.
  by move=> la /(i1' _ _ _ _ la) [lp _ _] e; rewrite e ltnNge -ltnS la in lp.
split=> /=; last first.
  move=> a la /=; rewrite /hset; case: (a =P w_nm w) => [->|ne]; last by rewrite L //; apply: Ih.
  rewrite L2; split=> //=.
  + by rewrite P1.
  + by rewrite P1.
split=> /=.
- split.
  + move=> a la; case: (a =P w_nm w) => [->|ne]; last by rewrite L //; apply: i1.
    by rewrite L2 /=; apply: i1.
  + move=> a pm par o' la; case: (a =P w_nm w) => [->|ne].
      by rewrite L2 /= => -[<- <- <-]; rewrite L //; split=> //; constructor.
    rewrite L // => E; have [c1 c2 c3] := i1' _ _ _ _ la E.
    by rewrite L //; exact: lts E.
- move=> a p la; case: (a =P w_nm w) => [->|ne]; last by rewrite L //; exact: i2.
  by rewrite L2 /=; exact: i2.
- move=> p a; rewrite P1 mem_rev; case: (a =P w_nm w) => [->|ne].
    rewrite L2 /= ltnSn /=; case: ifP => pp; first by rewrite mem_rcons inE eqxx.
    by rewrite i3 L1 /= andbF.
  rewrite L //; case: ifP => pp; last exact: i3.
  by rewrite mem_rcons inE i3; move/eqP/negbTE: ne => ->.
- move=> p; rewrite P1 mem_rev; case: ifP => pp //.
  by rewrite rcons_uniq i4 andbT i3 L1 /= andbF.
- move=> a pm par o' la; case: (a =P w_nm w) => [->|ne]; last by rewrite L //; exact: i5.
  by rewrite L2 /= => -[_ _ <-].
Qed.

Lemma lexistsE w o : lexists (abs w) o = op_exists w o.
Proof. by []. Qed.

Lemma matches_exec o w : winv w -> op_exists w o -> matches (exec o) (lexec o) w.
Proof.
move=> I; rewrite /op_exists => /andP [lp lm].
have ind d m (lt : m < w_nm w) : (if d is DCross _ then False else True) ->
  matches (abind (@new_gp R) (fun p => abind (define m p d) (fun _ => aret (RPid R p))))
    (lbind lnew_gp (fun p => lbind (ldefine m p d) (fun _ => lret (RPid R p)))) w.
  move=> nc; apply: matches_bind; first exact: matches_new_gp.
  move=> res w1 I1 E1; have [[et Ft tn enm] eabs] := new_gp_fresh I E1.
  apply: matches_bind; last by move=> v w2 I2 _; exact: matches_ret.
  have lt1 : m < w_nm w1 by rewrite enm.
  by apply: matches_define => //; split=> //; [exact: tn | case: (d) nc].
case: o lp lm => [|m mu k|m mu k l r|m p|p c|p f|p c|p f|p c|p s|p dims|p f|p d|p q ord|p q ord|ps ord|m o|m p q|m p] /= lp lm.
all: try by apply: matches_unary.
- by apply: matches_bind; [exact: matches_new_measure|move=> v w1 I1 _; exact: matches_ret].
- by apply: ind => //; case/andP: lm.
- by apply: ind => //; case/andP: lm.
- by apply: ind => //; case/andP: lm.
- apply: matches_nary => // res w1 I1 J; apply: matches_iter_define => //=.
  by case: J => a b c; split=> // m /c [].
- apply: matches_nary => // res w1 I1 J; apply: matches_iter_mul => //=.
  by case: J => a b c; split=> // m /c [].
- by apply: matches_nary => // res w1 I1 J; apply: matches_iter_define.
- by apply: matches_condition => //; [case/andP: lm | apply/allP].
- apply: matches_bind; last by move=> v w1 I1 _; exact: matches_ret.
  by case/andP: lm => lm _; apply: (matches_reads I lm (Pk := fun _ _ => True) (Pm := fun _ => True)).
- apply: matches_bind; last by move=> v w1 I1 _; exact: matches_ret.
  by case/andP: lm => lm _; apply: (matches_reads I lm (Pk := fun _ _ => True) (Pm := fun _ => True)).
Qed.

Lemma matches_step w o : winv w -> matches (fun w => step w o) (fun s => lstep s o) w.
Proof.
by move=> I; rewrite /matches /step /lstep lexistsE; case: ifP => // H; apply: matches_exec.
Qed.

Lemma winv0 : winv world0.
Proof. by split; [split=> //; split | ]. Qed.

Theorem winv_run ops : winv (run_ops ops).
Proof.
rewrite /run_ops; move: (@world0 R) winv0 => w; elim: ops w => //= o ops IH w I.
by apply: IH; have [] := matches_step o I.
Qed.

End Worlds.
