From mathcomp Require Import all_ssreflect all_algebra.
From Verif Require Import Graph Machine Refine GraphSpec GraphProofs GraphOps GraphFacts Worlds Api ApiSpec ApiFacts.
From Verif Require Naming NamingProofs.
Set Implicit Arguments. Unset Strict Implicit. Unset Printing Implicit Defensive.

Section P.
Variables (R : fieldType) (N : eqType) (truthy : pred N).
Notation core := (core R N). Notation state := (state R N). Notation world := (world R).
Implicit Types (q : stmt R N) (c : core) (s : state) (m : mid) (p : pid) (n : N).
Notation do_cmd := (@do_cmd R N truthy). Notation exec := (@exec R N truthy).
Notation scoped := (@scoped R N truthy).

Lemma nm_runs (w w' : world) : winv w -> runs w w' -> (w_nm w <= w_nm w')%N.
Proof.
move=> I [ops ->]; elim: ops w I => [|o ops IH] w I //=.
apply: leq_trans (t_nm (later_step o I)) _; apply: IH; exact: winv_step.
Qed.

(* C09 *)
Definition fits (scope : seq mid) s :=
  [/\ winv (c_w (s_core s)), s_default s = ohead scope & all (fun m => m < w_nm (c_w (s_core s)))%N scope].
Definition agrees (scope : seq mid) s (r : state * bool) (r' : core * bool * bool) : Prop :=
  let: (s', e') := r in let: (c', e, ok) := r' in
  ok -> [/\ s_core s' = c', e' = e, s_default s' = s_default s &
            forall m, m \in scope -> s_prev s' m = s_prev s m].

Lemma fits_exec scope s q : fits scope s -> s_default (exec q s).1 = s_default s -> fits scope (exec q s).1.
Proof.
move=> [I d A] e; have r := @runs_exec R N truthy q s; have I' := winv_runs I r; split=> //; first by rewrite e.
by apply: sub_all A => m lt; apply: leq_trans lt (nm_runs I r).
Qed.

Lemma agrees_trans scope s s1 r r' : s_default s1 = s_default s ->
  (forall m, m \in scope -> s_prev s1 m = s_prev s m) -> agrees scope s1 r r' -> agrees scope s r r'.
Proof.
case: r => s' e'; case: r' => [[c' e] ok] /= d P H /H [-> -> -> P']; split=> // m lm.
by rewrite P' // P.
Qed.

Lemma agrees_ok scope s s' e' c' e ok ok' : agrees scope s (s', e') (c', e, ok) ->
  agrees scope s (s', e') (c', e, ok && ok').
Proof. by move=> H /andP [] /H. Qed.

Lemma exec_scoped q scope s : fits scope s -> agrees scope s (exec q s) (scoped q scope (s_core s)).
Proof.
elim: q scope s => [|q1 IH1 q2 IH2|x f|x a|b q1 IH1 q2 IH2|k q IH|f q IH||q IH h IHh] scope s F //=.
- have H := IH1 scope s F; have F1 := @fits_exec scope s q1 F.
  case: (exec q1 s) H F1 => s1 e1 /=; case: (scoped q1 scope (s_core s)) => [[c1 e1'] ok] /= H F1.
  case: ok H => [/(_ isT) [<- <- d P]|_]; last by case: e1'; [|case: (scoped q2 _ _) => [[? ?] ?]]; case: (if _ then _ else _).
  case: e1 => //; have H2 := IH2 scope s1 (F1 d).
  by have := agrees_trans d P H2; case: (scoped q2 _ _) => [[c2 e2] ok2].
- have [I d A] := F; rewrite /call_in d; case: (do_cmd _ _ _) => c [v|] /= _; split=> // m lm;
    rewrite /fresh_from leqNgt; by move/allP: A => /(_ m lm) ->.
- by case: ifP => _; [apply: IH1|apply: IH2].
- move: (k _) => {}k; elim: k s F => //= k IHk s F.
  have H := IH scope s F; have F1 := @fits_exec scope s q F.
  case: (exec q s) H F1 => s1 e1 /=; case: (scoped q scope (s_core s)) => [[c1 e1'] ok] /= H F1.
  case: ok H => [/(_ isT) [<- <- d P]|_]; last by case: e1'; [|case: (repeat _ _ _) => [[? ?] ?]]; case: (if _ then _ else _).
  case: e1 => //; have H2 := IHk s1 (F1 d).
  by have := agrees_trans d P H2; case: (repeat _ _ _) => [[c2 e2] ok2].
- case: ifP => // lm; set m := f _ in lm *.
  have [I d A] := F; have F' : fits (m :: scope) (enter s m) by split=> //=; rewrite lm.
  have := IH (m :: scope) (enter s m) F'; case: (exec q _) => s1 e1 /=.
  case: (scoped q _ _) => [[c1 e1'] ok] /= H /andP [/H [-> -> d1 P1] nm]; split=> //.
    by rewrite P1 ?mem_head // eqxx.
  move=> m' lm'; rewrite P1 ?inE ?lm' ?orbT //; case: eqP => // e.
  by rewrite -e lm' in nm.
have H := IH scope s F; have F1 := @fits_exec scope s q F.
case: (exec q s) H F1 => s1 e1 /=; case: (scoped q scope (s_core s)) => [[c1 e1'] ok] /= H F1.
case: ok H => [/(_ isT) [<- <- d P]|_]; last by case: e1'; [case: (scoped h _ _) => [[? ?] ?]|]; case: (if _ then _ else _).
case: e1 => //; have H2 := IHh scope s1 (F1 d).
by have := agrees_trans d P H2; case: (scoped h _ _) => [[c2 e2] ok2].
Qed.

Lemma programs_nest q : let: (c', e, ok) := scoped q [::] (core0 R N) in ok ->
  let: (s', e') := exec q (state0 R N) in [/\ s_core s' = c', e' = e & s_default s' = None].
Proof.
have F : fits [::] (state0 R N) by split=> //; exact: winv0.
have := exec_scoped q F; rewrite /agrees /=; case: (exec _ _) => s' e'.
by case: (scoped _ _ _) => [[c' e] ok] H /H [].
Qed.

(* States of programs: an invariant, names belong to processes that exist. *)
Definition known c := forall m n p, named c m n = Some p -> (p < w_np (c_w c))%N.
Definition inv c := [/\ winv (c_w c), good c, clean c & known c].

Lemma np_runs (w w' : world) : winv w -> runs w w' -> (w_np w <= w_np w')%N.
Proof. by move=> I [ops ->]; apply: t_np (later_from ops I). Qed.

Lemma inv_op (o : op R) c : inv c -> inv (do_op o c).1.
Proof.
move=> [I G C K]; have r := runs_op o c; split.
- exact: winv_runs r.
- exact: good_op.
- move=> m; rewrite (names_op o c) => le; case: ltnP => // lt.
  by have := leq_trans (leq_trans lt (nm_runs I r)) le; rewrite ltnn.
move=> m n p; rewrite /named (names_op o c); case: ifP => // _ /K lt.
exact: leq_trans lt (np_runs I r).
Qed.

Lemma inv_name m p n c : inv c -> (m < w_nm (c_w c))%N -> (p < w_np (c_w c))%N -> inv (do_name m p n c).1.
Proof.
move=> [I G C K] lm lp; have := do_name_spec m p n G; have G1 := good_name m p n G; have e := do_name_w m p n c.
case E: (do_name m p n c) G1 e => [c1 ok] /= G1 e [H1 H2 H3 H4 H5]; split; rewrite ?e //.
  move=> m'; rewrite e => le; rewrite H4; first exact: C.
  by move=> em; rewrite em leqNgt lm in le.
move=> m' n' t Hn; rewrite e; case: (t =P p) => [->//|nt].
case: (m' =P m) => [em|ne]; last by move: Hn; rewrite /named H4 //; apply: K.
by rewrite em in Hn; move: Hn; rewrite /named => /G1 /(H3 _ _ nt) /G /K.
Qed.

Lemma inv_names ms p n c : inv c -> {subset ms <= gtn (w_nm (c_w c))} -> (p < w_np (c_w c))%N ->
  inv (do_names ms p n c).1.
Proof.
elim: ms c => //= m ms IH c J sub lp; have lm := sub m (mem_head _ _).
have := inv_name n J lm lp; have e := do_name_w m p n c.
case: (do_name m p n c) e => c1 [] //= e J1; apply: IH; rewrite ?e // => m' l.
by apply: sub; rewrite inE l orbT.
Qed.

Lemma op_new (o : op R) c c' r : winv (c_w c) -> do_op o c = (c', Some (RPid R r)) -> creates o ->
  step (c_w c) o = (c_w c', ROk (RPid R r)).
Proof. by rewrite /do_op; case: (step _ _) => w [v||] //= _ [<- ->]. Qed.

Lemma gp_at m mu k c c' r : winv (c_w c) -> do_op (OGP m mu k) c = (c', Some (RPid R r)) ->
  [/\ r = w_np (c_w c), (m < w_nm (c_w c))%N, w_nm (c_w c') = w_nm (c_w c), (r < w_np (c_w c'))%N &
      w_gm (c_w c') r = [:: m]] /\
  [/\ see_m (c_w c') m r = Some mu, see_k (c_w c') m r r = Some k &
      forall j, j \in members (c_w c) m -> see_k (c_w c') m r j = Some (@KZero R) /\ see_k (c_w c') m j r = Some (@KZero R)].
Proof.
move=> I E; have {}E := op_new I E isT.
have [[er] [lt [ms [un /= em A]]]] := creates_spec I E isT; subst r ms.
have [e1 e2 e3 e4] := indep_rules I E.
have ex : op_exists (c_w c) (OGP m mu k) by move: E; rewrite /step; case: ifP.
split; last by split.
split=> //; first by move: ex; rewrite /op_exists /= andbT.
  exact: (ad_nm A).
by have := ad_res A; rewrite /= gm_new.
Qed.

Lemma measure_at d mo c : inv c -> inv (gp_measure d mo c).1 /\
  (gp_measure d mo c).2 = (if mo is Some m then m else if d is Some m then m else w_nm (c_w c)).
Proof.
by move=> J; rewrite /gp_measure; case: mo => [m|]; [|case: d => [m|]] => //; split=> //; apply: inv_op.
Qed.

Lemma inv_gp d mu k mo no c : inv c -> inv (do_gp truthy d mu k mo no c).1.
Proof.
move=> J; rewrite /do_gp; have [J1 _] := measure_at d mo J.
case: (gp_measure d mo c) J1 => c1 m /= J1; have := inv_op (OGP m mu k) J1.
case E: (do_op _ c1) => [c2 [[|p|m'|k'|m']|]] //= J2.
case: no => [n|] //; case: ifP => // _; have I1 : winv (c_w c1) by case: J1.
have [[_ lm e lp _] _] := gp_at I1 E.
by have := @inv_name m p n c2 J2; rewrite e => /(_ lm lp); case: (do_name m p n c2).
Qed.

Lemma inv_given p o c : inv c -> inv (do_given p o c).1.
Proof.
move=> J; rewrite /do_given; case: (home _ _) => [m|] //.
have := inv_op (OCond m o) J; case: (do_op _ c) => c1 [[|q|m'|k'|m']|] //= J1.
by have := inv_op (OCopy m' p) J1; case: (do_op _ c1).
Qed.

Lemma inv_cmd d a c : inv c -> inv (do_cmd d a c).1.
Proof.
move=> J; case: a => [o|mu k mo no|p o|m p n|p n|m n|m p|p] //=.
- by have := inv_op o J; case: (do_op o c).
- exact: inv_gp.
- exact: inv_given.
- by case: ifP => // /andP [lm lp]; have := inv_name n J lm lp; case: (do_name m p n c).
- have [I _ _ _] := J; case E: (w_gm (c_w c) p) => [|m ms] //; rewrite -E.
  have lp : (p < w_np (c_w c))%N.
    have : m \in w_gm (c_w c) p by rewrite E mem_head.
    rewrite mem_gm // => /andP [lt]; rewrite members_log // mem_rev; exact: (v_np I.1 lt).
  have sub : {subset w_gm (c_w c) p <= gtn (w_nm (c_w c))} by move=> m'; rewrite mem_gm // => /andP [].
  by have := inv_names n J sub lp; case: (do_names _ p n c).
Qed.

Lemma inv_env c x v : inv c -> inv (set_env c x v). Proof. by []. Qed.

Lemma inv_exec q s : inv (s_core s) -> inv (s_core (exec q s).1).
Proof.
elim: q s => [|q1 IH1 q2 IH2|x f|x a|b q1 IH1 q2 IH2|k q IH|f q IH||q IH h IHh] s //= H.
- by have := IH1 s H; case: (exec q1 s) => s1 [] //=; apply: IH2.
- rewrite /call_in; have := inv_cmd (s_default s) (a (c_env (s_core s))) H.
  by case: (do_cmd _ _ _) => c [v|] //= J; apply: inv_env.
- by case: ifP => _; [apply: IH1|apply: IH2].
- move: (k _) => {}k; elim: k s H => //= k IHk s H.
  by have := IH s H; case: (exec q s) => s1 [] //=; apply: IHk.
- case: ifP => // _.
  by have := IH (enter s (f (c_env (s_core s)))) H; case: (exec q _).
by have := IH s H; case: (exec q s) => s1 [] //=; apply: IHh.
Qed.

Lemma inv_after q : inv (s_core (after truthy q)).
Proof. apply: inv_exec; split=> //; exact: winv0. Qed.

(* New processes: where they are, and their names. *)
Lemma programs_gp q d mu k mo no c' v : let c := s_core (after truthy q) in
  do_cmd d (CGP mu k mo no) c = (c', Some v) ->
  let m := if mo is Some m then m else if d is Some m then m else w_nm (c_w c) in
  exists r, [/\ v = VRes _ (RPid R r), (w_np (c_w c) <= r)%N, w_gm (c_w c') r = [:: m],
      see_m (c_w c') m r = Some mu & see_k (c_w c') m r r = Some k] /\
    (forall n, no = Some n -> truthy n -> name_of c' m r = Some n /\ named c' m n = Some r) /\
    ((forall n, no = Some n -> ~~ truthy n) -> forall m0, name_of c' m0 r = None).
Proof.
move=> c E m; have {}E : do_gp truthy d mu k mo no c = (c', Some v) := E.
have J := inv_after q; rewrite -/c in J; move: E; rewrite /do_gp.
have [J1 em] := measure_at d mo J; have r1 : runs (c_w c) (c_w (gp_measure d mo c).1).
  by rewrite /gp_measure; case: (mo) => [?|]; [|case: (d) => [?|]]; try exact: runs_refl; exact: runs_op.
have I0 : winv (c_w c) by case: J.
have np := np_runs I0 r1; rewrite -/m in em.
case: (gp_measure d mo c) J1 em np {r1} => c1 m1 /= J1 -> np.
have I1 : winv (c_w c1) by case: J1.
have := inv_op (OGP m mu k) J1.
case E: (do_op _ c1) => [c2 [[|r|m'|k'|m']|]] //= J2; have [[er lm e lp eg] [e1 e2 _]] := gp_at I1 E.
have [_ G2 _ _] := J2.
have np' : (w_np (c_w c) <= r)%N by rewrite er.
have fr m0 : name_of c2 m0 r = None.
  case X: (name_of c2 m0 r) => [n|] //; move: X; rewrite /name_of.
  have -> : c_names c2 m0 = if (m0 < w_nm (c_w c1))%N then c_names c1 m0 else Naming.names_new N.
    by have := names_op (OGP m mu k) c1; rewrite E; apply.
  by case: ifP => // _; have [_ G1 _ K1] := J1; move/G1/K1; rewrite er ltnn.
case: no => [n|]; last by case=> <- <-; exists r; split; [split|split].
case: ifP => T; last by case=> <- <-; exists r; split; [split|split=> // n' [<-]; rewrite T].
have := do_name_spec m r n G2; have ew := do_name_w m r n c2.
have G3 := good_name m r n G2; case: (do_name m r n c2) ew G3 => c3 [] //= ew G3 [H1 H2 _ _ _] [<- <-].
exists r; rewrite ew; split; first by split.
split; last by move=> /(_ n erefl); rewrite T.
move=> n' [<-] _; have nt : ~ taken c2 m r n by move=> /H1.
have [_ F] := H2 nt; have e5 : named c3 m n = Some r by apply/F.
by split=> //; apply/G3.
Qed.

(* A constructor with a name that is taken raises, but the process is there. *)
Lemma programs_gp_rejected q d mu k m n t : let c := s_core (after truthy q) in
  (m < w_nm (c_w c))%N -> truthy n -> named c m n = Some t ->
  let: (c', r) := do_cmd d (CGP mu k (Some m) (Some n)) c in
  [/\ r = None, members (c_w c') m = rcons (members (c_w c) m) (w_np (c_w c)),
      name_of c' m (w_np (c_w c)) = None & forall m' t', name_of c' m' t' = name_of c m' t'].
Proof.
move=> c lm T Hn /=; have J := inv_after q; rewrite -/c in J; have [I G C K] := J; rewrite /do_gp /=.
have ex : op_exists (c_w c) (OGP m mu k) by rewrite /op_exists /= lm.
have [w' E] : exists w', step (c_w c) (OGP m mu k) = (w', ROk (RPid R (w_np (c_w c)))).
  by rewrite /step ex /= /abind /=; eexists.
have Ed : do_op (OGP m mu k) c = (with_world c w', Some (RPid R (w_np (c_w c)))) by rewrite /do_op E.
rewrite Ed T; have I' : winv w' by have := winv_step (OGP m mu k) I; rewrite E.
have [_ [_ [ms [un /= em A]]]] := creates_spec I E isT; subst ms.
have nm : w_nm w' = w_nm (c_w c) := ad_nm A.
have mem : members w' m = rcons (members (c_w c) m) (w_np (c_w c)).
  rewrite !members_log ?nm //; have := ad_in A (mem_head m [::]) => /= ->.
  by rewrite /= rev_cons.
have nn m' : c_names (with_world c w') m' = c_names c m'.
  by rewrite /= /fresh_from; case: leqP => // /C ->.
have fr : name_of c m (w_np (c_w c)) = None.
  by case X: (name_of _ _ _) => [n'|] //; move/G: X => /K; rewrite ltnn.
rewrite /do_name nn /Naming.name_gp; move: (fr); rewrite /name_of => ->; rewrite /Naming.name_set.
move: (Hn); rewrite /named => -> /=; split=> //.
  by rewrite /Naming.fupd eqxx.
move=> m' t'; rewrite /name_of /= /Naming.fupd; case: eqP => [->//|_]; exact: (congr1 (fun d' => Naming.by_gp d' t') (nn m')).
Qed.

(* [p | obs]. *)
Lemma log_kept (w w' : world) : winv w -> winv w' -> (w_nm w <= w_nm w')%N ->
  (forall m, (m < w_nm w)%N -> w_log w' m = w_log w m) -> kept w w'.
Proof.
move=> I I' le H m lt; have lt' := leq_trans lt le; rewrite !members_log // H //.
by split=> // [i j|i]; rewrite ?see_k_log ?see_m_log // lt lt' H.
Qed.

Lemma programs_given q d p o c' v : let c := s_core (after truthy q) in
  do_cmd d (CGiven N p o) c = (c', Some v) ->
  let w := c_w c in let w' := c_w c' in
  exists m m' r w1,
    [/\ v = VRes _ (RPid R r), home w p = Some m, step w (OCond m o) = (w1, ROk (RMid R m')), (w_np w <= r)%N &
        w_gm w' r = [:: m']] /\
    [/\ (w_nm w <= m')%N, kept w w', forall m0, (m0 < w_nm w)%N -> c_names c' m0 = c_names c m0,
        members w' m' = rcons (members w m) r &
        [/\ see_m w' m' r = see_m w1 m' p, see_k w' m' r r = see_k w1 m' p p &
            forall j, j \in members w m ->
              [/\ see_k w' m' r j = see_k w1 m' p j, see_k w' m' j r = see_k w1 m' j p,
                  see_m w' m' j = see_m w1 m' j &
                  forall i, i \in members w m -> see_k w' m' i j = see_k w1 m' i j]]].
Proof.
move=> c E w w'; have J := inv_after q; rewrite -/c in J; have [I G C K] := J.
have Hn := names_other truthy d I C (isT : ~~ naming (CGiven N p o)); rewrite E /= in Hn; have {}E : do_given p o c = (c', Some v) := E.
move: E; rewrite /do_given; case Eh: (home _ _) => [m|] //.
have {}Hn m0 : (m0 < w_nm w)%N -> c_names c' m0 = c_names c m0 by move=> lt; rewrite Hn lt.
case E1: (do_op (OCond m o) c) => [c1 [[|?|m'|?|?]|]] //=.
case E2: (do_op (OCopy m' p) c1) => [c2 [r0|]] //= [ec ev]; subst c2 v.
have S1 : step w (OCond m o) = (c_w c1, ROk (RMid R m')).
  by move: E1; rewrite /do_op; case: (step _ _) => w1 [?||] //= [<- ->].
have ex : op_exists w (OCond m o) by move: S1; rewrite /step; case: ifP.
have [w1 [[S1' I1 nm1 np1 lg1] gm1]] := cond_view I ex.
move: S1'; rewrite S1 => -[e1 e2]; subst w1 m'.
have S2 : step (c_w c1) (OCopy (w_nm w) p) = (w', ROk r0).
  by rewrite /w'; move: E2; rewrite /do_op; case: (step _ _) => w2 [?||] //= [<- ->].
have [er [lt [ms [un /= em A]]]] := creates_spec I1 S2 isT; subst r0 ms.
have [[_ _ a1 a2] a3] := copy_rules I1 S2.
have I2 : winv w' by have := winv_step (OCopy (w_nm w) p) I1; rewrite S2.
have nm2 : w_nm w' = (w_nm w).+1 by have := ad_nm A; rewrite /= nm1.
have lm : (m < w_nm w)%N by move: ex; rewrite /op_exists /= !andbT => /andP [].
have mm : members (c_w c1) (w_nm w) = members w m.
  by rewrite !members_log // ?nm1 // lg1.
exists m, (w_nm w), (w_np (c_w c1)), (c_w c1); split; first split=> //.
  by rewrite np1.
  by have := ad_res A; rewrite /= gm_new.
split=> //.
- apply: log_kept => //; first by rewrite nm2.
  move=> m0 l0; have ne : m0 \notin [:: w_nm w] by rewrite inE neq_ltn l0.
  have := ad_out A ne => /= ->.
  have := matches_step (OCond m o) I; case=> _; rewrite /lstep lexistsE ex /= /lcondition /lbind /=.
  rewrite S1 => /(congr1 fst) /= [_ _ _ <-]; rewrite /log_set.
  by have -> : (m0 == w_nm w) = false by apply/negbTE; rewrite neq_ltn l0.
- rewrite -mm !members_log ?nm1 ?nm2 //; have := ad_in A (mem_head (w_nm w) [::]) => /= ->.
  by rewrite /= rev_cons.
split=> // j Hj; have Hj1 : j \in members (c_w c1) (w_nm w) by rewrite mm.
have [b1 b2] := a3 j Hj1; have L := later_step (OCopy (w_nm w) p) I1; rewrite S2 in L.
split=> //; first by have [_ _ ->] := later_view I1 I2 L Hj1 Hj1.
by move=> i; rewrite -mm => Hi; have [_ -> _] := later_view I1 I2 L Hi Hj1.
Qed.

Lemma copy_ok (w : world) m p : winv w -> (p < w_np w)%N -> see_m w m p -> see_k w m p p ->
  exists w', step w (OCopy m p) = (w', ROk (RPid R (w_np w))).
Proof.
move=> I lp; rewrite see_m_log // see_k_log //; case: ifP => // lm Em Ek.
have [_ X] := matches_step (OCopy m p) I; move: X; rewrite /lstep lexistsE /op_exists /= lp lm /=.
case: (step _ _) => w' r; rewrite /lbind /= /ldefine /lbind /lreads /= /sm /sk /=.
case: (MA _ _ _) Em => // mu _ /=; case: (KA _ _ _ _) Ek => // k _ /=.
by move=> /(congr1 snd) /= <-; exists w'.
Qed.

Lemma programs_given_ok ops d p o c m : safe world0 ops -> c_w c = run_ops ops ->
  home (c_w c) p = Some m -> all (fun i => i \in members (c_w c) m) (o_pids o) ->
  exists c' v, do_cmd d (CGiven N p o) c = (c', Some v).
Proof.
move=> S Ew Eh A /=; rewrite /do_given Eh; have I : winv (c_w c) by rewrite Ew; exact: winv_run.
have Hp : m \in w_gm (c_w c) p by move: Eh; rewrite /home; case: (w_gm _ _) => //= m0 ms [->]; rewrite mem_head.
move: (Hp); rewrite mem_gm // => /andP [lm Hp1].
have le i : i \in members (c_w c) m -> (i < w_np (c_w c))%N.
  by rewrite members_log // mem_rev; exact: (v_np I.1 lm).
have ex : op_exists (c_w c) (OCond m o).
  apply/andP; split; last by rewrite /= lm.
  apply/allP => i Hi; apply: le; exact: (allP A).
have [w1 [[S1 I1 nm1 np1 lg1] gm1]] := cond_view I ex.
have Ew1 : w1 = run_ops (rcons ops (OCond m o)) by rewrite /run_ops foldl_rcons -/(run_ops ops) -Ew S1.
have sf : safe world0 (rcons ops (OCond m o)).
  suff H l w0 : safe w0 l -> all (fun i => i \in members (foldl (fun w o => (step w o).1) w0 l) m) (o_pids o) ->
    safe w0 (rcons l (OCond m o)) by apply: H => //; rewrite -/(run_ops ops) -Ew.
  by elim: l w0 => [|o' l IH] w0 //= [H1 H2] H3; split=> //; apply: IH.
have mm : members w1 (w_nm (c_w c)) = members (c_w c) m by rewrite !members_log // ?nm1 // lg1.
have [] := available (w_nm (c_w c)) p p sf; rewrite -Ew1 mm Hp1 /= => Ek Em.
have lp : (p < w_np w1)%N by rewrite np1; apply: le.
have [w2 S2] := copy_ok I1 lp Em Ek.
by rewrite /do_op S1 /= S2 /=; do 2 eexists.
Qed.

Lemma programs_other q d a m : let c := s_core (after truthy q) in ~~ naming a ->
  let: (c', r) := do_cmd d a c in
  ((m < w_nm (c_w c))%N -> forall p, name_of c' m p = name_of c m p) /\
  ((w_nm (c_w c) <= m)%N -> forall n, named c' m n = None).
Proof.
move=> c na; have [I _ C _] := inv_after q; have := names_other truthy d I C na; rewrite -/c.
case: (do_cmd d a c) => c' r /(_ m) /= e; rewrite /named /name_of e; split=> [-> //|].
by rewrite leqNgt => /negPf ->.
Qed.

(* Looking names up. *)
Lemma programs_lookup q d m n p : let c := s_core (after truthy q) in
  [/\ (do_cmd d (CByName R m n) c).2 = Some (VRes _ (RPid R p)) <->
      (do_cmd d (CByGP R N m p) c).2 = Some (VName R n),
      (do_cmd d (CByName R m n) c).1 = c, (do_cmd d (CByGP R N m p) c).1 = c & (do_cmd d (CNameOf R N p) c).1 = c].
Proof.
move=> c /=; split=> //; case: ifP => // _; have := @after_good _ _ truthy q m n p; rewrite -/c.
case: (Naming.by_name _ _) => [t|]; case: (Naming.by_gp _ _) => [n'|] /= [F G]; split=> //.
- by case=> et; rewrite et in F G; have [->] := F erefl.
- by case=> en; rewrite en in F G; have [->] := G erefl.
- by case=> et; rewrite et in F G; have := F erefl.
by case=> en; rewrite en in F G; have := G erefl.
Qed.

Lemma programs_round_trip q d p n c' v : let c := s_core (after truthy q) in
  do_cmd d (CSet R p n) c = (c', Some v) -> w_gm (c_w c) p <> [::] ->
  (do_cmd d (CNameOf R N p) c').2 = Some (VName R n) /\
  forall m, m \in w_gm (c_w c) p ->
    (do_cmd d (CByName R m n) c').2 = Some (VRes _ (RPid R p)) /\ (do_cmd d (CByGP R N m p) c').2 = Some (VName R n).
Proof.
move=> c E ne; have [I G _ _] := inv_after q; rewrite -/c in I G.
have := do_names_spec p n G (gm_uniq truthy q p); have G' := good_names (w_gm (c_w c) p) p n G.
have ew := do_names_w (w_gm (c_w c) p) p n c; move: E; rewrite -/c /=.
case: (do_names _ p n c) G' ew => c1 [] //= G' ew [<- _] [_ _ /(_ erefl) H _ _].
have H1 m : m \in w_gm (c_w c) p -> Naming.by_name (c_names c1 m) n = Some p by move=> lm; apply/(H m lm).
have H2 m : m \in w_gm (c_w c) p -> Naming.by_gp (c_names c1 m) p = Some n by move=> lm; apply/G'; apply: H1.
rewrite ew; split.
  rewrite /home; case Eg: (w_gm (c_w c) p) ne => [|m0 ms] //= _.
  by rewrite H2 // Eg mem_head.
by move=> m lm; move: (lm); rewrite mem_gm // => /andP [-> _]; rewrite H1 // H2.
Qed.

Lemma programs_name_of q d mu k mo no c' r q2 s : let c := s_core (after truthy q) in
  do_cmd d (CGP mu k mo no) c = (c', Some (VRes _ (RPid R r))) ->
  let m := if mo is Some m then m else if d is Some m then m else w_nm (c_w c) in
  s_core s = c' -> let c2 := s_core (exec q2 s).1 in
  (do_cmd d (CNameOf R N r) c2).2 = (do_cmd d (CByGP R N m r) c2).2.
Proof.
move=> c E m es c2; have [r' [[[er] _ eg _ _] _]] := programs_gp E; subst r'; rewrite -/m in eg.
have [I _ _ _] := inv_after q; rewrite -/c in I.
have I' : winv (c_w c').
  by have [ops] := runs_cmd truthy d (CGP mu k mo no) c; rewrite E /= => ->; apply: winv_from.
have [ops2] := runs_exec truthy q2 s; rewrite es -/c2 => e2.
have [_ _ _ /(_ r) [l]] := later_from ops2 I'; rewrite -e2 eg => el.
have : m \in w_gm (c_w c2) r by rewrite el mem_head.
rewrite mem_gm; last by rewrite e2; apply: winv_from.
by case/andP => lt _; rewrite /= /home el /= lt.
Qed.
End P.
