From mathcomp Require Import all_ssreflect all_algebra.
From Verif Require Import Graph Machine Refine GraphSpec GraphProofs GraphOps GraphFacts Worlds Api ApiSpec.
From Verif Require Naming NamingProofs.
Set Implicit Arguments. Unset Strict Implicit. Unset Printing Implicit Defensive.

Section P.
Variables (R : fieldType) (N : eqType) (truthy : pred N).
Notation core := (core R N). Notation state := (state R N). Notation world := (world R).
Implicit Types (q : stmt R N) (c : core) (s : state) (m : mid) (p : pid) (n : N).
Notation do_cmd := (@do_cmd R N truthy). Notation exec := (@exec R N truthy).

(* Programs are runs of Machine.v. *)
Definition runs (w w' : world) : Prop := exists ops, w' = run_from w ops.
Lemma runs_refl w : runs w w. Proof. by exists [::]. Qed.
Lemma runs_trans w1 w2 w3 : runs w1 w2 -> runs w2 w3 -> runs w1 w3.
Proof. by move=> [o1 ->] [o2 ->]; exists (o1 ++ o2); rewrite /run_from foldl_cat. Qed.

Lemma do_op_w (o : op R) c : c_w (do_op o c).1 = (step (c_w c) o).1.
Proof. by rewrite /do_op; case: (step _ _). Qed.
Lemma runs_op (o : op R) c : runs (c_w c) (c_w (do_op o c).1).
Proof. by exists [:: o]; rewrite do_op_w. Qed.

Lemma do_name_w m p n c : c_w (do_name m p n c).1 = c_w c.
Proof. by rewrite /do_name; case: (Naming.name_gp _ _ _). Qed.
Lemma do_names_w ms p n c : c_w (do_names ms p n c).1 = c_w c.
Proof.
elim: ms c => //= m ms IH c; have := do_name_w m p n c.
by case: (do_name m p n c) => c1 [] //= <-.
Qed.

Lemma runs_gp d mu k mo no c : runs (c_w c) (c_w (do_gp truthy d mu k mo no c).1).
Proof.
rewrite /do_gp.
have : runs (c_w c) (c_w (gp_measure d mo c).1).
  by rewrite /gp_measure; case: mo => [m|]; [|case: d => [m|]]; try exact: runs_refl; exact: runs_op.
case: (gp_measure d mo c) => c1 m /= H; have := runs_op (OGP m mu k) c1.
case: (do_op _ c1) => c2 [[|p|m'|k'|m']|] /= /(runs_trans H) H2 //.
case: no => [n|] //; case: ifP => // _; have := do_name_w m p n c2.
by case: (do_name m p n c2) => c3 b /= ->.
Qed.

Lemma runs_given p o c : runs (c_w c) (c_w (do_given p o c).1).
Proof.
rewrite /do_given; case: (home _ _) => [m|]; last exact: runs_refl.
have := runs_op (OCond m o) c; case: (do_op _ c) => c1 [[|q|m'|k'|m']|] //= H.
have := runs_op (OCopy m' p) c1; case: (do_op _ c1) => c2 r /=; exact: runs_trans.
Qed.

Lemma runs_cmd d a c : runs (c_w c) (c_w (do_cmd d a c).1).
Proof.
case: a => [o|mu k mo no|p o|m p n|p n|m n|m p|p] /=; try exact: runs_refl.
- by have := runs_op o c; case: (do_op o c).
- exact: runs_gp.
- exact: runs_given.
- case: ifP => _; last exact: runs_refl.
  by have := do_name_w m p n c; case: (do_name m p n c) => c1 b /= ->; exact: runs_refl.
- have := do_names_w (w_gm (c_w c) p) p n c.
  by case: (do_names _ p n c) => c1 b /= ->; exact: runs_refl.
Qed.

Lemma runs_times (f : state -> state * bool) k s :
  (forall s, runs (c_w (s_core s)) (c_w (s_core (f s).1))) ->
  runs (c_w (s_core s)) (c_w (s_core (times f k s).1)).
Proof.
move=> H; elim: k s => [|k IH] s /=; first exact: runs_refl.
have := H s; case: (f s) => s1 [] //= /runs_trans; apply; exact: IH.
Qed.

Lemma runs_exec q s : runs (c_w (s_core s)) (c_w (s_core (exec q s).1)).
Proof.
elim: q s => [|q1 IH1 q2 IH2|x f|x a|b q1 IH1 q2 IH2|k q IH|f q IH||q IH h IHh] s /=; try exact: runs_refl.
- have := IH1 s; case: (exec q1 s) => s1 [] //= /runs_trans; apply; exact: IH2.
- rewrite /call_in; have := runs_cmd (s_default s) (a (c_env (s_core s))) (s_core s).
  by case: (do_cmd _ _ _) => c [v|].
- by case: ifP.
- by apply: runs_times.
- case: ifP => // _; last exact: runs_refl.
  by have := IH (enter s (f (c_env (s_core s)))); case: (exec q _).
have := IH s; case: (exec q s) => s1 [] //= /runs_trans; apply; exact: IHh.
Qed.

Lemma after_run q : exists ops, c_w (s_core (after truthy q)) = run_ops ops.
Proof. by have [ops] := runs_exec q (state0 R N); rewrite /run_from /= => ->; exists ops. Qed.

Lemma programs_are_runs q1 q2 : exists ops1 ops2,
  c_w (s_core (after truthy q1)) = run_ops ops1 /\
  c_w (s_core (exec q2 (after truthy q1)).1) = run_ops (ops1 ++ ops2).
Proof.
have [ops1 E1] := after_run q1; have [ops2 E2] := runs_exec q2 (after truthy q1).
by exists ops1, ops2; rewrite E2 E1 /run_ops /run_from foldl_cat.
Qed.

(* C15 *)
Lemma programs_conservative q1 q2 m i j :
  let w := c_w (s_core (after truthy q1)) in let w' := c_w (s_core (exec q2 (after truthy q1)).1) in
  i \in members w m -> j \in members w m ->
  [/\ i \in members w' m, see_k w' m i j = see_k w m i j, see_m w' m i = see_m w m i,
      forall D b x y M, kernel_at D b w m i j x y = Some M -> kernel_at D b w' m i j x y = Some M &
      forall D b x v, mean_at D b w m i x = Some v -> mean_at D b w' m i x = Some v].
Proof.
move=> w w'; rewrite {}/w {}/w'; have [ops1 [ops2 [-> ->]]] := programs_are_runs q1 q2.
exact: conservative.
Qed.

(* Names. *)
Notation two_way := (@NamingProofs.two_way N).
Definition good c := forall m, two_way (c_names c m).
Lemma two_way_new : two_way (Naming.names_new N). Proof. by []. Qed.

Lemma good_world c w : good c -> good (with_world c w).
Proof. by move=> H m; rewrite /= /fresh_from; case: ifP. Qed.
Lemma good_op (o : op R) c : good c -> good (do_op o c).1.
Proof. by rewrite /do_op; case: (step _ _) => w r; apply: good_world. Qed.
Lemma good_name m p n c : good c -> good (do_name m p n c).1.
Proof.
move=> H m'; rewrite /do_name; have := NamingProofs.name_gp_two_way p n (H m).
by case: (Naming.name_gp _ _ _) => d r /= Hd; rewrite /Naming.fupd; case: eqP.
Qed.
Lemma good_names ms p n c : good c -> good (do_names ms p n c).1.
Proof.
elim: ms c => //= m ms IH c H; have := good_name m p n H.
by case: (do_name m p n c) => c1 [] //=; apply: IH.
Qed.
Lemma good_gp d mu k mo no c : good c -> good (do_gp truthy d mu k mo no c).1.
Proof.
move=> H; rewrite /do_gp.
have : good (gp_measure d mo c).1.
  by rewrite /gp_measure; case: mo => [m|]; [|case: d => [m|]] => //; apply: good_op.
case: (gp_measure d mo c) => c1 m /= H1; have := good_op (OGP m mu k) H1.
case: (do_op _ c1) => c2 [[|p|m'|k'|m']|] //= H2.
case: no => [n|] //; case: ifP => // _; have := good_name m p n H2.
by case: (do_name m p n c2).
Qed.
Lemma good_given p o c : good c -> good (do_given p o c).1.
Proof.
move=> H; rewrite /do_given; case: (home _ _) => [m|] //.
have := good_op (OCond m o) H; case: (do_op _ c) => c1 [[|q|m'|k'|m']|] //= H1.
by have := good_op (OCopy m' p) H1; case: (do_op _ c1).
Qed.
Lemma good_cmd d a c : good c -> good (do_cmd d a c).1.
Proof.
move=> H; case: a => [o|mu k mo no|p o|m p n|p n|m n|m p|p] //=.
- by have := good_op o H; case: (do_op o c).
- exact: good_gp.
- exact: good_given.
- by case: ifP => // _; have := good_name m p n H; case: (do_name m p n c).
- by have := good_names (w_gm (c_w c) p) p n H; case: (do_names _ p n c).
Qed.
Lemma good_exec q s : good (s_core s) -> good (s_core (exec q s).1).
Proof.
elim: q s => [|q1 IH1 q2 IH2|x f|x a|b q1 IH1 q2 IH2|k q IH|f q IH||q IH h IHh] s //= H.
- by have := IH1 s H; case: (exec q1 s) => s1 [] //=; apply: IH2.
- rewrite /call_in; have := good_cmd (s_default s) (a (c_env (s_core s))) H.
  by case: (do_cmd _ _ _) => c [v|].
- by case: ifP => _; [apply: IH1|apply: IH2].
- move: (k _) => {}k; elim: k s H => //= k IHk s H.
  by have := IH s H; case: (exec q s) => s1 [] //=; apply: IHk.
- case: ifP => // _.
  by have := IH (enter s (f (c_env (s_core s)))) H; case: (exec q _).
by have := IH s H; case: (exec q s) => s1 [] //=; apply: IHh.
Qed.

Lemma after_good q : good (s_core (after truthy q)).
Proof. by apply: good_exec => m. Qed.

(* C06 *)
Lemma programs_two_way q m n p : let c := s_core (after truthy q) in
  named c m n = Some p <-> name_of c m p = Some n.
Proof. exact: after_good. Qed.

(* C07: one measure. *)
Lemma do_name_spec m p n c : good c -> let: (c', ok) := do_name m p n c in
  [/\ taken c m p n -> ok = false,
      ~ taken c m p n -> ok = true /\ forall n', named c' m n' = Some p <-> n' = n,
      forall t n', t <> p -> (name_of c' m t = Some n' <-> name_of c m t = Some n'),
      forall m', m' <> m -> c_names c' m' = c_names c m' &
      ok = false -> name_of c' m p = None].
Proof.
move=> H; rewrite /do_name /taken /named /name_of; have := NamingProofs.name_gp_spec p n (H m).
have := @NamingProofs.name_gp_rejected _ _ p n (H m); have := @NamingProofs.name_gp_no_key _ _ p n (H m).
case: (Naming.name_gp _ _ _) => d r /= K F [H1 H2 H3 H4]; rewrite /Naming.fupd eqxx; split=> //.
- by move/H1->.
- by move=> T; rewrite (H2 T); split=> //; apply: H3.
- by move=> m' /eqP /negPf->.
by case: r K F {H1 H2} => // _ ->.
Qed.

Lemma programs_name q d m p n : let c := s_core (after truthy q) in
  (m < w_nm (c_w c))%N -> (p < w_np (c_w c))%N -> let: (c', r) := do_cmd d (CName R m p n) c in
  [/\ taken c m p n -> r = None /\ name_of c' m p = None,
      ~ taken c m p n -> r = Some (VRes _ (RUnit R)) /\ forall n', named c' m n' = Some p <-> n' = n,
      forall t n', t <> p -> (name_of c' m t = Some n' <-> name_of c m t = Some n'),
      forall m', m' <> m -> c_names c' m' = c_names c m' &
      c_w c' = c_w c].
Proof.
move=> c lm lp /=; rewrite lm lp /=; have := do_name_spec m p n (@after_good q).
have := do_name_w m p n c; rewrite -/c; case: (do_name m p n c) => c' ok /= ew [H1 H2 H3 H4 H5]; split=> //.
  by move=> T; split; [rewrite (H1 T)|apply: H5; apply: H1].
by move=> T; have [-> e] := H2 T.
Qed.

(* The setter of a process. *)
Lemma do_names_spec ms p n c : good c -> uniq ms -> let: (c', ok) := do_names ms p n c in
  [/\ (exists2 m, m \in ms & taken c m p n) -> ok = false,
      (forall m, m \in ms -> ~ taken c m p n) -> ok = true,
      ok = true -> forall m, m \in ms -> forall n', named c' m n' = Some p <-> n' = n,
      forall m t n', t <> p -> (name_of c' m t = Some n' <-> name_of c m t = Some n') &
      forall m, m \notin ms -> c_names c' m = c_names c m].
Proof.
elim: ms c => [|m ms IH] c H /=; first by split=> //; case.
move=> /andP [nm un]; have := do_name_spec m p n H; have := good_name m p n H.
case E: (do_name m p n c) => [c1 ok] /= G1 [H1 H2 H3 H4 H5].
have T m' : m' \in ms -> taken c1 m' p n <-> taken c m' p n.
  move=> lm; rewrite /taken /named H4 //; by move=> e; rewrite -e lm in nm.
case: ok E H1 H2 H5 => E H1 H2 H5; last first.
  split=> //.
  - move=> F; have F' : ~ taken c m p n by apply: F; rewrite mem_head.
    by have [] := H2 F'.
  - move=> m' q n' nq; case: (m' =P m) => [->|ne]; first exact: H3.
    by rewrite /name_of H4.
  - by move=> m'; rewrite inE negb_or => /andP [/eqP ne _]; rewrite H4.
have := IH c1 G1 un; case: (do_names ms p n c1) => c2 ok [I1 I2 I3 I4 I5]; split.
- case=> m'; rewrite inE => /orP [/eqP -> /H1 //|lm] t.
  by apply: I1; exists m' => //; apply/(T _ lm).
- by move=> F; apply: I2 => m' lm /(T _ lm); apply: F; rewrite inE lm orbT.
- move=> e m'; rewrite inE => /orP [/eqP ->|lm]; last exact: I3.
  have nt : ~ taken c m p n by move=> /H1.
  by have [_ F] := H2 nt; move=> n'; rewrite -(F n') /named I5.
- move=> m' q n' nq; rewrite I4 //; case: (m' =P m) => [->|ne]; first exact: H3.
  by rewrite /name_of H4.
move=> m'; rewrite inE negb_or => /andP [/eqP ne l]; by rewrite I5 // H4.
Qed.

Lemma gm_uniq q p : uniq (w_gm (c_w (s_core (after truthy q))) p).
Proof. by have [ops ->] := after_run q; have [_ + _] := consistent ops 0 p. Qed.

Lemma programs_set q d p n : let c := s_core (after truthy q) in let ms := w_gm (c_w c) p in
  let: (c', r) := do_cmd d (CSet R p n) c in
  [/\ (exists2 m, m \in ms & taken c m p n) -> r = None,
      (forall m, m \in ms -> ~ taken c m p n) -> r = Some (VRes _ (RUnit R)) /\
        forall m, m \in ms -> forall n', named c' m n' = Some p <-> n' = n,
      forall m t n', t <> p -> (name_of c' m t = Some n' <-> name_of c m t = Some n'),
      forall m, m \notin ms -> c_names c' m = c_names c m &
      c_w c' = c_w c].
Proof.
move=> c ms /=; have := do_names_spec p n (@after_good q) (gm_uniq q p).
have := do_names_w (w_gm (c_w c) p) p n c; rewrite -/c -/ms.
case: (do_names ms p n c) => c' ok /= ew [H1 H2 H3 H4 H5]; split=> //.
  by move/H1->.
by move=> F; have e := H2 F; rewrite e; split=> //; apply: H3.
Qed.

(* Other calls leave names alone. *)
Definition same_names c c' := forall m,
  c_names c' m = if (m < w_nm (c_w c))%N then c_names c m else Naming.names_new N.
Definition clean c := forall m, (w_nm (c_w c) <= m)%N -> c_names c m = Naming.names_new N.

Lemma nm_le (o : op R) c : winv (c_w c) -> (w_nm (c_w c) <= w_nm (c_w (do_op o c).1))%N.
Proof. by move=> I; rewrite do_op_w; apply: t_nm (later_step o I). Qed.
Lemma names_op (o : op R) c : same_names c (do_op o c).1.
Proof. by move=> m; rewrite /do_op; case: (step _ _) => w r /=; rewrite /fresh_from leqNgt; case: ltnP. Qed.

Lemma winv_runs w w' : winv w -> runs w w' -> winv w'.
Proof. by move=> I [ops ->]; apply: winv_from. Qed.

Lemma same_names_trans c c1 c2 : (w_nm (c_w c) <= w_nm (c_w c1))%N ->
  same_names c c1 -> same_names c1 c2 -> same_names c c2.
Proof.
move=> le H1 H2 m; rewrite H2 H1; case: (ltnP m (w_nm (c_w c))) => // lt.
  by rewrite (leq_trans lt le).
by case: ifP.
Qed.

Lemma names_other d a c : winv (c_w c) -> clean c -> ~~ naming a -> same_names c (do_cmd d a c).1.
Proof.
move=> I C; have S0 : same_names c c by move=> m; case: ltnP => // /C.
case: a => [o|mu k mo [n|]|p o|m p n|p n|m n|m p|p] //= _.
- by have := names_op o c; case: (do_op o c).
- rewrite /do_gp.
  have : same_names c (gp_measure d mo c).1 /\ (w_nm (c_w c) <= w_nm (c_w (gp_measure d mo c).1))%N.
    by rewrite /gp_measure; case: mo => [m|]; [|case: d => [m|]] => //; split; [apply: names_op|apply: nm_le].
  case: (gp_measure d mo c) => c1 m /= [H1 l1]; have := names_op (OGP m mu k) c1.
  by case: (do_op _ c1) => c2 [[|p|m'|k'|m']|] //= H2; apply: same_names_trans l1 H1 H2.
rewrite /do_given; case: (home _ _) => [m|] //.
have := names_op (OCond m o) c; have := nm_le (OCond m o) I.
case: (do_op _ c) => c1 [[|q|m'|k'|m']|] //= l1 H1.
have := names_op (OCopy m' p) c1; case: (do_op _ c1) => c2 r /= H2; exact: same_names_trans l1 H1 H2.
Qed.
End P.
