(* The logs of the models of P_Total.v: what the processes of a model with products of processes
   are made of, and where Cartesian products stand. *)
From Coq Require Import List.
From mathcomp Require Import all_ssreflect all_algebra.
From mathcomp Require Import zify.
From Verif Require Import Graph Machine Refine Worlds Eval GraphSpec GraphProofs GraphOps RV RVProofs Sound Typing ModelSpec Formal ModelFacts Plain ProdSpec ProdLogs TotalSpec.
Set Implicit Arguments. Unset Strict Implicit. Unset Printing Implicit Defensive.
Import GRing.Theory Num.Theory.
Local Open Scope ring_scope.

Section Widths.
Variable R : fieldType.
Variable dif : bool.
Implicit Types (h : hist R) (xs : seq (point R)).

Lemma nocross_single h q : nocross h -> single h q.
Proof.
elim: h q => [|pm par IH o|r d rest IH] q //=; first exact: IH.
case=> Hd Hr; case: eqP => _; last exact: IH.
by split=> [|p' _]; [case: d Hd | apply: IH].
Qed.
Lemma width_all h p xs : nocross h -> width dif h p (Num [:: [::]]) = Some 1%N -> width dif h p (Num xs) = Some (size xs).
Proof.
elim: h p xs => [|pm par IH o|r d rest IH] p xs //=.
  by move=> nc; case: ifP => // _; apply: IH.
case=> Hd nc; case: eqP => _; last exact: IH.
have one q : width dif rest q (Num [:: [::]]) = Some 1%N -> forall ys, width dif rest q (Num ys) = Some (size ys).
  by move=> H ys; apply: IH.
case: d Hd => [mu k|mu k lr|q|q c|q f|a b|q c|q f|q t t0|q dd|ps] _ //; try by move=> /one ->.
- by case: eqP => // /one -> _; rewrite eqxx.
- by case: eqP => // e H; rewrite (one a H) (one b) ?eqxx // -e.
- case: f => [g|//|m' b] /=; first by case: eqP => // /one -> _; rewrite eqxx.
  by case: eqP => // e H; rewrite (one q H) (one b) ?eqxx // -e.
- rewrite (@width_num _ dif rest q (map t [:: [::]]) [:: [::]]) // => /one ->.
  by rewrite size_map.
- by case: ifP => // _; case: (dif && _).
Qed.
Lemma width_ext' h h' p x : ext h h' -> wfh h' -> p \in pids h -> width dif h' p x = width dif h p x.
Proof.
elim=> // r d h2 E IH /= /and3P [rn _ Wf] Hq.
case: eqP => [e|_]; last exact: IH.
by move: rn; rewrite -e (ext_pids E Hq).
Qed.
Lemma widths_all h p (x : input R) xs : (forall ys, width dif h p (Num ys) = Some (size ys)) -> points x = Some xs ->
  widths dif h p x = Some (size xs).
Proof.
move=> H; rewrite /widths; move: x xs; fix F 1 => -[ys|q x|l] xs //=; first by move=> [<-].
elim: l xs => [|y l IH] xs /=; first by case=> <-.
case Ey: (points y) => [a|] //=; case El: (_ l) => [b|] //= [<-].
by rewrite (F y a Ey) (IH b El) size_cat.
Qed.
End Widths.

Section TotalLogs.
Variable R : fieldType.
Variable D : nat -> (point R -> R) -> point R -> R.
Variable Pr : pid -> pid -> Prop.   (* the products *)
Notation aworld := (aworld R).
Implicit Types (s : aworld) (h : hist R).

Definition strict (d : pdef R) : bool :=
  match d with
  | DInd _ _ | DUser _ _ _ | DAddC _ _ | DFun _ _ | DMap _ _ (Some _) | DDiff _ _ => true
  | _ => false
  end.
Definition totd (m : mid) (rest : hist R) (d : pdef R) : Prop :=
  match d with
  | DInd mu k => (total_mean D mu /\ total_kernel D k) \/ prodind Pr m rest mu k
  | DUser _ _ _ => False
  | DFun q f =>
    match f with
    | FUser _ => True
    | FOnes => False
    | FMean m' p => [/\ m' = m, p \in pids rest & Pr p q \/ Pr q p]
    end
  | DCross ps => (0 < size ps)%N
  | _ => True
  end.
Fixpoint tot (m : mid) h : Prop :=
  match h with
  | HRoot => True
  | HPost pm par o => tot pm par
  | HAdd p d rest => [/\ strict d -> nocross rest, totd m rest d & tot m rest]
  end.

(* [c]: there may be Cartesian products. *)
Record tgood (c : bool) s : Prop := TGood {
  tg_tot : forall m, tot m (a_log s m);
  tg_nc : ~~ c -> forall m, nocross (a_log s m) }.

Lemma tgood_new c s : tgood c s -> tgood c (lnew_gp s).1.
Proof. by case. Qed.
Lemma tgood_add c s m p d : tgood c s -> totd m (a_log s m) d -> (strict d -> ~~ c) ->
  (if d is DCross _ then c else true) -> tgood c (added s m p d).
Proof.
case=> h1 h2 Hd Hs Hc; split=> [m'|nc m'] /=; rewrite /log_set.
- case: eqP => [->|_]; last exact: h1.
  by split=> // H; exact: (h2 (Hs H) m).
- by case: eqP => [_|_]; [split; [case: (d) Hc nc => // ? -> | exact: h2] | exact: h2].
Qed.
Definition simple (c : bool) (d : pdef R) : bool :=
  ~~ (strict d && c) &&
  match d with
  | DInd _ _ | DUser _ _ _ | DFun _ (FMean _ _) | DFun _ FOnes => false
  | DCross ps => c && (0 < size ps)%N
  | _ => true
  end.
Lemma simple_add c s m p d : simple c d -> tgood c s -> tgood c (added s m p d).
Proof.
case/andP => H1 H2 G; apply: tgood_add => //.
- by case: d H1 H2 => //= [q [f| |m' q']|ps _ /andP []] //.
- by move=> Hs; move: H1; rewrite Hs.
- by case: d H1 H2 => //= ps _ /andP [].
Qed.
Definition tkeeps A c (Q : aworld -> Prop) (a : lact R A) : Prop := forall s, tgood c s -> Q s ->
  tgood c (a s).1 /\ forall v, (a s).2 = ROk v -> Q (a s).1.
Lemma tkeeps_liter c Q (f : mid -> lact R unit) ms : (forall a, a \in ms -> tkeeps c Q (f a)) -> tkeeps c Q (liter f ms).
Proof.
elim: ms => [|a ms IH] H s Gs Qs //=; rewrite /lbind.
have := H a (mem_head _ _) s Gs Qs; case: (f a s) => s1 [v| |] /= [G1 Q1] //; apply: IH => //; last exact: Q1.
by move=> b Hb; apply: H; rewrite inE Hb orbT.
Qed.
Lemma tkeeps_define c ps ms m p d : simple c d -> tkeeps c (@Kp R p ps ms) (ldefine m p d).
Proof.
move=> Hd s Gs K; case: ldefineP => [mu1 k _ _|] //=.
by split; [apply: simple_add | move=> _ _; apply: Kp_added].
Qed.
Lemma tkeeps_mul ms m res p q : Pr p q -> m \in ms -> tkeeps false (@Kp R res [:: p; q] ms) (ldefine_mul m res p q).
Proof.
move=> Hpr Hm s Gs Ks; rewrite /ldefine_mul.
have al A s0 (d : pid -> pdef R) (g : pid -> lact R A) : tgood false s0 -> Kp res [:: p; q] ms s0 ->
    (forall t, match d t return Prop with DFun q1 (FMean m' q') => [/\ m' = m, q' \in [:: p; q] & Pr q' q1 \/ Pr q1 q'] | d' => simple false d' : Prop end) ->
    (forall t s2, tgood false s2 -> Kp res [:: p; q] ms s2 ->
       tgood false (g t s2).1 /\ forall v, (g t s2).2 = ROk v -> Kp res [:: p; q] ms (g t s2).1) ->
    tgood false (lbind (@lnew_gp R) (fun t => lbind (ldefine m t (d t)) (fun _ => g t)) s0).1 /\
    forall v, (lbind (@lnew_gp R) (fun t => lbind (ldefine m t (d t)) (fun _ => g t)) s0).2 = ROk v ->
      Kp res [:: p; q] ms (lbind (@lnew_gp R) (fun t => lbind (ldefine m t (d t)) (fun _ => g t)) s0).1.
  move=> G0 K0 Hd Hg; rewrite /lbind /=; have G1 := tgood_new G0; have K1 := Kp_new K0; rewrite /= in G1 K1.
  case: ldefineP => [mu1 k _ _|] //=; apply: Hg => //=; last exact: Kp_added.
  move: (Hd (a_np s0)); case E: (d _) => [mu' k'|mu' k' lr|q1|q1 c|q1 f|q1 q2|q1 c|q1 f|q1 t t0|q1 dd|ps] H; try by apply: simple_add.
  case: f E H => [f| |m1 q2] E H; try by apply: simple_add.
  case: H => e1 H2 H3; apply: tgood_add => //=; split=> //.
  by case: K0 => _ /(_ m Hm q2 H2).
apply: (al _ s (fun _ => DFun q (FMean m p))) => // [t|t1 s1 G1 l1]; first by split=> //; [rewrite mem_head | left].
apply: (al _ s1 (fun _ => DFun p (FMean m q))) => // [t|t2 s2 G2 l2]; first by split=> //; [rewrite !inE eqxx orbT | right].
apply: (al _ s2 (fun _ => DSum t1 t2)) => // t3 s3 G3 l3.
rewrite /lbind /lreads /=.
case Ea: (sm s3 m p) => [a|] //=; case Eb: (sm s3 m q) => [b|] //=.
case E1: (sk s3 m p p) => [k1|] //=; case E2: (sk s3 m q q) => [k2|] //=.
case E3: (sk s3 m p q) => [k3|] //=; case E4: (sk s3 m q p) => [k4|] //=.
have G4 := tgood_new G3; have K4 := Kp_new l3; rewrite /= in G4 K4.
have G5 : tgood false (added (AW (a_nm s3) (a_np s3).+1 (a_gm s3) (a_log s3)) m (a_np s3) (DInd (MMul (MScale (-1) a) b) (KAdd (KMul k1 k2) (KMul k3 k4)))).
  apply: tgood_add => //=; right.
  by exists p, q, a, b, k1, k2, k3, k4.
have K5 := Kp_added m (a_np s3) (DInd (MMul (MScale (-1) a) b) (KAdd (KMul k1 k2) (KMul k3 k4))) K4.
exact (@tkeeps_define false [:: p; q] ms m res (DSum t3 (a_np s3)) isT _ G5 K5).
Qed.
Lemma tkeeps_unary c p d : simple c d -> tkeeps c (fun=> True) (lunary p d).
Proof.
move=> Hd s Gs _; rewrite /lunary /lbind /=; have G1 := tgood_new Gs; rewrite /= in G1; split=> //.
have K1 : Kp (a_np s) [::] [::] (lnew_gp s).1 by split=> /=.
have := tkeeps_liter (fun m _ => @tkeeps_define c [::] [::] m (a_np s) d Hd) G1 K1 (ms := a_gm s p).
by case: (liter _ _ _) => s1 [v| |] /= [].
Qed.
Lemma tkeeps_nary c ps ord f s : (forall ms m res, m \in ms -> tkeeps c (@Kp R res ps ms) (f m res)) ->
  tgood c s -> ainv s -> tgood c (lnary ps ord f s).1.
Proof.
move=> Hf Gs Is; rewrite /lnary /lbind /=; have G1 := tgood_new Gs; rewrite /= in G1.
case: ifP => // _; have I1 := ainv_new Is; rewrite /= in I1.
move: I1 G1; set s1 := AW _ _ _ _ => I1 G1; set ms := order _ _.
have K1 : Kp (a_np s) ps ms s1.
  split=> //= m; rewrite (perm_mem (order_perm _ _)); case: ps @ms Hf => // p ps ms _.
  by rewrite (@lgroupP _ _ (p :: ps) m I1 isT) => /andP [_ /allP].
have := tkeeps_liter (fun m Hm => Hf ms m (a_np s) Hm) G1 K1.
by case: (liter _ _ _) => s2 [v| |] /= [].
Qed.
Lemma tgood_cross c s : tgood c s -> tgood true s. Proof. by case. Qed.
Lemma nocross_cross ord (w : world R) m : w_log (step w (@OCross R [::] ord)).1 m = w_log w m.
Proof. by []. Qed.

Lemma tgood_step c w o : winv w -> total_call D o -> (if o is OMul p q _ then Pr p q else True) ->
  (if is_strict o then ~~ c else true) -> tgood c (abs w) -> tgood (hadcross c o) (abs (step w o).1).
Proof.
move=> I Ho Hp Hc Gs.
case C: (if o is OCross [::] _ then true else false).
  case: o C Ho Hp Hc => // -[|//] ord _ _ _ _.
  by have [h1 h2] := tgood_cross Gs; split=> //= m; rewrite nocross_cross; apply: h1.
have [_ +] := matches_step o I.
move=> /(congr1 fst) /= <-; rewrite /lstep; case: ifP => _; last by case: (o) => *; first [exact: Gs | exact: tgood_cross Gs].
have U c' p d : tgood c' (abs w) -> simple c' d -> tgood c' (lunary p d (abs w)).1.
  by move=> G' Hd; have [] := tkeeps_unary p Hd G' Logic.I.
have GP m d : (if d is DInd mu' k then [/\ total_mean D mu', total_kernel D k & ~~ c] else simple c d) ->
    tgood c (lbind (@lnew_gp R) (fun p => lbind (ldefine m p d) (fun _ => lret (RPid R p))) (abs w)).1.
  move=> Hd; rewrite /lbind /=; have G1 := tgood_new Gs; rewrite /= in G1.
  case: ldefineP => [mu' k _ _|] //=; case: d Hd => [mu1 k1|mu1 k1 lr|q1|q1 c1|q1 f|q1 q2|q1 c1|q1 f|q1 t t0|q1 dd|ps] Hd; try by apply: simple_add.
  by case: Hd => h1 h2 h3; apply: tgood_add => //=; left.
case: o Ho Hp Hc C => [|m mu' k|m mu' k lr rr|m p|p c0|p f|p c0|p f|p c0|p s|p dims|p f|p d|p q ord|p q ord|ps ord|m o|m p q|m p] //= Ho Hp Hc C;
  try by [apply: U; rewrite /simple //= ?Hc | apply: GP; rewrite /simple].
- split=> /= [m|nc m]; rewrite /log_set.
  + by case: eqP => // _; exact: (tg_tot Gs).
  + by case: eqP => // _; exact: (tg_nc Gs).
- by case: Ho => h1 h2; exact (GP m (DInd mu' k) (And3 h1 h2 Hc)).
- exact (tkeeps_nary ord (fun ms m res _ => @tkeeps_define c [:: p; q] ms m res (DSum p q) isT) Gs I.1).
- case: (c) Hc Gs => // _ G0.
  exact (tkeeps_nary ord (fun ms m res Hm => @tkeeps_mul ms m res p q Hp Hm) G0 I.1).
- have S : simple true (@DCross R ps) by case: (ps) C.
  exact (tkeeps_nary ord (fun ms m res _ => @tkeeps_define true ps ms m res (DCross ps) S) (tgood_cross Gs) I.1).
- have L m' : (log_set (log_set (w_log w) (w_nm w) HRoot) (w_nm w) (HPost m (log_set (w_log w) (w_nm w) HRoot m) o) m' =
      HPost m HRoot o \/ log_set (log_set (w_log w) (w_nm w) HRoot) (w_nm w) (HPost m (log_set (w_log w) (w_nm w) HRoot m) o) m' =
      HPost m (w_log w m) o) \/
    [\/ log_set (log_set (w_log w) (w_nm w) HRoot) (w_nm w) (HPost m (log_set (w_log w) (w_nm w) HRoot m) o) m' = HRoot |
        log_set (log_set (w_log w) (w_nm w) HRoot) (w_nm w) (HPost m (log_set (w_log w) (w_nm w) HRoot m) o) m' = w_log w m'].
    rewrite /log_set; case: (m' == w_nm w); last by right; right.
    by left; case: (m == w_nm w); [left | right].
  split=> /= [m'|nc m'].
  + by case: (L m') => -[] -> //=; try split=> //; exact: (tg_tot Gs).
  + by case: (L m') => -[] -> //=; exact: (tg_nc Gs).
- by rewrite /lbind /lreads /=; case: (expect _).
- by rewrite /lbind /lreads /=; case: (expect _).
Qed.
Lemma tgood_from ops w c : winv w -> (forall o, In o ops -> total_call D o) -> (forall p q ord, In (OMul p q ord) ops -> Pr p q) ->
  (if c then ~~ has (@is_strict R) ops else cross_last ops) ->
  tgood c (abs w) -> exists c', tgood c' (abs (run_from w ops)).
Proof.
elim: ops w c => [|o ops IH] w c I /=; first by exists c.
move=> Ho HP Hc Gs; have [I1 _] := matches_step o I.
apply: (IH (step w o).1 (hadcross c o)) => //.
- by move=> o' H; apply: Ho; right.
- by move=> p q ord H; apply: (HP p q ord); right.
- case: c Hc {Gs}; first by case: o Ho HP {I1} => //=.
  by case: o Ho HP {I1} => //=.
apply: tgood_step => //.
- by apply: Ho; left.
- by case: o Ho HP {I1 Hc} => //= p q ord _ HP; apply: (HP p q ord); left.
- by case: c Hc {Gs}; case: (o) => //=.
Qed.
Lemma tgood_run ops : (forall o, In o ops -> total_call D o) -> (forall p q ord, In (OMul p q ord) ops -> Pr p q) ->
  cross_last ops -> forall m, tot m (w_log (run_ops ops) m).
Proof.
move=> H1 H2 H3; have G0 : tgood false (abs (@world0 R)) by split.
by have [c [H _]] := @tgood_from ops world0 false (winv0 R) H1 H2 H3 G0.
Qed.
End TotalLogs.
