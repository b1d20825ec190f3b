(* The logs of all models: what the independent part of a product is made of. *)
From Coq Require Import List.
From mathcomp Require Import all_ssreflect all_algebra.
From mathcomp Require Import zify.
From Verif Require Import Graph Machine Refine Worlds Eval GraphSpec GraphProofs GraphOps RV RVProofs Sound Typing ModelSpec Formal ModelFacts Plain ProdSpec ProdLogs SymSpec ExactSpec.
Set Implicit Arguments. Unset Strict Implicit. Unset Printing Implicit Defensive.
Import GRing.Theory Num.Theory.
Local Open Scope ring_scope.

Section ExactLogs.
Variable R : fieldType.
Variable D : nat -> (point R -> R) -> point R -> R.
Variables (mu : pid -> point R -> R) (ka : pid -> point R -> point R -> R).
Variable Pr : pid -> pid -> Prop.   (* the products *)
Variable Ns : obs R -> Prop.        (* the observations *)
Notation aworld := (aworld R).
Implicit Types (s : aworld) (h : hist R).

Definition egoodind (m : mid) (rest : hist R) (p : pid) (mu' : mexp R) (k : kexp R) : Prop :=
  hlt p rest /\ ((is_mean D mu' (mu p) /\ is_kernel D k (ka p)) \/ prodind Pr m rest mu' k).
Fixpoint egood (m : mid) h : Prop :=
  match h with
  | HRoot => True
  | HPost pm par o => Ns o /\ egood pm par
  | HAdd p d rest =>
    match d with
    | DInd mu' k => egoodind m rest p mu' k
    | DFun _ (FMean _ q) => q \in pids rest
    | DCross ps => ps <> [::]
    | _ => True
    end /\ egood m rest
  end.
Record elgood s : Prop := ELGood {
  eg_good : forall m, egood m (a_log s m);
  eg_lt : forall m, hlt (a_np s) (a_log s m);
  eg_un : forall m m' p, hasind p (a_log s m) -> hasind p (a_log s m') -> m = m' }.

Lemma elgood_new s : elgood s -> elgood (lnew_gp s).1.
Proof. by case=> h1 h2 h3; split=> //= m; apply: hlt_le (h2 m). Qed.
Lemma elgood_add s m p d : elgood s -> (p < a_np s)%N ->
  match d with
  | DInd mu' k => egoodind m (a_log s m) p mu' k /\ forall m', ~~ hasind p (a_log s m')
  | DCross ps => ps <> [::]
  | DFun _ (FMean _ q) => q \in pids (a_log s m)
  | _ => True
  end -> elgood (added s m p d).
Proof.
case=> h1 h2 h3 lt Hd; split=> [m'|m'|m1 m2 p'] /=; rewrite /log_set.
- by case: eqP => [->|_] //=; split=> //; case: d Hd => // mu' k [].
- by case: eqP.
- have Q m' : hasind p' (if m' == m then HAdd p d (a_log s m) else a_log s m') ->
      hasind p' (a_log s m') \/ [/\ m' = m, p' = p & isind d].
    case: eqP => [->|_] /=; last by left.
    by case/orP=> [/andP [/eqP e i]|]; [right | left].
  case/Q=> [H1|H1] /Q [H2|[-> e2 i2]].
  + exact: h3 H1 H2.
  + by move: i2 Hd; case: (d) => // mu' k _ [_ /(_ m1)]; rewrite -e2 H1.
  + by case: H1 => _ e1 i1; move: i1 Hd; case: (d) => // mu' k _ [_ /(_ m2)]; rewrite -e1 H2.
  + by case: H1.
Qed.
Definition eeasy (d : pdef R) : bool :=
  match d with DInd _ _ | DFun _ (FMean _ _) => false | DCross ps => ps != [::] | _ => true end.
Definition ekeeps A (Q : aworld -> Prop) (a : lact R A) : Prop := forall s, elgood s -> Q s ->
  elgood (a s).1 /\ forall v, (a s).2 = ROk v -> Q (a s).1.
Lemma ekeeps_liter Q (f : mid -> lact R unit) ms : (forall a, a \in ms -> ekeeps Q (f a)) -> ekeeps Q (liter f ms).
Proof.
elim: ms => [|a ms IH] H s Gs Qs //=; rewrite /lbind.
have := H a (mem_head _ _) s Gs Qs; case: (f a s) => s1 [v| |] /= [G1 Q1] //; apply: IH => //; last exact: Q1.
by move=> b Hb; apply: H; rewrite inE Hb orbT.
Qed.
Lemma ekeeps_define ps ms m p d : eeasy d -> ekeeps (Kp p ps ms) (ldefine m p d).
Proof.
move=> Hd s Gs K; case: ldefineP => [mu1 k _ _|] //=.
split; last by move=> _ _; apply: Kp_added.
apply: elgood_add => //; first by case: K.
by case: d Hd => // [q []|ps' /eqP] //.
Qed.
Lemma ekeeps_mul ms m res p q : Pr p q -> m \in ms -> ekeeps (Kp res [:: p; q] ms) (ldefine_mul m res p q).
Proof.
move=> Hpr Hm s Gs Ks; rewrite /ldefine_mul.
have al A s0 (d : pid -> pdef R) (g : pid -> lact R A) : elgood s0 -> Kp res [:: p; q] ms s0 ->
    (forall t, match d t with DFun _ (FMean _ q') => q' \in [:: p; q] | d' => eeasy d' end) ->
    (forall t s2, elgood s2 -> Kp res [:: p; q] ms s2 ->
       elgood (g t s2).1 /\ forall v, (g t s2).2 = ROk v -> Kp res [:: p; q] ms (g t s2).1) ->
    elgood (lbind (@lnew_gp R) (fun t => lbind (ldefine m t (d t)) (fun _ => g t)) s0).1 /\
    forall v, (lbind (@lnew_gp R) (fun t => lbind (ldefine m t (d t)) (fun _ => g t)) s0).2 = ROk v ->
      Kp res [:: p; q] ms (lbind (@lnew_gp R) (fun t => lbind (ldefine m t (d t)) (fun _ => g t)) s0).1.
  move=> G0 K0 Hd Hg; rewrite /lbind /=; have G1 := elgood_new G0; have K1 := Kp_new K0; rewrite /= in G1 K1.
  case: ldefineP => [mu1 k _ _|] //=; apply: Hg => //=; last exact: Kp_added.
  apply: elgood_add => //=; move: (Hd (a_np s0)); case: (d _) => // [q1 [g1| |m1 q2] //= H2|ps' /eqP //].
  by case: K0 => _ /(_ m Hm q2 H2).
apply: (al _ s (fun _ => DFun q (FMean m p))) => // [t|t1 s1 G1 l1]; first by rewrite mem_head.
apply: (al _ s1 (fun _ => DFun p (FMean m q))) => // [t|t2 s2 G2 l2]; first by rewrite !inE eqxx orbT.
apply: (al _ s2 (fun _ => DSum t1 t2)) => // t3 s3 G3 l3.
rewrite /lbind /lreads /=.
case Ea: (sm s3 m p) => [a|] //=; case Eb: (sm s3 m q) => [b|] //=.
case E1: (sk s3 m p p) => [k1|] //=; case E2: (sk s3 m q q) => [k2|] //=.
case E3: (sk s3 m p q) => [k3|] //=; case E4: (sk s3 m q p) => [k4|] //=.
have G4 := elgood_new G3; have K4 := Kp_new l3; rewrite /= in G4 K4.
have G5 : elgood (added (AW (a_nm s3) (a_np s3).+1 (a_gm s3) (a_log s3)) m (a_np s3) (DInd (MMul (MScale (-1) a) b) (KAdd (KMul k1 k2) (KMul k3 k4)))).
  apply: elgood_add => //=; split; last by move=> m'; apply/negP => /(hlt_ind (eg_lt G3 m')); rewrite ltnn.
  split; [exact: (eg_lt G3) | right].
  by exists p, q, a, b, k1, k2, k3, k4.
have K5 := Kp_added m (a_np s3) (DInd (MMul (MScale (-1) a) b) (KAdd (KMul k1 k2) (KMul k3 k4))) K4.
exact (@ekeeps_define [:: p; q] ms m res (DSum t3 (a_np s3)) isT _ G5 K5).
Qed.

Lemma ekeeps_unary p d : eeasy d -> ekeeps (fun=> True) (lunary p d).
Proof.
move=> Hd s Gs _; rewrite /lunary /lbind /=; have G1 := elgood_new Gs; rewrite /= in G1; split=> //.
have K1 : Kp (a_np s) [::] [::] (lnew_gp s).1 by split=> /=.
have := ekeeps_liter (fun m _ => @ekeeps_define [::] [::] m (a_np s) d Hd) G1 K1 (ms := a_gm s p).
by case: (liter _ _ _) => s1 [v| |] /= [].
Qed.
Lemma ekeeps_nary ps ord f s : (forall ms m res, m \in ms -> ps != [::] -> ekeeps (Kp res ps ms) (f m res)) ->
  elgood s -> ainv s -> elgood (lnary ps ord f s).1.
Proof.
move=> Hf Gs Is; rewrite /lnary /lbind /=; have G1 := elgood_new Gs; rewrite /= in G1.
case: ifP => // _; have I1 := ainv_new Is; rewrite /= in I1.
move: I1 G1; set s1 := AW _ _ _ _ => I1 G1; set ms := order _ _.
have K1 : Kp (a_np s) ps ms s1.
  split=> //= m; rewrite (perm_mem (order_perm _ _)); case: ps @ms Hf => // p ps ms _.
  by rewrite (@lgroupP _ _ (p :: ps) m I1 isT) => /andP [_ /allP].
have ne m : m \in ms -> ps != [::].
  by rewrite (perm_mem (order_perm _ _)); case: (ps).
have := ekeeps_liter (fun m Hm => Hf ms m (a_np s) Hm (ne m Hm)) G1 K1.
by case: (liter _ _ _) => s2 [v| |] /= [].
Qed.

Lemma elgood_step w o : winv w -> given_op D mu ka w o ->
  match o with OMul p q _ => Pr p q | OCond _ ob => Ns ob | _ => True end ->
  elgood (abs w) -> elgood (abs (step w o).1).
Proof.
move=> I Ho Hc Gs; have [_ +] := matches_step o I.
move=> /(congr1 fst) /= <-; rewrite /lstep; case: ifP => _; last exact: Gs.
have U p d : eeasy d -> elgood (lunary p d (abs w)).1.
  by move=> Hd; have [] := ekeeps_unary p Hd Gs Logic.I.
have GP m d : (if d is DInd mu' k then is_mean D mu' (mu (w_np w)) /\ is_kernel D k (ka (w_np w)) else eeasy d) ->
    elgood (lbind (@lnew_gp R) (fun p => lbind (ldefine m p d) (fun _ => lret (RPid R p))) (abs w)).1.
  move=> Hd; rewrite /lbind /=; have G1 := elgood_new Gs; rewrite /= in G1.
  case: ldefineP => [mu' k _ _|] //=; apply: elgood_add => //=; case: d Hd => //= [mu1 k1 H|q []|ps /eqP] //.
  split; first by split; [exact: (eg_lt Gs) | left].
  by move=> m'; apply/negP => /(hlt_ind (eg_lt Gs m')); rewrite ltnn.
case: o Ho Hc => [|m mu' k|m mu' k lr rr|m p|p c0|p f|p c0|p f|p c0|p s|p dims|p f|p d|p q ord|p q ord|ps ord|m o|m p q|m p] //= Ho Hc;
  try by [apply: U | apply: GP].
- split=> /= [m|m|m1 m2 p]; rewrite /log_set.
  + by case: eqP => // _; exact: (eg_good Gs).
  + by case: eqP => // _; exact: (eg_lt Gs).
  + by case: (m1 =P _) => // _; case: (m2 =P _) => // _; apply: (eg_un Gs).
- exact (GP m (DInd mu' k) Ho).
- exact (GP m (DUser mu' k lr) isT).
- exact (ekeeps_nary ord (fun ms m res _ _ => @ekeeps_define [:: p; q] ms m res (DSum p q) isT) Gs I.1).
- exact (ekeeps_nary ord (fun ms m res Hm _ => @ekeeps_mul ms m res p q Hc Hm) Gs I.1).
- exact (ekeeps_nary ord (fun ms m res _ ne => @ekeeps_define ps ms m res (DCross ps) ne) Gs I.1).
- have L m' : (log_set (log_set (w_log w) (w_nm w) HRoot) (w_nm w) (HPost m (log_set (w_log w) (w_nm w) HRoot m) o) m' =
      HPost m HRoot o \/ log_set (log_set (w_log w) (w_nm w) HRoot) (w_nm w) (HPost m (log_set (w_log w) (w_nm w) HRoot m) o) m' =
      HPost m (w_log w m) o) \/
    [\/ log_set (log_set (w_log w) (w_nm w) HRoot) (w_nm w) (HPost m (log_set (w_log w) (w_nm w) HRoot m) o) m' = HRoot |
        log_set (log_set (w_log w) (w_nm w) HRoot) (w_nm w) (HPost m (log_set (w_log w) (w_nm w) HRoot m) o) m' = w_log w m'].
    rewrite /log_set; case: (m' == w_nm w); last by right; right.
    by left; case: (m == w_nm w); [left | right].
  split=> /= [m'|m'|m1 m2 p].
  + by case: (L m') => -[] -> //=; try split=> //; exact: (eg_good Gs).
  + by case: (L m') => -[] -> //=; exact: (eg_lt Gs).
  + case: (L m1) => -[] -> //=; case: (L m2) => -[] -> //=; exact: (eg_un Gs).
- by rewrite /lbind /lreads /=; case: (expect _).
- by rewrite /lbind /lreads /=; case: (expect _).
Qed.
Lemma elgood_from ops w : winv w -> general D mu ka w ops -> (forall p q ord, In (OMul p q ord) ops -> Pr p q) ->
  (forall m o, In (OCond m o) ops -> Ns o) -> elgood (abs w) -> elgood (abs (run_from w ops)).
Proof.
elim: ops w => [|o ops IH] w I //= [Ho Hops] HP HN Gs; have [I1 _] := matches_step o I.
apply: (IH (step w o).1) => //.
- by move=> p q ord H; apply: (HP p q ord); right.
- by move=> m ob H; apply: (HN m); right.
apply: elgood_step => //.
case: o Ho HP HN {I1 Hops} => //= [p q ord _ HP _|m ob _ _ HN]; first by apply: (HP p q ord); left.
by apply: (HN m); left.
Qed.
Lemma elgood_run ops : general D mu ka world0 ops -> (forall p q ord, In (OMul p q ord) ops -> Pr p q) ->
  (forall m o, In (OCond m o) ops -> Ns o) -> elgood (abs (run_ops ops)).
Proof. by move=> H1 H2 H3; apply: (@elgood_from ops world0 (winv0 R)). Qed.
End ExactLogs.
