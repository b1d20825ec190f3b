(* The logs of models with products: what the independent part of a product is made of. *)
From Coq Require Import List.
From mathcomp Require Import all_ssreflect all_algebra.
From mathcomp Require Import zify.
From Verif Require Import Graph Machine Refine Worlds Eval GraphSpec GraphProofs GraphOps RV RVProofs Sound Typing ModelSpec Formal ModelFacts Plain ProdSpec.
Set Implicit Arguments. Unset Strict Implicit. Unset Printing Implicit Defensive.
Import GRing.Theory Num.Theory.
Local Open Scope ring_scope.

Section ProdLogs.
Variable R : fieldType.
Variable D : nat -> (point R -> R) -> point R -> R.
Variables (mu : pid -> point R -> R) (ka : pid -> point R -> point R -> R).
Variable Pr : pid -> pid -> Prop.   (* the products *)
Variable Ns : obs R -> Prop.        (* the observations *)
Notation aworld := (aworld R).
Implicit Types (s : aworld) (h : hist R).

(* All processes are below [N]. *)
Fixpoint hlt (N : nat) h : Prop :=
  match h with
  | HRoot => True
  | HPost _ par _ => hlt N par
  | HAdd p _ rest => (p < N)%N /\ hlt N rest
  end.
Definition isind (d : pdef R) : bool := if d is DInd _ _ then true else false.
Fixpoint hasind (p : pid) h : bool :=
  match h with
  | HAdd q d rest => ((q == p) && isind d) || hasind p rest
  | _ => false
  end.
(* The independent part of a product. *)
Definition prodind (m : mid) (rest : hist R) (mu' : mexp R) (k : kexp R) : Prop :=
  exists f g a b kff kgg kfg kgf,
    [/\ Pr f g, MA m rest f = Some a /\ MA m rest g = Some b, KA m rest f f = Some kff /\ KA m rest g g = Some kgg,
        KA m rest f g = Some kfg /\ KA m rest g f = Some kgf & mu' = MMul (MScale (-1) a) b /\ k = mulk kff kgg kfg kgf].
Definition goodind (m : mid) (rest : hist R) (p : pid) (mu' : mexp R) (k : kexp R) : Prop :=
  [/\ nocross rest, hlt p rest & (is_mean D mu' (mu p) /\ is_kernel D k (ka p)) \/ prodind m rest mu' k].
Fixpoint good (m : mid) h : Prop :=
  match h with
  | HRoot => True
  | HPost pm par o => Ns o /\ good pm par
  | HAdd p d rest =>
    match d with
    | DInd mu' k => goodind m rest p mu' k
    | DUser _ _ _ => False
    | DFun _ (FMean _ q) => q \in pids rest
    | _ => True
    end /\ good m rest
  end.

(* [c]: there may be Cartesian products. *)
Record lgood (c : bool) s : Prop := LGood {
  lg_good : forall m, good m (a_log s m);
  lg_lt : forall m, hlt (a_np s) (a_log s m);
  lg_un : forall m m' p, hasind p (a_log s m) -> hasind p (a_log s m') -> m = m';
  lg_nc : ~~ c -> forall m, nocross (a_log s m) }.

Lemma hlt_le N N' h : (N <= N')%N -> hlt N h -> hlt N' h.
Proof. by move=> le; elim: h => //= p d h IH [lt /IH H]; split=> //; apply: leq_trans le. Qed.
Lemma hlt_ind N p h : hlt N h -> hasind p h -> (p < N)%N.
Proof. by elim: h => //= q d h IH [lt /IH H] /orP [/andP [/eqP <- _]|/H]. Qed.

Lemma lgood_new c s : lgood c s -> lgood c (lnew_gp s).1.
Proof. by case=> h1 h2 h3 h4; split=> //= m; apply: hlt_le (h2 m). Qed.
Lemma lgood_add c s m p d : lgood c s -> (p < a_np s)%N ->
  match d with
  | DInd mu' k => goodind m (a_log s m) p mu' k /\ forall m', ~~ hasind p (a_log s m')
  | DUser _ _ _ => False
  | DCross _ => c
  | DFun _ (FMean _ q) => q \in pids (a_log s m)
  | _ => True
  end -> lgood c (added s m p d).
Proof.
case=> h1 h2 h3 h4 lt Hd; split=> [m'|m'|m1 m2 p'|nc m'] /=; rewrite /log_set.
- by case: eqP => [->|_] //=; split=> //; case: d Hd => // mu' k [].
- by case: eqP.
- have Q m' : hasind p' (if m' == m then HAdd p d (a_log s m) else a_log s m') ->
      hasind p' (a_log s m') \/ [/\ m' = m, p' = p & isind d].
    case: eqP => [->|_] /=; last by left.
    by case/orP=> [/andP [/eqP e i]|]; [right | left].
  case/Q=> [H1|H1] /Q [H2|[-> e2 i2]].
  + exact: h3 H1 H2.
  + by move: i2 Hd; case: (d) => // mu' k _ [_ /(_ m1)]; rewrite -e2 H1.
  + by case: H1 => _ e1 i1; move: i1 Hd; case: (d) => // mu' k _ [_ /(_ m2)]; rewrite -e1 H2.
  + by case: H1.
- by case: eqP => [_|_]; [split; [case: (d) Hd nc => // ? -> | exact: h4] | exact: h4].
Qed.
Definition easy (c : bool) (d : pdef R) : bool :=
  match d with DInd _ _ | DUser _ _ _ | DFun _ (FMean _ _) => false | DCross _ => c | _ => true end.
Definition lkeeps A c (Q : aworld -> Prop) (a : lact R A) : Prop := forall s, lgood c s -> Q s ->
  lgood c (a s).1 /\ forall v, (a s).2 = ROk v -> Q (a s).1.
Lemma lkeeps_liter c Q (f : mid -> lact R unit) ms : (forall a, a \in ms -> lkeeps c Q (f a)) -> lkeeps c Q (liter f ms).
Proof.
elim: ms => [|a ms IH] H s Gs Qs //=; rewrite /lbind.
have := H a (mem_head _ _) s Gs Qs; case: (f a s) => s1 [v| |] /= [G1 Q1] //; apply: IH => //; last exact: Q1.
by move=> b Hb; apply: H; rewrite inE Hb orbT.
Qed.
(* [res] has been allocated; the measures [ms] contain [ps]. *)
Definition Kp (res : pid) (ps : seq pid) (ms : seq mid) s : Prop :=
  (res < a_np s)%N /\ forall m, m \in ms -> {subset ps <= pids (a_log s m)}.
Lemma Kp_new res ps ms s : Kp res ps ms s -> Kp res ps ms (lnew_gp s).1.
Proof. by case=> lt H; split=> //=; apply: ltnW. Qed.
Lemma Kp_added res ps ms s m p d : Kp res ps ms s -> Kp res ps ms (added s m p d).
Proof.
case=> lt H; split=> //= m' /H Hm q Hq; rewrite /log_set; case: eqP => [e|_]; last exact: Hm.
by rewrite inE -e Hm ?orbT.
Qed.
Lemma lkeeps_define c ps ms m p d : easy c d -> lkeeps c (Kp p ps ms) (ldefine m p d).
Proof.
move=> Hd s Gs K; case: ldefineP => [mu1 k _ _|] //=.
split; last by move=> _ _; apply: Kp_added.
apply: lgood_add => //; first by case: K.
by case: d Hd => // q [].
Qed.
Lemma lkeeps_mul ms m res p q : Pr p q -> m \in ms -> lkeeps false (Kp res [:: p; q] ms) (ldefine_mul m res p q).
Proof.
move=> Hpr Hm s Gs Ks; rewrite /ldefine_mul.
have al A s0 (d : pid -> pdef R) (g : pid -> lact R A) : lgood false s0 -> Kp res [:: p; q] ms s0 ->
    (forall t, match d t with DFun _ (FMean _ q') => q' \in [:: p; q] | d' => easy false d' end) ->
    (forall t s2, lgood false s2 -> Kp res [:: p; q] ms s2 ->
       lgood false (g t s2).1 /\ forall v, (g t s2).2 = ROk v -> Kp res [:: p; q] ms (g t s2).1) ->
    lgood false (lbind (@lnew_gp R) (fun t => lbind (ldefine m t (d t)) (fun _ => g t)) s0).1 /\
    forall v, (lbind (@lnew_gp R) (fun t => lbind (ldefine m t (d t)) (fun _ => g t)) s0).2 = ROk v ->
      Kp res [:: p; q] ms (lbind (@lnew_gp R) (fun t => lbind (ldefine m t (d t)) (fun _ => g t)) s0).1.
  move=> G0 K0 Hd Hg; rewrite /lbind /=; have G1 := lgood_new G0; have K1 := Kp_new K0; rewrite /= in G1 K1.
  case: ldefineP => [mu1 k _ _|] //=; apply: Hg => //=; last exact: Kp_added.
  apply: lgood_add => //=; move: (Hd (a_np s0)); case: (d _) => // q1 [g1| |m1 q2] //= H2.
  by case: K0 => _ /(_ m Hm q2 H2).
apply: (al _ s (fun _ => DFun q (FMean m p))) => // [t|t1 s1 G1 l1]; first by rewrite mem_head.
apply: (al _ s1 (fun _ => DFun p (FMean m q))) => // [t|t2 s2 G2 l2]; first by rewrite !inE eqxx orbT.
apply: (al _ s2 (fun _ => DSum t1 t2)) => // t3 s3 G3 l3.
rewrite /lbind /lreads /=.
case Ea: (sm s3 m p) => [a|] //=; case Eb: (sm s3 m q) => [b|] //=.
case E1: (sk s3 m p p) => [k1|] //=; case E2: (sk s3 m q q) => [k2|] //=.
case E3: (sk s3 m p q) => [k3|] //=; case E4: (sk s3 m q p) => [k4|] //=.
have G4 := lgood_new G3; have K4 := Kp_new l3; rewrite /= in G4 K4.
have G5 : lgood false (added (AW (a_nm s3) (a_np s3).+1 (a_gm s3) (a_log s3)) m (a_np s3) (DInd (MMul (MScale (-1) a) b) (KAdd (KMul k1 k2) (KMul k3 k4)))).
  apply: lgood_add => //=; split; last by move=> m'; apply/negP => /(hlt_ind (lg_lt G3 m')); rewrite ltnn.
  split; [exact: (lg_nc G3) | exact: (lg_lt G3) | right].
  by exists p, q, a, b, k1, k2, k3, k4.
have K5 := Kp_added m (a_np s3) (DInd (MMul (MScale (-1) a) b) (KAdd (KMul k1 k2) (KMul k3 k4))) K4.
exact (@lkeeps_define false [:: p; q] ms m res (DSum t3 (a_np s3)) isT _ G5 K5).
Qed.

Lemma lkeeps_unary c p d : easy c d ->
  lkeeps c (fun=> True) (lunary p d).
Proof.
move=> Hd s Gs _; rewrite /lunary /lbind /=; have G1 := lgood_new Gs; rewrite /= in G1; split=> //.
have K1 : Kp (a_np s) [::] [::] (lnew_gp s).1 by split=> /=.
have := lkeeps_liter (fun m _ => @lkeeps_define c [::] [::] m (a_np s) d Hd) G1 K1 (ms := a_gm s p).
by case: (liter _ _ _) => s1 [v| |] /= [].
Qed.
Lemma ainv_new s : ainv s -> ainv (lnew_gp s).1.
Proof.
case=> i1 i2 i3 i4 i5; split=> //= [m p lt Hp|m pm par o lt e]; first by apply: ltnW; exact: i2 Hp.
by move=> a Ha; apply: ltnW; exact: i5 e a Ha.
Qed.
Lemma lkeeps_nary c ps ord f s : (forall ms m res, m \in ms -> lkeeps c (Kp res ps ms) (f m res)) ->
  lgood c s -> ainv s -> lgood c (lnary ps ord f s).1.
Proof.
move=> Hf Gs Is; rewrite /lnary /lbind /=; have G1 := lgood_new Gs; rewrite /= in G1.
case: ifP => // _; have I1 := ainv_new Is; rewrite /= in I1.
move: I1 G1; set s1 := AW _ _ _ _ => I1 G1; set ms := order _ _.
have K1 : Kp (a_np s) ps ms s1.
  split=> //= m; rewrite (perm_mem (order_perm _ _)); case: ps @ms Hf => // p ps ms _.
  by rewrite (@lgroupP _ _ (p :: ps) m I1 isT) => /andP [_ /allP].
have := lkeeps_liter (fun m Hm => Hf ms m (a_np s) Hm) G1 K1.
by case: (liter _ _ _) => s2 [v| |] /= [].
Qed.
Definition hadcross (c : bool) (o : op R) : bool := if o is OCross _ _ then true else c.
Lemma lgood_cross c s : lgood c s -> lgood true s. Proof. by case. Qed.

Lemma lgood_step c w o : winv w -> match o with OMul p q _ => Pr p q | OCond _ ob => Ns ob | _ => plain_op D mu ka w o end ->
  (if is_gp o then ~~ c else true) -> lgood c (abs w) -> lgood (hadcross c o) (abs (step w o).1).
Proof.
move=> I Ho Hc Gs; have [_ +] := matches_step o I.
move=> /(congr1 fst) /= <-; rewrite /lstep; case: ifP => _; last by case: (o) => *; first [exact: Gs | exact: lgood_cross Gs].
have U c' p d : lgood c' (abs w) -> easy c' d -> lgood c' (lunary p d (abs w)).1.
  by move=> G' Hd; have [] := lkeeps_unary p Hd G' Logic.I.
have GP m d : (if d is DInd mu' k then [/\ is_mean D mu' (mu (w_np w)), is_kernel D k (ka (w_np w)) & ~~ c] else easy c d) ->
    lgood c (lbind (@lnew_gp R) (fun p => lbind (ldefine m p d) (fun _ => lret (RPid R p))) (abs w)).1.
  move=> Hd; rewrite /lbind /=; have G1 := lgood_new Gs; rewrite /= in G1.
  case: ldefineP => [mu' k _ _|] //=; apply: lgood_add => //=; case: d Hd => //= mu1 k1; last by case: k1.
  case=> h1 h2 h3; split.
    by split; [exact: (lg_nc Gs h3) | exact: (lg_lt Gs) | left].
  by move=> m'; apply/negP => /(hlt_ind (lg_lt Gs m')); rewrite ltnn.
case: o Ho Hc => [|m mu' k|m mu' k lr rr|m p|p c0|p f|p c0|p f|p c0|p s|p dims|p f|p d|p q ord|p q ord|ps ord|m o|m p q|m p] //= Ho Hc;
  try by [apply: U | apply: GP].
- split=> /= [m|m|m1 m2 p|nc m]; rewrite /log_set.
  + by case: eqP => // _; exact: (lg_good Gs).
  + by case: eqP => // _; exact: (lg_lt Gs).
  + by case: (m1 =P _) => // _; case: (m2 =P _) => // _; apply: (lg_un Gs).
  + by case: eqP => // _; exact: (lg_nc Gs).
- by case: Ho => h1 h2; exact (GP m (DInd mu' k) (And3 h1 h2 Hc)).
- exact (lkeeps_nary ord (fun ms m res _ => @lkeeps_define c [:: p; q] ms m res (DSum p q) isT) Gs I.1).
- case: (c) Hc Gs => // _ G0.
  exact (lkeeps_nary ord (fun ms m res Hm => @lkeeps_mul ms m res p q Ho Hm) G0 I.1).
- exact (lkeeps_nary ord (fun ms m res _ => @lkeeps_define true ps ms m res (DCross ps) isT) (lgood_cross Gs) I.1).
- have L m' : (log_set (log_set (w_log w) (w_nm w) HRoot) (w_nm w) (HPost m (log_set (w_log w) (w_nm w) HRoot m) o) m' =
      HPost m HRoot o \/ log_set (log_set (w_log w) (w_nm w) HRoot) (w_nm w) (HPost m (log_set (w_log w) (w_nm w) HRoot m) o) m' =
      HPost m (w_log w m) o) \/
    [\/ log_set (log_set (w_log w) (w_nm w) HRoot) (w_nm w) (HPost m (log_set (w_log w) (w_nm w) HRoot m) o) m' = HRoot |
        log_set (log_set (w_log w) (w_nm w) HRoot) (w_nm w) (HPost m (log_set (w_log w) (w_nm w) HRoot m) o) m' = w_log w m'].
    rewrite /log_set; case: (m' == w_nm w); last by right; right.
    by left; case: (m == w_nm w); [left | right].
  split=> /= [m'|m'|m1 m2 p|nc m'].
  + by case: (L m') => -[] -> //=; try split=> //; exact: (lg_good Gs).
  + by case: (L m') => -[] -> //=; exact: (lg_lt Gs).
  + case: (L m1) => -[] -> //=; case: (L m2) => -[] -> //=; exact: (lg_un Gs).
  + by case: (L m') => -[] -> //=; exact: (lg_nc Gs).
- by rewrite /lbind /lreads /=; case: (expect _).
- by rewrite /lbind /lreads /=; case: (expect _).
Qed.
Lemma lgood_from ops w c : winv w -> mixed D mu ka w ops -> (forall p q ord, In (OMul p q ord) ops -> Pr p q) ->
  (forall m o, In (OCond m o) ops -> Ns o) -> (if c then ~~ has (@is_gp R) ops else gp_first ops) ->
  lgood c (abs w) -> exists c', lgood c' (abs (run_from w ops)).
Proof.
elim: ops w c => [|o ops IH] w c I /=; first by exists c.
case=> Ho Hops HP HN Hc Gs; have [I1 _] := matches_step o I.
apply: (IH (step w o).1 (hadcross c o)) => //.
- by move=> p q ord H; apply: (HP p q ord); right.
- by move=> m ob H; apply: (HN m); right.
- case: c Hc {Gs}; first by case: o Ho HP HN {I1 Hops} => //=.
  by case: o Ho HP HN {I1 Hops} => //=.
apply: lgood_step => //.
- case: o Ho HP HN {I1 Hops Hc} => //= [p q ord _ HP _|m ob _ _ HN]; first by apply: (HP p q ord); left.
  by apply: (HN m); left.
- by case: (is_gp o) Hc => //=; case: (c).
Qed.
Lemma lgood_run ops : mixed D mu ka world0 ops -> (forall p q ord, In (OMul p q ord) ops -> Pr p q) ->
  (forall m o, In (OCond m o) ops -> Ns o) -> gp_first ops -> exists c, lgood c (abs (run_ops ops)).
Proof. by move=> H1 H2 H3 H4; apply: (@lgood_from ops world0 false (winv0 R)). Qed.
End ProdLogs.
