(* From the operations of the API to the facts about definitions and conditioning that the
   statements of P_Model.v use. *)
From Coq Require Import List.
From mathcomp Require Import all_ssreflect all_algebra.
From mathcomp Require Import zify.
From Verif Require Import Graph Machine Refine Worlds Eval GraphSpec GraphProofs GraphOps GraphFacts RV RVProofs Sound Typing ModelSpec ModelFacts Cond CondFacts CrossFacts Combine CombineFacts VarFacts LawFacts ModelThms.
Set Implicit Arguments. Unset Strict Implicit. Unset Printing Implicit Defensive.
Import GRing.Theory.
Local Open Scope ring_scope.

Section StepFacts.
Variable R : fieldType.
Implicit Types (w : world R) (o : op R) (ops : seq (op R)).

Lemma run_split ops o w1 res ops' : step (run_ops ops) o = (w1, res) -> run_from w1 ops' = run_ops (ops ++ o :: ops').
Proof. by move=> E; rewrite run_ops_cat /= /run_from /= E. Qed.

(* Wherever a process is known, its definition is. *)
Lemma made_from w r d ops : winv w -> (r < w_np w)%N ->
  (forall m, (m < w_nm w)%N -> r \in pids (w_log w m) -> made (w_log w m) r d) ->
  let w' := run_from w ops in forall m, (m < w_nm w')%N -> r \in pids (w_log w' m) -> made (w_log w' m) r d.
Proof.
rewrite /run_from; elim: ops w => //= o ops IH w I lr H; have I' := winv_step o I; have L := later_step o I.
apply: IH => //; first exact: leq_trans lr (t_np L).
move=> m lt; have [a b c e _] := step_grown o I; case: (ltnP m (w_nm w)) => [lm|lm].
  have X : ext (w_log w m) (w_log (step w o).1 m) by exact: (t_log L lm).
  have := @step_old R w o m r I lm lr; rewrite !members_log // !mem_rev => -> Hr.
  by apply: made_ext X _; apply: H.
case: (e m lm lt) => [[_ /= ->] //|[m0 [ob [eo /= ->]]]] /= Hr; apply: H => //.
have : op_exists w (OCond m0 ob).
  by move: lt Hr; rewrite -eo /step; case: ifP => // _ lt; move: (leq_trans lt lm); rewrite ltnn.
by rewrite /op_exists /= !andbT => /andP [].
Qed.

Lemma law_later w o w1 res d ops m : winv w -> step w o = (w1, ROk res) -> law o = Some d ->
  (m < w_nm (run_from w1 ops))%N -> w_np w \in pids (w_log (run_from w1 ops) m) -> defined (run_from w1 ops) m (w_np w) d.
Proof.
move=> I E Ed lt Hr; split=> //.
have I' : winv w1 by have := winv_step o I; rewrite E.
have cr : creates o by case: (o) Ed.
have [_ [lr _]] := creates_spec I E cr.
apply: (made_from I' lr) Hr => // m' lm Hm.
have Hg : m' \in w_gm w1 (w_np w) by rewrite mem_gm // lm members_log // mem_rev.
by have [] := law_defined [::] I E Ed Hg.
Qed.

Lemma law_here ops o w1 r d ops' m : step (run_ops ops) o = (w1, ROk (RPid R r)) -> law o = Some d ->
  let w := run_from w1 ops' in r \in members w m -> defined w m r d.
Proof.
move=> E Ed w Hr; have I : winv (run_ops ops) := winv_run ops.
have I' : winv w by apply: winv_from; have := winv_step o I; rewrite E.
have lt : (m < w_nm w)%N by move: Hr; rewrite /members; case: ifP.
have cr : creates o by case: (o) Ed.
have [[er] _] := creates_spec I E cr; subst r.
by apply: (law_later I E Ed lt); move: Hr; rewrite members_log // mem_rev.
Qed.

Lemma cond_here ops m ob w1 res ops' : step (run_ops ops) (OCond m ob) = (w1, ROk res) ->
  let w := run_from w1 ops' in
  exists m' ps, [/\ res = RMid R m', perm_eq ps (members (run_ops ops) m) &
    if o_data ob is Some d then approximated w m' m ob d ps else conditioned w m' m ob ps].
Proof.
move=> E w; have I : winv (run_ops ops) := winv_run ops.
have ex : op_exists (run_ops ops) (OCond m ob) by move: E; rewrite /step; case: ifP.
have [w2 [[E2 I' nm np lg] gm]] := cond_view I ex; move: E2; rewrite E => -[ew er]; subst w2.
have lm : (m < w_nm (run_ops ops))%N by move: ex; rewrite /op_exists /= !andbT => /andP [].
exists (w_nm (run_ops ops)), (pids (w_log (run_ops ops) m)); split.
- by [].
- by rewrite members_log // perm_sym perm_rev.
have lt1 : (w_nm (run_ops ops) < w_nm w1)%N by rewrite nm.
have [lt X] := log_from ops' I' lt1.
have H : exists2 par, base (w_log w (w_nm (run_ops ops))) = Some (m, par, ob) & pids par = pids (w_log (run_ops ops) m).
  by exists (w_log (run_ops ops) m) => //; move: X; rewrite lg; elim.
by case Eo: (o_data ob) => [d|]; split.
Qed.

(* Values exist for members only. *)
Section Values.
Variable W : space R.
Variable D : nat -> (point R -> R) -> point R -> R.
Variables (G : pid -> point R -> rv W) (eps : mid -> nat -> rv W).
Lemma at_pids m h p x u : at_ D G eps m h p x u -> p \in pids h.
Proof.
elim: h m p x u => //= [pm par IH o|r d rest IH] m p x u; first by case=> u0 /IH.
by rewrite inE; case: eqP => // _ /IH ->; rewrite orbT.
Qed.
Lemma num_member ops m p xs u : is_at D G eps (run_ops ops) m p (Num xs) u -> p \in members (run_ops ops) m.
Proof.
case=> lt; rewrite /denotes => X; inversion X as [xs' u' A| | |]; subst.
by rewrite members_log // ?mem_rev; [apply: at_pids A | exact: winv_run].
Qed.
End Values.
End StepFacts.

(* C22: input maps, by the operations that create them. *)
Section Maps.
Variables (R : fieldType) (W : space R).
Variable D : nat -> (point R -> R) -> point R -> R.
Variables (G : pid -> point R -> rv W) (eps : mid -> nat -> rv W).
Variables (ops ops' : seq (op R)) (P : mid -> pid -> Prop) (o : op R) (w1 : world R) (r : pid).
Hypothesis E : step (run_ops ops) o = (w1, ROk (RPid R r)).
Let w := run_from w1 ops'.
Variable CV : mid -> pid -> pid -> input R -> input R -> dmat R -> Prop.
Hypothesis Mo : sound D G eps w P CV.
Notation is_at := (is_at D G eps w). Notation meant := (meant D G eps w P).
Notation cov_is := CV. Notation mean_is := (mean_is D w).

Lemma map_here p t t0 m xs zs : law o = Some (DMap p t t0) -> map t xs = zs -> P m p -> meant m r (Num xs) ->
  [/\ meant m p (Num zs),
      forall e e', mean_is m r (Num xs) e -> mean_is m p (Num zs) e' -> e = e',
      forall s z M M', meant m s z -> cov_is m r s (Num xs) z M -> cov_is m p s (Num zs) z M' -> same_matrix M M' &
      forall ys M M', meant m r (Num ys) ->
        cov_is m r r (Num xs) (Num ys) M -> cov_is m p p (Num zs) (Num (map t ys)) M' -> same_matrix M M'].
Proof.
move=> El Ez Pp Mr; have Ew := run_split ops' E; subst zs.
have Mo' : sound D G eps (run_ops (ops ++ o :: ops')) P CV by rewrite -Ew.
have Df : defined (run_ops (ops ++ o :: ops')) m r (DMap p t t0).
  rewrite -Ew; apply: (law_here (ops' := ops') E El); case: Mr => _ [u Hu].
  by move: Hu; rewrite /w Ew => /num_member.
move: Mr; rewrite /w Ew => Mr; split.
- case: Mr => _ [u Hu]; split=> //; exists u.
  by have [X _] := map_at D G eps xs u Df; apply: X.
- by move=> e e'; apply: (map_mean Mo' Df).
- by move=> s z M M'; apply: (map_cov Mo' Df).
by move=> ys M M' Mq; apply: (map_var Mo' Df).
Qed.
End Maps.

Section Four.
Variables (R : fieldType) (W : space R).
Variable D : nat -> (point R -> R) -> point R -> R.
Variables (G : pid -> point R -> rv W) (eps : mid -> nat -> rv W).
Variables (ops ops' : seq (op R)) (P : mid -> pid -> Prop) (w1 : world R) (r p : pid) (m : mid).
Let w := run_from w1 ops'.
Variable CV : mid -> pid -> pid -> input R -> input R -> dmat R -> Prop.
Hypothesis Mo : sound D G eps w P CV.
Hypothesis Pp : P m p.
(* [r] at [xs] and [p] at [zs] are the same random variables. *)
Definition same_process (xs zs : seq (point R)) : Prop :=
  [/\ meant D G eps w P m p (Num zs),
      forall e e', mean_is D w m r (Num xs) e -> mean_is D w m p (Num zs) e' -> e = e' &
      forall s z M M', meant D G eps w P m s z ->
        CV m r s (Num xs) z M -> CV m p s (Num zs) z M' -> same_matrix M M'].
Lemma shift_here c xs : step (run_ops ops) (OShift p c) = (w1, ROk (RPid R r)) ->
  let xs' := [seq addX c x | x <- xs] in meant D G eps w P m r (Num xs') -> same_process xs' xs.
Proof.
move=> E xs' Mr; have Ex : map (shiftX c) xs' = xs.
  by rewrite -map_comp -[RHS]map_id; apply: eq_map => z /=; apply: shift_add.
by have [a b c' _] := map_here E Mo erefl Ex Pp Mr; split.
Qed.
Lemma stretch_here s xs : step (run_ops ops) (OStretch p s) = (w1, ROk (RPid R r)) ->
  (forall i, s i != 0) ->
  let xs' := [seq mulX s x | x <- xs] in meant D G eps w P m r (Num xs') -> same_process xs' xs.
Proof.
move=> E nz xs' Mr; have Ex : map (stretchX s) xs' = xs.
  by rewrite -map_comp -[RHS]map_id; apply: eq_map => z /=; apply: stretch_mul.
by have [a b c' _] := map_here E Mo erefl Ex Pp Mr; split.
Qed.
Lemma select_here dims xs zs : step (run_ops ops) (OSelect R p dims) = (w1, ROk (RPid R r)) ->
  [seq [seq nth 0 x i | i <- dims] | x <- xs] = zs -> meant D G eps w P m r (Num xs) -> same_process xs zs.
Proof.
move=> E Ex Mr; have Ex' : map (selectX dims) xs = zs by rewrite -Ex; apply: eq_map.
by have [a b c' _] := map_here E Mo erefl Ex' Pp Mr; split.
Qed.
Lemma transform_here f xs zs : step (run_ops ops) (OTransform p f) = (w1, ROk (RPid R r)) ->
  map f xs = zs -> meant D G eps w P m r (Num xs) -> same_process xs zs.
Proof. by move=> E Ex Mr; have [a b c' _] := map_here E Mo erefl Ex Pp Mr; split. Qed.
End Four.
