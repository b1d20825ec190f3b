(* The theorems of P_Graph.v, derived from GraphProofs.v and GraphOps.v. *)
From mathcomp Require Import all_ssreflect all_algebra.
From mathcomp Require Import zify.
From Verif Require Lazy.
From Verif Require Import Graph Machine Refine Worlds Eval GraphSpec GraphProofs GraphOps.
Set Implicit Arguments. Unset Strict Implicit. Unset Printing Implicit Defensive.
Import GRing.Theory.

Section GraphFacts.
Variable R : fieldType.
Notation kexp := (kexp R). Notation mexp := (mexp R). Notation hist := (hist R).
Notation pdef := (pdef R). Notation world := (world R). Notation heap := (heap R).
Notation op := (op R). Notation aworld := (aworld R).
Implicit Types (w : world) (o : op) (d : pdef) (ops : seq op).

Lemma conservative ops ops2 m i j :
  let w := run_ops ops in let w' := run_ops (ops ++ ops2) in
  i \in members w m -> j \in members w m ->
  [/\ i \in members w' m, see_k w' m i j = see_k w m i j, see_m w' m i = see_m w m i,
      forall D n x y M, kernel_at D n w m i j x y = Some M -> kernel_at D n w' m i j x y = Some M &
      forall D n x v, mean_at D n w m i x = Some v -> mean_at D n w' m i x = Some v].
Proof.
move=> w w' Hi Hj; have I := winv_run ops; have I' := winv_run (ops ++ ops2).
have L : later w w' by rewrite /w /w' run_ops_cat; apply: later_from.
have [a b c] := later_view I I' L Hi Hj; split=> //.
  by move=> D n x y M; apply: (later_values D n I I' L).1.
by move=> D n x v; apply: (later_values D n I I' L).2.
Qed.

Lemma available_iff ops m i j : safe world0 ops ->
  let w := run_ops ops in
  ((exists k, see_k w m i j = Some k) <-> i \in members w m /\ j \in members w m) /\
  ((exists mu, see_m w m i = Some mu) <-> i \in members w m).
Proof.
move=> S w; have [a b] := available m i j S; split; split.
- by case=> k E; apply/andP; rewrite -a E.
- by move/andP; rewrite -a; case: (see_k _ m i j) => // k _; exists k.
- by case=> k E; rewrite -b E.
- by rewrite -b; case: (see_m _ m i) => // k _; exists k.
Qed.

Lemma ofold1_zero (f : dmat R -> dmat R -> option (dmat R)) (l : seq (option (dmat R))) M :
  (forall a b c, f a b = Some c -> zero_matrix a -> zero_matrix b -> zero_matrix c) ->
  (forall oa a, List.In oa l -> oa = Some a -> zero_matrix a) -> ofold1 f l = Some M -> zero_matrix M.
Proof.
move=> Hf; elim: l M => [|a [|b l] IH] M // H.
  by apply: (H a); left.
rewrite -[ofold1 f [:: a, b & l]]/(obind (fun a => obind (f a) (ofold1 f (b :: l))) a).
case: a H => [a|] // H; case E: (ofold1 f (b :: l)) => [c|] //= E2.
apply: (Hf _ _ _ E2); first by apply: (H (Some a)); [left|].
by apply: IH E => oa c' Ho; apply: H; right.
Qed.

Lemma dblock_zero (g : input R -> input R -> option (dmat R)) xs ys M :
  (forall x y a, g x y = Some a -> zero_matrix a) ->
  dblock [seq [seq g x y | y <- ys] | x <- xs] = Some M -> zero_matrix M.
Proof.
move=> H; rewrite /dblock; apply: ofold1_zero.
  by move=> a b c; rewrite /dvcat; case: ifP => // _ [<-] Ha Hb i j /=; case: ifP.
rewrite -map_comp => oa a /List.in_map_iff [x [<- _]] /=; apply: ofold1_zero.
  by move=> u v c; rewrite /dhcat; case: ifP => // _ [<-] Ha Hb i j /=; case: ifP.
by move=> oa2 a2 /List.in_map_iff [y [<- _]]; apply: H.
Qed.

Lemma zero_eval rdk rdm D n x y M : evk rdk rdm D n (@KZero R) x y = Some M -> zero_matrix M.
Proof.
elim: n x y M => // n IH x y M.
case: x => [xs|p x|xs]; case: y => [ys|q y|ys]; try (by case=> <-); try exact: IH.
by apply: dblock_zero => a b c; apply: IH.
Qed.

Lemma independent ops m mu k w' res :
  let w := run_ops ops in step w (OGP m mu k) = (w', ROk res) ->
  exists r, [/\ res = RPid R r, see_m w' m r = Some mu, see_k w' m r r = Some k &
    forall j, j \in members w m -> forall ops' D n x y (w'' := run_from w' ops'),
      (forall M, kernel_at D n w'' m r j x y = Some M -> zero_matrix M) /\
      (forall M, kernel_at D n w'' m j r y x = Some M -> zero_matrix M)].
Proof.
move=> w E; have I : winv w := winv_run ops; have [a b c H] := indep_rules I E.
have I' : winv w' by have := winv_step (OGP m mu k) I; rewrite E.
exists (w_np w); split=> // j Hj ops' D n x y w''.
have [z1 z2] := H j Hj; have /andP [Hr Hj'] := see_k_members I' z1.
have L : later w' w'' by apply: later_from.
have I'' : winv w'' by apply: winv_from.
have [_ e1 _] := later_view I' I'' L Hr Hj'; have [_ e2 _] := later_view I' I'' L Hj' Hr.
by rewrite /kernel_at e1 e2 z1 z2 /=; split=> M; apply: zero_eval.
Qed.

Lemma derived_scope ops o ps w' res :
  let w := run_ops ops in operands o = Some ps -> step w o = (w', ROk res) ->
  exists r, [/\ res = RPid R r /\ (w_np w <= r)%N,
      forall m, (m \in w_gm w' r) = (m < w_nm w)%N && all (fun p => m \in w_gm w p) ps,
      forall m, count_mem r (members w' m) = (m \in w_gm w' r),
      forall m, m \notin w_gm w' r ->
        [/\ members w' m = members w m, forall i j, see_k w' m i j = see_k w m i j &
            forall i, see_m w' m i = see_m w m i] &
      forall p, (p < w_np w)%N -> w_gm w' p = w_gm w p].
Proof.
by move=> w op E; have [[a b c e f] _] := derived (winv_run ops) op E; exists (w_np w); split.
Qed.

Lemma consistent ops m p :
  let w := run_ops ops in
  [/\ (m \in w_gm w p) = (m < w_nm w)%N && (p \in members w m), uniq (w_gm w p) &
      uniq (members w m)].
Proof.
move=> w; have I : winv w := winv_run ops.
by split; [exact: mem_gm | exact: (v_un I.1) | exact: members_uniq].
Qed.


Lemma scope_home w o ps ms p q : operands o = Some ps -> scope w o ms ->
  p \in ps -> q \in ps -> home w q = home w p.
Proof.
have U a : p \in [:: a] -> q \in [:: a] -> home w q = home w p.
  by rewrite !inE => /eqP -> /eqP ->.
have B qs : same_home1 w qs -> p \in qs -> q \in qs -> home w q = home w p.
  case: qs => [|a [|b l]] //; first by move=> _; apply: U.
  rewrite /= => /and3P [_ /eqP e /allP H] Hp Hq.
  have K x : x \in [:: a, b & l] -> home w x = home w a.
    by rewrite !inE => /or3P [/eqP ->|/eqP ->|/H /eqP].
  by rewrite (K p) // (K q).
case: o => [|? ? ?|? ? ? ? ?|? ?|? c|? f|? c|? f|? c|? c|? dims|? f|? d|? ? ord|? ? ord|qs ord|? ?|? ? ?|? ?] // [<-];
  try by move=> _; apply: U.
- by case=> _ /B; apply.
- by case=> _ /B; apply.
- by case=> _ sh _; apply: B.
Qed.

Lemma home_partial ops o ps w' r :
  let w := run_ops ops in operands o = Some ps -> step w o = (w', ROk (RPid R r)) ->
  [/\ forall m, home w' r = Some m -> all (fun p => m \in w_gm w p) ps,
      forall p, ps = [:: p] -> (if o is OCross _ _ then False else True) -> home w' r = home w p &
      forall p m, p \in ps -> (forall m', all (fun q => m' \in w_gm w q) ps = (m' == m)) ->
        home w' r = home w p].
Proof.
move=> w op E; have I : winv w := winv_run ops; have [[er b c e f] g] := derived I op E.
case: er => er; subst r; split.
- rewrite /home => m; case X: (w_gm w' _) => [|m' l] //= [em]; subst m'.
  by have := b m; rewrite X mem_head => /esym /andP [].
- move=> p ep nc; rewrite ep in g; rewrite /home; move: g nc; case: (o) => // *; by congr ohead.
- move=> p m Hp un.
  have I' : winv w' by have := winv_step o I; rewrite E.
  have cr : creates o by case: (o) op.
  have [_ [lt [ms [_ sc A]]]] := creates_spec I E cr.
  have Hm q : q \in ps -> m \in w_gm w q.
    by move=> Hq; have := un m; rewrite eqxx => /allP /(_ q Hq).
  have lm : m < w_nm w by have := Hm p Hp; rewrite mem_gm // => /andP [].
  have -> : home w' (w_np w) = Some m.
    have K m' : (m' \in w_gm w' (w_np w)) = (m' == m).
      by rewrite b un; case: eqP => [->|]; rewrite ?lm ?andbF.
    rewrite /home; case X: (w_gm w' _) K => [|a l] K; first by have := K m; rewrite eqxx in_nil.
    by have := K a; rewrite mem_head => /esym /eqP ->.
  have [a [l ea]] : exists a l, w_gm w p = a :: l.
    by case: (w_gm w p) (Hm p Hp) => // a l _; exists a, l.
  have hp : home w p = Some a by rewrite /home ea.
  rewrite hp; congr Some; apply/esym/eqP; rewrite -un; apply/allP => q Hq.
  have : home w q = Some a by rewrite (scope_home op sc Hp Hq).
  by rewrite /home; case: (w_gm w q) => //= a' l' [->]; rewrite mem_head.
Qed.

Definition one_k : kexp := KElem (fun _ _ => 1%R).

Lemma home_refuted : exists ops p q ord w' r,
  let w := run_ops ops in
  [/\ step w (OSum p q ord) = (w', ROk (RPid R r)), home w p = home w q &
      home w' r <> home w p].
Proof.
pose ops : seq op := [:: OMeasure; OGP 0 MZero one_k; OCond 0 (Obs 0 (Num [::]) (dzero R 0 0) [::])].
exists ops, 0, 0, [:: 1; 0], (step (run_ops ops) (OSum 0 0 [:: 1; 0])).1, 1 => w; split; last by vm_compute.
  have e : (step w (OSum 0 0 [:: 1; 0])).2 = ROk (RPid R 1) by vm_compute.
  by rewrite -e -surjective_pairing.
by vm_compute.
Qed.

Lemma right_rule_refuted : exists ops m mu k l rr w' r j x D,
  let w := run_ops ops in
  [/\ step w (@OUser R m mu k l (Some rr)) = (w', ROk (RPid R r)), j \in members w m &
      exists A B, [/\ kernel_at D 5 w' m j r x x = Some A,
        obind (fun k => evk (see_k w') (see_m w') D 5 k x x) (rr j) = Some B & ent A 0 0 <> ent B 0 0]].
Proof.
pose ops : seq op := [:: OMeasure; OGP 0 MZero one_k].
pose o : op := OUser 0 MZero one_k (fun _ => Some one_k) (Some (fun _ => Some KZero)).
exists ops, 0, MZero, one_k, (fun _ => Some one_k), (fun _ => Some KZero).
exists (step (run_ops ops) o).1, 1, 0, (Num [:: [::]]), (fun _ _ _ => 0%R) => w; split; first last.
- exists (DMat 1 1 (fun _ _ => 1%R)), (dzero R 1 1); split; try by vm_compute.
  by apply/eqP; rewrite /= oner_eq0.
- by vm_compute.
  have e : (step w o).2 = ROk (RPid R 1) by vm_compute.
  by rewrite -e -surjective_pairing.
Qed.

Lemma user_rules_run ops m mu k l rr w' res :
  let w := run_ops ops in step w (OUser m mu k l rr) = (w', ROk res) ->
  exists r, [/\ res = RPid R r, see_m w' m r = Some mu, see_k w' m r r = Some k &
      forall j, j \in members w m ->
        see_k w' m r j = l j /\ see_k w' m j r = omap (fun k => KRev k) (l j)].
Proof. by move=> w E; have [a b c H] := user_rules (winv_run ops) E; exists (w_np w); split. Qed.

Lemma copy_law ops m p w' res :
  let w := run_ops ops in step w (OCopy m p) = (w', ROk res) ->
  exists r, [/\ res = RPid R r, p \in members w m, r \notin members w m,
      see_m w' m r = see_m w m p & see_k w' m r r = see_k w m p p] /\
  (forall j, j \in members w m ->
     see_k w' m r j = see_k w m p j /\ see_k w' m j r = see_k w m j p).
Proof.
move=> w E; have I : winv w := winv_run ops; have [[a b c e] H] := copy_rules I E.
exists (w_np w); split=> //; split=> //; apply/negP => Hr.
have lt : m < w_nm w by move: Hr; rewrite /members; case: ifP.
by have := fresh_ne I lt Hr; rewrite eqxx.
Qed.

Lemma posterior_scope ops m ob w' res :
  let w := run_ops ops in step w (OCond m ob) = (w', ROk res) ->
  exists m', [/\ res = RMid R m', (w_nm w <= m')%N, members w' m' = members w m,
      forall p, (m' \in w_gm w' p) = (p \in members w m) &
      forall p, (p < w_np w)%N -> p \notin members w m -> forall ops',
        let w'' := run_from w' ops' in
        [/\ p \notin members w'' m', see_m w'' m' p = None &
            forall j, see_k w'' m' p j = None /\ see_k w'' m' j p = None]].
Proof.
by move=> w E; have [a b c e] := cond_scope (winv_run ops) E; exists (w_nm w); split.
Qed.

Lemma not_member w m p : winv w -> p \notin members w m ->
  [/\ p \notin members w m, see_m w m p = None &
      forall j, see_k w m p j = None /\ see_k w m j p = None].
Proof.
move=> I pn; split=> //.
  by case X: (see_m _ _ _) => //; rewrite (see_m_members I X) in pn.
by move=> j; split; case X: (see_k _ _ _ _) => //; have := see_k_members I X;
  rewrite (negbTE pn) ?andbF.
Qed.

Lemma later_processes ops m m' mu k w' r ops' :
  let w := run_ops ops in step w (OGP m mu k) = (w', ROk (RPid R r)) -> m' <> m -> (m' < w_nm w)%N ->
  let w'' := run_from w' ops' in
  [/\ r \notin members w'' m', see_m w'' m' r = None &
      forall j, see_k w'' m' r j = None /\ see_k w'' m' j r = None].
Proof.
move=> w E nm lm w''; have I : winv w := winv_run ops.
have I' : winv w' by have := winv_step (OGP m mu k) I; rewrite E.
have [er [lt [ms [un /= em A]]]] := creates_spec I E isT; subst ms; case: er => er; subst r.
apply: not_member; first exact: winv_from.
have e : w_nm w' = w_nm w := ad_nm A.
rewrite from_old ?e //.
have mn : m' \notin [:: m] by rewrite inE; apply/eqP.
have [-> _ _] := log_view 0 0 I I' (ad_nm A) (ad_out A mn).
by apply/negP => Hr; have := fresh_ne I lm Hr; rewrite eqxx.
Qed.

(* C33 *)
Lemma empty_condition ops m ob w' res ops' i j :
  let w := run_ops ops in step w (OCond m ob) = (w', ROk res) -> o_data ob = None -> ne (o_x ob) = 0 ->
  i \in members w m -> j \in members w m ->
  exists m', [/\ res = RMid R m', members w' m' = members w m &
    let w'' := run_from w' ops' in
    [/\ see_k w'' m' i j = see_k w m i j, see_m w'' m' i = see_m w m i,
        forall D n x y, kernel_at D n w'' m' i j x y = kernel_at D n w'' m i j x y &
        forall D n x, mean_at D n w'' m' i x = mean_at D n w'' m i x]].
Proof.
move=> w E d0 n0 Hi Hj; have I : winv w := winv_run ops.
have ex : op_exists w (OCond m ob) by move: E; rewrite /step; case: ifP.
have [a b _ _] := cond_scope I E; exists (w_nm w); split=> // w''.
have [w2 [[E2 I' nm np lg] gm]] := cond_view I ex; move: E2; rewrite E => -[ew er]; subst w2.
have lm : m < w_nm w by move: Hi; rewrite /members; case: ifP.
have L : later w' w'' by apply: later_from.
have I'' : winv w'' by apply: winv_from.
have Hi' : i \in members w' (w_nm w) by rewrite b.
have Hj' : j \in members w' (w_nm w) by rewrite b.
have [_ c e] := later_view I' I'' L Hi' Hj'.
have Li : i \in pids (w_log w m) by move: Hi; rewrite members_log // mem_rev.
have Lj : j \in pids (w_log w m) by move: Hj; rewrite members_log // mem_rev.
have ek : see_k w'' (w_nm w) i j = see_k w m i j.
  rewrite c !see_k_log // nm ltnSn lm lg /= Li Lj /post_k d0 /post_k1 n0 eqxx /= /onk /onm eqxx.
  by case: (KA _ _ _ _).
have em : see_m w'' (w_nm w) i = see_m w m i.
  rewrite e !see_m_log // nm ltnSn lm lg /= Li /post_m d0 /post_m1 n0 eqxx /= /onM /onm eqxx.
  by case: (MA _ _ _).
have L0 : later w w''.
  have -> : w'' = run_from w (OCond m ob :: ops') by rewrite /w'' /= E.
  exact: later_from.
have [_ c0 e0] := later_view I I'' L0 Hi Hj.
by split=> // [D n x y|D n x]; rewrite /kernel_at /mean_at ?ek ?em ?c0 ?e0.
Qed.

End GraphFacts.
