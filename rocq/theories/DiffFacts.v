(* Facts about diff_approx. *)
From Coq Require Import List.
From mathcomp Require Import all_ssreflect all_algebra.
From mathcomp Require Import zify.
From Verif Require Import Graph Machine Refine Worlds Eval GraphSpec GraphProofs GraphOps GraphFacts RV RVProofs Sound Typing ModelSpec ModelFacts Cond CondFacts CrossFacts LawFacts DiffApprox.
Set Implicit Arguments. Unset Strict Implicit. Unset Printing Implicit Defensive.
Import GRing.Theory.
Local Open Scope ring_scope.

Section DiffOps.
Variable R : fieldType.
Implicit Types (w : world R) (ops : seq (op R)).

Lemma run_rcons ops o : run_ops (rcons ops o) = (step (run_ops ops) o).1.
Proof. by rewrite /run_ops foldl_rcons. Qed.
Lemma run_from_cat ops ops' : run_ops (ops ++ ops') = run_from (run_ops ops) ops'.
Proof. by rewrite /run_ops foldl_cat. Qed.

Lemma stepp_law ops o ps d w' r : law o = Some d -> operands o = Some ps -> stepp (run_ops ops) o = (w', Some r) ->
  w' = run_ops (rcons ops o) /\
  forall m, (m < w_nm (run_ops ops))%N -> all (fun p => m \in w_gm (run_ops ops) p) ps ->
    [/\ (m < w_nm w')%N, m \in w_gm w' r, defined w' m r d & forall p, m \in w_gm (run_ops ops) p -> m \in w_gm w' p].
Proof.
move=> Ed Eo; rewrite /stepp run_rcons; case E: (step _ _) => [w1 res]; case: res E => [[|r'|?|?|?]|?|] E // [<- er]; subst r'; split=> // m lt A.
have [r' [[er ler] Hg _ _ Ho]] := derived_scope Eo E.
have I := winv_run ops; have I' := winv_run (rcons ops o); rewrite run_rcons E /= in I'.
have cr : creates o by case: (o) Eo.
have [er' _] := creates_spec I E cr; case: er' => er'; case: er => er; rewrite -er in Hg ler.
have Hm : m \in w_gm w1 r by rewrite Hg lt A.
have lt' : (m < w_nm w1)%N by move: (Hm); rewrite mem_gm // => /andP [].
split=> //; first by have := @law_defined _ _ _ _ _ _ m [::] I E Ed; rewrite -er'; apply.
move=> p Hp; rewrite Ho //.
move: Hp; rewrite mem_gm // => /andP [_].
by rewrite members_log // mem_rev; apply: (v_np I.1).
Qed.

Lemma affine_from w m r l c ops : winv w -> affine w m r l c -> affine (run_from w ops) m r l c.
Proof.
move=> I; elim=> {r l c} [p|r p l c H _ IH|r p l c a H _ IH|r p l c a H _ IH|r p q l c l' c' H _ IH _ IH'].
- exact: af_self.
- exact: af_copy (defined_from ops I H) IH.
- exact: af_const (defined_from ops I H) IH.
- exact: af_scale (defined_from ops I H) IH.
- exact: af_sum (defined_from ops I H) IH IH'.
Qed.

(* [l] are the coefficients and shifts of the grid points and coefficients [gcs], with all
   coefficients multiplied by [b]. *)
Definition fterms (h : R) (b : R) w m (p : pid) (l : seq (R * pid)) (gcs : seq (R * R)) : Prop :=
  Forall2 (fun t gc => t.1 = b * gc.2 /\
    defined w m t.2 (DMap p (shiftX (fun=> - gc.1 * h)) (Some (shiftX (fun=> 0))))) l gcs.
Lemma fterms_from h b w m p l gcs ops : winv w -> fterms h b w m p l gcs -> fterms h b (run_from w ops) m p l gcs.
Proof. by move=> I; elim=> [|t gc l' gcs' [e H] _ IH]; constructor=> //; split=> //; apply: defined_from. Qed.

Section Loop.
Variables (m : mid) (p : pid) (h : R).
Definition dstate w (df : option pid) (gcs : seq (R * R)) : Prop :=
  if df is Some d then exists l, [/\ affine w m d l 0, m \in w_gm w d & fterms h 1 w m p l gcs] else gcs = [::].

Lemma diff_turn_ok ops df gcs g c ord w' d : (m < w_nm (run_ops ops))%N -> m \in w_gm (run_ops ops) p ->
  dstate (run_ops ops) df gcs -> diff_turn p h df g c ord (run_ops ops) = (w', Some d) ->
  exists ops', [/\ w' = run_ops (ops ++ ops'), (m < w_nm w')%N, m \in w_gm w' p & dstate w' (Some d) (rcons gcs (g, c))].
Proof.
move=> lt Hp St; rewrite /diff_turn.
case E1: (stepp _ _) => [w1 [s|]] //; have [e1 H1] := @stepp_law _ (OShift p _) _ _ _ _ erefl erefl E1.
have [|lt1 Hs Ds K1] := H1 m lt; first by rewrite /= Hp.
subst w1; case E2: (stepp _ _) => [w2 [t|]] //; have [e2 H2] := @stepp_law _ (OScale s c) _ _ _ _ erefl erefl E2.
have [|lt2 Ht Dt K2] := H2 m lt1; first by rewrite /= Hs.
subst w2; set ops2 := rcons _ _ in lt2 Ht Dt K2 *; set ops1 := rcons ops _ in lt1 Hs Ds K1 ops2 Dt Ht K2 lt2 *.
have Com o3 : run_ops (rcons ops2 o3) = run_from (run_ops ops) [:: OShift p (fun=> - g * h); OScale s c; o3] /\
    affine (run_ops (rcons ops2 o3)) m t [:: (c * 1, s)] (c * 0) /\
    defined (run_ops (rcons ops2 o3)) m s (DMap p (shiftX (fun=> - g * h)) (Some (shiftX (fun=> 0)))).
  have R1 : run_ops (rcons ops2 o3) = run_from (run_ops ops1) [:: OScale s c; o3].
    by rewrite -run_from_cat /ops2 -!cats1 -!catA.
  have R2 : run_ops (rcons ops2 o3) = run_from (run_ops ops2) [:: o3] by rewrite -run_from_cat -!cats1.
  split; first by rewrite -run_from_cat /ops2 /ops1 -!cats1 -!catA.
  split; last by rewrite R1; apply: defined_from Ds; apply: winv_run.
  by rewrite R2; apply: affine_from; [exact: winv_run | exact: af_scale Dt (af_self _ _ _)].
case: df St => [df|] St; [set o3 := OSum df t ord | set o3 := OAddC t 0]; move=> E3;
  have [R3 [At Ds3]] := Com o3; exists [:: OShift p (fun=> - g * h); OScale s c; o3];
  rewrite run_from_cat -R3.
  have [e3 H3] := @stepp_law _ (OSum df t ord) _ _ _ _ erefl erefl E3; have [l [Ad Hd Fd]] := St.
  have [|lt3 Hr Dr K3] := H3 m lt2; first by rewrite /= Ht !K2 ?K1.
  rewrite -e3; split=> //; first by apply: K3; apply: K2; apply: K1.
  exists (l ++ [:: (c * 1, s)]); split=> //.
    rewrite -[X in affine _ _ _ _ X]addr0 -[X in _ + X](mulr0 c); apply: af_sum Dr _ _; last by rewrite e3.
    by rewrite e3 R3; apply: affine_from Ad; apply: winv_run.
  rewrite -cats1; apply: Forall2_app; first by rewrite e3 R3; apply: fterms_from Fd; apply: winv_run.
  by constructor=> //=; rewrite mulr1 mul1r e3.
have [e3 H3] := @stepp_law _ (OAddC t 0) _ _ _ _ erefl erefl E3; rewrite /= in St; subst gcs.
have [|lt3 Hr Dr K3] := H3 m lt2; first by rewrite /= Ht.
rewrite -e3; split=> //; first by apply: K3; apply: K2; apply: K1.
exists [:: (c * 1, s)]; split=> //.
  by rewrite -[X in affine _ _ _ _ X]addr0 -[X in X + _](mulr0 c); apply: af_const Dr _; rewrite e3.
by constructor=> //=; rewrite mulr1 mul1r e3.
Qed.

Lemma diff_loop_ok gcs' ops df gcs ords w' d : (m < w_nm (run_ops ops))%N -> m \in w_gm (run_ops ops) p ->
  dstate (run_ops ops) df gcs -> diff_loop p h df gcs' ords (run_ops ops) = (w', Some d) ->
  exists ops', [/\ w' = run_ops (ops ++ ops'), (m < w_nm w')%N, m \in w_gm w' p & dstate w' (Some d) (gcs ++ gcs')].
Proof.
elim: gcs' ops df gcs ords => [|[g c] gcs' IH] ops df gcs ords lt Hp St /=.
  by case=> <- e; subst df; exists [::]; rewrite !cats0.
case E: (diff_turn _ _ _ _ _ _ _) => [w1 [d1|]] //; have [ops1 [e1 lt1 Hp1 St1]] := diff_turn_ok lt Hp St E.
rewrite e1 in lt1 Hp1 St1 * => E'; have [ops2 [e2 lt2 Hp2 St2]] := IH _ _ _ _ lt1 Hp1 St1 E'.
by exists (ops1 ++ ops2); rewrite catA -cat_rcons; split.
Qed.
End Loop.

Lemma diff_approx_ok ops m p h deriv gcs ords w' r : m \in w_gm (run_ops ops) p ->
  diff_approx p h deriv gcs ords (run_ops ops) = (w', Some r) ->
  exists ops', [/\ w' = run_ops (ops ++ ops'), m \in w_gm w' p, m \in w_gm w' r &
    exists l, affine w' m r l 0 /\ fterms h (1 / h ^+ deriv) w' m p l gcs].
Proof.
move=> Hp; have I := winv_run ops; have lt : (m < w_nm (run_ops ops))%N by move: (Hp); rewrite mem_gm // => /andP [].
rewrite /diff_approx; case E: (diff_loop _ _ _ _ _ _) => [w1 [d|]] // E1.
have [ops1 [e1 lt1 Hp1 [l [Ad Hd Fd]]]] := @diff_loop_ok m p h gcs ops None [::] ords w1 d lt Hp erefl E.
subst w1; rewrite cat0s in Fd; have [e2 H2] := @stepp_law _ (OScale _ _) _ _ _ _ erefl erefl E1; have [|lt2 Hr Dr K2] := H2 m lt1; first by rewrite /= Hd.
exists (rcons ops1 (OScale d (1 / h ^+ deriv))).
have R2 : w' = run_from (run_ops (ops ++ ops1)) [:: OScale d (1 / h ^+ deriv)] by rewrite e2 run_rcons.
split=> //; [by rewrite e2 -rcons_cat | exact: K2 |].
exists [seq (1 / h ^+ deriv * t.1, t.2) | t <- l]; split.
  rewrite -[X in affine _ _ _ _ X](mulr0 (1 / h ^+ deriv)); apply: af_scale Dr _.
  by rewrite R2; apply: affine_from Ad; apply: winv_run.
have := fterms_from [:: OScale d (1 / h ^+ deriv)] (winv_run _) Fd; rewrite -R2.
elim=> [|t gc l' gcs' [e H] _ IH] /=; first by constructor.
by constructor; [split; rewrite /= ?e ?mul1r | exact: IH].
Qed.
End DiffOps.

Section DiffFacts.
Variables (R : fieldType) (W : space R).
Variable D : nat -> (point R -> R) -> point R -> R.
Variables (G : pid -> point R -> rv W) (eps : mid -> nat -> rv W).
Notation V := (rv W). Notation Ex := (@Ex R W). Notation cov := (@cov R W).
Variables (ops ops' : seq (op R)) (P : mid -> pid -> Prop).
Variables (m : mid) (p r : pid) (h : R) (deriv : nat) (gcs : seq (R * R)) (ords : seq (seq mid)) (w' : world R).
Hypothesis Hp : m \in w_gm (run_ops ops) p.
Hypothesis E : diff_approx p h deriv gcs ords (run_ops ops) = (w', Some r).
Let w := run_from w' ops'.
Variable CV : mid -> pid -> pid -> input R -> input R -> dmat R -> Prop.
Hypothesis Mo : sound D G eps w P CV.
Notation is_at := (is_at D G eps w). Notation meant := (meant D G eps w P).
Notation cov_is := CV. Notation mean_is := (mean_is D w).

Let grid k := (nth (0, 0) gcs k).1.
Let coefs k := (nth (0, 0) gcs k).2.
Let at_grid k (xs : seq (point R)) := Num [seq addX (fun=> grid k * h) t | t <- xs].

Lemma shift_neg g (x : point R) : shiftX (fun=> - g * h) x = addX (fun=> g * h) x.
Proof.
apply: (@eq_from_nth _ 0) => [|i]; rewrite feat_size ?size_mkseq // => li.
by rewrite feat_nth // nth_mkseq // mulNr opprK.
Qed.

Lemma diff_vec m1 xs u : m1 = m -> is_at m r (Num xs) u -> exists2 us, size us = size gcs /\
   (forall k, (k < size gcs)%N -> is_at m p (at_grid k xs) (nth [::] us k) /\ size (nth [::] us k) = size u) &
   forall i, (i < size u)%N ->
     Ex (vget u i) = (\sum_(k < size gcs) coefs k * Ex (vget (nth [::] us k) i)) / h ^+ deriv /\
     forall g, cov (vget u i) g = (\sum_(k < size gcs) coefs k * cov (vget (nth [::] us k) i) g) / h ^+ deriv.
Proof.
move=> _ Hu; have [ops1 [e1 _ Hr [l [A F]]]] := diff_approx_ok Hp E.
have [I Mo'] : winv w /\ exists ops2, w = run_ops ops2.
  by rewrite /w e1 -run_from_cat; split; [apply: winv_run | exists ((ops ++ ops1) ++ ops')].
have I' : winv w' by rewrite e1; apply: winv_run.
have {}A := affine_from ops' I' A; have {}F := fterms_from ops' I' F; rewrite -/w in A F.
have [bs T L] := affine_den I Hu.1 A Hu.2; exists bs.
  split=> [|k lk]; first by rewrite -(Forall2_size T) (Forall2_size F).
  have lk' : (k < size l)%N by rewrite (Forall2_size F).
  have [Hb sb] := Forall2_nth (0, 0%N) [::] T lk'; have [_ Dk] := Forall2_nth (0, 0%N) (0, 0) F lk'.
  split=> //; have [ops2 ew] := Mo'; rewrite ew in Dk Hb *.
  have := proj1 (map_at D G eps xs (nth [::] bs k) Dk); rewrite /at_grid.
  rewrite (eq_map (shift_neg _)); apply; split=> //; rewrite -ew; exact: Hu.1.
have LE f i : lin l bs f i = (\sum_(k < size gcs) coefs k * f (vget (nth [::] bs k) i)) / h ^+ deriv.
  rewrite /lin mulr_suml /coefs; have sz := Forall2_size T.
  elim: F bs sz {T L} => {A l} [|t gc l' gcs' [e _] _ IH] [|b bs] //= sz; first by rewrite big_ord0 big_nil.
  rewrite big_cons big_ord_recl /= e; congr (_ + _); first by rewrite mul1r -mulrA mulrC.
  by rewrite IH //; case: sz.
by move=> i li; have [-> Lc] := L i li; rewrite LE addr0; split=> // g; rewrite Lc LE.
Qed.

Lemma diff_ops : exists ops2, w = run_ops ops2.
Proof.
have [ops1 [e1 _ _ _]] := diff_approx_ok Hp E.
by rewrite /w e1 -run_from_cat; exists ((ops ++ ops1) ++ ops').
Qed.

Lemma diff_sound : model D G eps w P -> sound D G eps w P (ModelSpec.cov_is D w).
Proof. by have [ops2 ew] := diff_ops; apply: (sound_at ew). Qed.

(* C26 *)
Lemma diff_mean xs e es : P m p -> meant m r (Num xs) -> mean_is m r (Num xs) e ->
  (forall k, (k < size gcs)%N -> mean_is m p (at_grid k xs) (es k)) ->
  (forall k, (k < size gcs)%N -> size (es k) = size e) /\
  forall i, (i < size e)%N -> nth 0 e i = (\sum_(k < size gcs) coefs k * nth 0 (es k) i) / h ^+ deriv.
Proof.
move=> Pp [Pr [u Hu]] Ee Ek; have [us [_ Hk] HE] := diff_vec erefl Hu.
have [ops2 ew] := diff_ops; have Mo' := Mo; rewrite ew in Mo' Hu Ee Ek Hk.
have -> := is_m Mo' Pr Hu Ee; have Es k lk := is_m Mo' Pp (Hk k lk).1 (Ek k lk).
rewrite size_map; split=> [k lk|i li]; first by rewrite Es // size_map (Hk k lk).2.
rewrite map_nth_Ex //; have [-> _] := HE i li; congr (_ / _); apply: eq_bigr => k _.
by rewrite Es // map_nth_Ex // (Hk k (ltn_ord k)).2.
Qed.
Lemma diff_cov xs q y M Ks : P m p -> meant m r (Num xs) -> meant m q y -> cov_is m r q (Num xs) y M ->
  (forall k, (k < size gcs)%N -> cov_is m p q (at_grid k xs) y (Ks k)) ->
  (forall k, (k < size gcs)%N -> nr (Ks k) = nr M /\ nc (Ks k) = nc M) /\
  forall i j, (i < nr M)%N -> (j < nc M)%N ->
    ent M i j = (\sum_(k < size gcs) coefs k * ent (Ks k) i j) / h ^+ deriv.
Proof.
move=> Pp [Pr [u Hu]] [Pq [v Hv]] Ee Ek; have [us [_ Hk] HE] := diff_vec erefl Hu.
have [ops2 ew] := diff_ops; have Mo' := Mo; rewrite ew in Mo' Hu Hv Hk.
have [-> -> F] := is_k Mo' Pr Pq Hu Hv Ee; have Es k lk := is_k Mo' Pp Pq (Hk k lk).1 Hv (Ek k lk).
split=> [k lk|i j li lj]; first by have [-> -> _] := Es k lk; rewrite (Hk k lk).2.
rewrite F //; have [_ ->] := HE i li; congr (_ / _); apply: eq_bigr => k _.
by have [_ _ ->] := Es k (ltn_ord k); rewrite ?(Hk k (ltn_ord k)).2.
Qed.
End DiffFacts.
