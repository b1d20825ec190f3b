(* Independence, linearity and maps of the inputs, in numbers. *)
From Coq Require Import List.
From mathcomp Require Import all_ssreflect all_algebra.
From mathcomp Require Import zify.
From Verif Require Import Graph Machine Refine Worlds Eval GraphSpec GraphProofs GraphOps GraphFacts RV RVProofs Sound Typing ModelSpec ModelFacts Cond CondFacts CrossFacts.
Set Implicit Arguments. Unset Strict Implicit. Unset Printing Implicit Defensive.
Import GRing.Theory.
Local Open Scope ring_scope.

Section Avoid.
Variables (R : fieldType) (W : space R).
Variable D : nat -> (point R -> R) -> point R -> R.
Variables (G : pid -> point R -> rv W) (eps : mid -> nat -> rv W).
Notation V := (rv W). Notation Ex := (@Ex R W). Notation cov := (@cov R W).
Notation at_ := (at_ D G eps).
Hypothesis D0 : forall d t, D d (fun=> 0) t = 0.
Implicit Types (h : hist R) (u : seq V).

Lemma at_avoid g r m h p x u : (forall q mu k t, made h q (DInd mu k) -> q <> r -> cov g (G q t) = 0) ->
  (forall m' i, cov g (eps m' i) = 0) -> avoids h r p -> at_ m h p x u -> null g u.
Proof.
move=> HG He; elim: h m p x u HG => [|pm par IH o|r' d rest IH] m p x u //= HG.
  case=> Ap Ao [u0 H0 F]; have {}IH q y v : avoids par r q -> at_ pm par q y v -> null g v by apply: IH.
  have /null_nth N0 := IH _ _ _ Ap H0.
  apply/null_nth => i lt; have sz := Forall2_size F; rewrite -sz in lt.
  have [w Hw e] := Forall2_nth (rone W) (rone W) F lt; rewrite /vget e.
  have /null_nth Nw : null g w by apply: (data_null _ _ Hw) => // q y v Hq; apply: IH; apply: Ao.
  by apply: null_given => //; [rewrite /noise_of; case: (o_data o) | apply: N0].
have {}IH m1 q y v : avoids rest r q -> at_ m1 rest q y v -> null g v.
  by apply: IH => q1 mu k t Hq; apply: HG; right; exact: Hq.
case: eqP => [ep [pr Us A]|_]; last exact: IH.
have {}IH p1 x1 u1 : p1 \in needs d -> at_ m rest p1 x1 u1 -> null g u1 by move=> /A; apply: IH.
have I0 (q : pid) s : q \in q :: s by rewrite inE eqxx.
have I1 (q r0 : pid) s : q \in [:: r0, q & s] by rewrite !inE eqxx orbT.
case: d A IH Us HG => [mu k|mu k l|q|q c|q f|q q'|q c|q f|q t t0|q d|ps] //= A IH _ HG.
- case=> xs _ ->; apply/null_nth => i; rewrite size_map => lt.
  by rewrite /vget (nth_map [::]) // -ep (HG p mu k) //; left.
- by apply: IH.
- case=> a /(IH _ _ _ (I0 _ _)) /null_nth H ->; apply/null_nth => i; rewrite size_map => lt.
  by rewrite vget_map // covDr H // cov_constr addr0.
- case=> xs [a [_ /(IH _ _ _ (I0 _ _)) /null_nth H e ->]]; apply/null_nth => i; rewrite size_zipw // => lt.
  by rewrite /vget (nth_zipw _ (rone W) [::]) // covDr H // cov_constr addr0.
- case=> a [b [/(IH _ _ _ (I0 _ _)) /null_nth H1 /(IH _ _ _ (I1 _ _ _)) /null_nth H2 e ->]].
  apply/null_nth => i; rewrite size_zipw // => lt.
  by rewrite /vget (nth_zipw _ (rone W) (rone W)) // covDr H1 // H2 -?e // addr0.
- case=> a /(IH _ _ _ (I0 _ _)) /null_nth H ->; apply/null_nth => i; rewrite size_map => lt.
  by rewrite vget_map // covZr H // mulr0.
- case=> fv [a [_ Ha e ->]]; have /null_nth H : null g a by apply: (IH _ _ _ _ Ha); case: (f) => * /=; apply: I0.
  by apply: (@null_zipw R _ _ 0) => // i lt; rewrite covZr H // mulr0.
- by case=> xs _; apply: IH.
- case=> xs [F [dF [_ H [_ dc] ->]]]; apply/null_nth => i; rewrite size_map => lt.
  rewrite /vget (nth_map [::]) // covC dc.
  have -> : (fun t => cov (F t) g) = fun=> 0; last exact: D0.
  apply: FunctionalExtensionality.functional_extensionality => t; rewrite covC.
  by have /null_nth /(_ 0%N isT) := IH _ _ _ (I0 _ _) (H t).
- case: x => //= [xs [us F ->]|a x [Ha L]]; last by apply: (lift_null _ L) => x' u'; apply: IH.
  elim: F IH {A} => /= [|q' v l l' H1 _ H2] IH; first by constructor.
  apply: null_cat; first exact: (IH _ _ _ (I0 _ _) H1).
  by apply: H2 => p1 x1 u1 Hp; apply: IH; rewrite in_cons Hp orbT.
Qed.

Lemma given_null e y dat (a : V) : (forall k, (k < size dat)%N -> cov a (vget dat k) = 0) -> (forall k, cov a (e k) = 0) ->
  aseq (given e y dat a) a.
Proof.
move=> Hd He; have ec : gc e dat a = 0 by apply/rowP => j; rewrite !mxE covDr Hd // He addr0.
split=> [|g]; first by rewrite given_Ex ec !mul0mx mxE addr0.
by rewrite cov_given ec mul0mx big1 ?subr0 // => k _; rewrite mxE mul0r.
Qed.

Hypothesis Ge : forall m i p t, cov (G p t) (eps m i) = 0.

Lemma at_unseen h m r mu k x u : (forall q mu k s t, made h q (DInd mu k) -> q <> r -> cov (G r s) (G q t) = 0) ->
  wfh h -> made h r (DInd mu k) -> unseen h r -> at_ m h r x u ->
  Forall (fun v => exists t, aseq v (G r t)) u.
Proof.
elim: h m x u => [|pm par IH o|r' d rest IH] m x u //= Gi Wf.
  move=> M [U A] [u0 /(IH _ _ _ Gi Wf M U) F0 F]; elim: F F0 => [|v0 v l l' [w Hw ->] _ IHF] F0; constructor.
    inversion F0; subst; match goal with H : exists t, _ |- _ => case: H => t [Et Ht] end; exists t.
    apply: aseq_trans (_ : aseq v0 _) => //; apply: given_null => [i li|i]; rewrite Ht //; last by rewrite /noise_of; case: (o_data o).
    have /null_nth N : null (G r t) w; last exact: N.
    apply: (data_null _ _ Hw) => // q y' v' Hq; apply: (at_avoid (r := r)) => //; last exact: A.
    by move=> q' mu1 k1 s Mq; apply: Gi Mq.
  by apply: IHF; inversion F0.
rewrite [r == r']eq_sym; case: eqP => [e|ne] M; last first.
  case: M => [[e _]|M]; first by rewrite e in ne.
  by apply: IH => //; [move=> q mu1 k1 s t Mq; apply: (Gi q mu1 k1); right | case/and3P: Wf].
move=> _; case: M => [[_ ->] /=|M]; last first.
  by case/and3P: Wf => Hr _ _; move: Hr; rewrite e (made_pids M).
case=> xs _ ->; rewrite -e; elim: xs => [|t xs IHx] /=; constructor => //; by exists t.
Qed.
End Avoid.

Section LawFacts.
Variables (R : fieldType) (W : space R).
Variable D : nat -> (point R -> R) -> point R -> R.
Variables (G : pid -> point R -> rv W) (eps : mid -> nat -> rv W).
Notation V := (rv W). Notation Ex := (@Ex R W). Notation cov := (@cov R W).
Variables (ops : seq (op R)) (P : mid -> pid -> Prop).
Let w := run_ops ops.
Variable CV : mid -> pid -> pid -> input R -> input R -> dmat R -> Prop.
Hypothesis Mo : sound D G eps w P CV.
Notation is_at := (is_at D G eps w). Notation meant := (meant D G eps w P).
Notation cov_is := CV. Notation mean_is := (mean_is D w).
Implicit Types (u v d : seq V) (K M : dmat R).
Let I := winv_run ops.

Lemma lift_all (A : input R -> seq V -> Prop) (Q : V -> Prop) x u :
  (forall x u, A x u -> Forall Q u) -> lift A x u -> Forall Q u.
Proof.
move=> H; elim=> [xs v /H|p y v /H||y xs v v' _ L1 _ L2] //.
by elim: L1 => //= a l Ha _ IH; constructor.
Qed.

Lemma made_alone m r mu k : (m < w_nm w)%N -> made (w_log w m) r (DInd mu k) -> alone w r.
Proof.
elim/ltn_ind: m => m IHm lt.
suff H h : ext h (w_log w m) -> made h r (DInd mu k) -> alone w r by apply: H; apply: ext_refl.
elim: h => [|pm par _ o|r' d rest IH] E //= Hm.
  have eb : base (w_log w m) = Some (pm, par, o) by rewrite (ext_base E).
  have [lp Ep _] := l_base (v_log I.1) lt eb; apply: (IHm pm lp (ltn_trans lp lt)).
  have gen h' : ext par h' -> made h' r (DInd mu k) by elim=> // p' d' h1 _ IHe; right.
  exact: gen Ep.
case: Hm => [[er ed]|Hm]; last by apply: IH Hm; apply: ext_tail E.
by subst; exists m, mu, k, rest.
Qed.

(* C17 *)
Lemma independent_derived m r mu k q x y M : defined w m r (DInd mu k) -> unseen (w_log w m) r ->
  avoids (w_log w m) r q -> meant m r x -> meant m q y -> cov_is m r q x y M ->
  forall i j, (i < nr M)%N -> (j < nc M)%N -> ent M i j = 0.
Proof.
move=> [lt Md] U A [Pr [u Hu]] [Pq [v Hv]] E; have [su sv F] := is_k Mo Pr Pq Hu Hv E.
have Wf := l_wf (v_log I.1) lt; have [D0 Gi Ge] : [/\ forall n t, D n (fun=> 0) t = 0,
    forall q mu k s t, made (w_log w m) q (DInd mu k) -> q <> r -> cov (G r s) (G q t) = 0 &
    forall m i p t, cov (G p t) (eps m i) = 0].
  case: Mo => Va _; split; [exact: (vd_zero Va) | | by move=> *; rewrite covC (vd_ind_eps Va)].
  move=> q' mu' k' s t Mq ne; apply: (vd_ind Va); [by move=> e; apply: ne | exact: made_alone lt Md | exact: made_alone lt Mq].
move=> i j; rewrite su sv => li lj; rewrite F //.
have FA : Forall (fun a => exists t, aseq a (G r t)) u.
  by apply: lift_all Hu.2 => x' u'; apply: (at_unseen _ _ Gi _ Md U).
have [t [_ ->]] : exists t, aseq (vget u i) (G r t).
  by elim: FA i li => //= a l Ha _ IHl [|i] //= li; apply: IHl.
have /null_nth N : null (G r t) v; last exact: N.
apply: lift_null Hv.2 => y' v'; apply: at_avoid A => // q' mu' k' s Mq; apply: Gi Mq.
Qed.

(* C21 *)
Lemma affine_equal_cov m p q l l' c x s z M M' : affine w m p l c -> affine w m q l' c ->
  (forall r, coef l r = coef l' r) -> meant m p x -> meant m q x -> meant m s z ->
  cov_is m p s x z M -> cov_is m q s x z M' -> nr M = nr M' -> same_matrix M M'.
Proof.
move=> A A' C [Pp [u Hu]] [Pq [v Hv]] [Ps [t Ht]] E E' sz.
have K := is_k Mo Pp Ps Hu Ht E; have K' := is_k Mo Pq Ps Hv Ht E'.
apply: (covmat_same K K' _) => //; apply: (affine_same I A A' C Hu Hv).
by case: K sz => -> _ _; case: K' => ->.
Qed.
Lemma affine_equal_mean m p q l l' c x e e' : affine w m p l c -> affine w m q l' c ->
  (forall r, coef l r = coef l' r) -> meant m p x -> meant m q x ->
  mean_is m p x e -> mean_is m q x e' -> size e = size e' -> e = e'.
Proof.
move=> A A' C [Pp [u Hu]] [Pq [v Hv]] E E'.
rewrite (is_m Mo Pp Hu E) (is_m Mo Pq Hv E') !size_map => sz.
by apply: same_Ex; apply: (affine_same I A A' C Hu Hv).
Qed.
Lemma affine_const_cov m p l c x s z M : affine w m p l c -> (forall r, coef l r = 0) -> meant m p x -> meant m s z ->
  cov_is m p s x z M -> forall i j, (i < nr M)%N -> (j < nc M)%N -> ent M i j = 0.
Proof.
move=> A C [Pp [u Hu]] [Ps [t Ht]] E i j; have [-> -> F] := is_k Mo Pp Ps Hu Ht E.
by move=> li lj; rewrite F //; have [_ ->] := affine_zero I A C Hu li.
Qed.
Lemma affine_const_mean m p l c x e : affine w m p l c -> (forall r, coef l r = 0) -> meant m p x ->
  mean_is m p x e -> forall i, (i < size e)%N -> nth 0 e i = c.
Proof.
move=> A C [Pp [u Hu]] E i; rewrite (is_m Mo Pp Hu E) size_map => li.
by rewrite map_nth_Ex //; have [-> _] := affine_zero I A C Hu li.
Qed.

(* The numbers of a linear combination. *)
Lemma affine_cov m r l c s x z M (K : pid -> dmat R) : affine w m r l c -> (forall t, t \in l -> P m t.2) ->
  meant m r x -> meant m s z -> cov_is m r s x z M -> (forall t, t \in l -> cov_is m t.2 s x z (K t.2)) ->
  (forall t, t \in l -> nr (K t.2) = nr M /\ nc (K t.2) = nc M) /\
  forall i j, (i < nr M)%N -> (j < nc M)%N -> ent M i j = \sum_(t <- l) t.1 * ent (K t.2) i j.
Proof.
move=> A Pl [Pr [u Hu]] [Ps [v Hv]] E EK; have [su sv F] := is_k Mo Pr Ps Hu Hv E.
have [bs T L] := affine_den I Hu.1 A Hu.2.
have C t b : t \in l -> denotes D G eps m (w_log w m) t.2 x b -> covmat (K t.2) b v.
  by move=> Ht Hb; apply: (is_k Mo (Pl t Ht) Ps _ Hv (EK t Ht)); split=> //; exact: Hu.1.
split=> [t Ht|i j].
  have [b [Hb sb]] : exists b, denotes D G eps m (w_log w m) t.2 x b /\ size b = size u.
    elim: (T) Ht {C L Pl EK A} => //= t' b' l' bs' Hb _ IHl; rewrite inE => /orP [/eqP ->|/IHl //]; by exists b'.
  by have [-> -> _] := C t b Ht Hb; rewrite sb su sv.
rewrite su sv => li lj; rewrite F //; have [_ ->] := L i li.
elim: (T) C {L Pl EK A} => [|t b l' bs' [Hb sb] _ IHl] C; first by rewrite /lin !big_nil.
rewrite /lin /= !big_cons /=; congr (_ * _ + _); last by apply: IHl => t' b' Ht'; apply: C; rewrite inE Ht' orbT.
by have [_ _ ->] := C t b (mem_head _ _) Hb; rewrite ?sb.
Qed.
Lemma affine_mean m r l c x e (es : pid -> seq R) : affine w m r l c -> (forall t, t \in l -> P m t.2) ->
  meant m r x -> mean_is m r x e -> (forall t, t \in l -> mean_is m t.2 x (es t.2)) ->
  (forall t, t \in l -> size (es t.2) = size e) /\
  forall i, (i < size e)%N -> nth 0 e i = \sum_(t <- l) t.1 * nth 0 (es t.2) i + c.
Proof.
move=> A Pl [Pr [u Hu]] E EK; have Ee := is_m Mo Pr Hu E.
have [bs T L] := affine_den I Hu.1 A Hu.2.
have C t b : t \in l -> denotes D G eps m (w_log w m) t.2 x b -> es t.2 = map Ex b.
  by move=> Ht Hb; apply: (is_m Mo (Pl t Ht) _ (EK t Ht)); split=> //; exact: Hu.1.
rewrite Ee size_map; split=> [t Ht|i].
  have [b [Hb sb]] : exists b, denotes D G eps m (w_log w m) t.2 x b /\ size b = size u.
    elim: (T) Ht {C L Pl EK A} => //= t' b' l' bs' Hb _ IHl; rewrite inE => /orP [/eqP ->|/IHl //]; by exists b'.
  by rewrite (C t b) // size_map sb.
move=> li; rewrite map_nth_Ex //; have [-> _] := L i li; congr (_ + _).
elim: (T) C {L Pl EK A} => [|t b l' bs' [Hb sb] _ IHl] C; first by rewrite /lin !big_nil.
rewrite /lin /= !big_cons /=; congr (_ * _ + _); last by apply: IHl => t' b' Ht'; apply: C; rewrite inE Ht' orbT.
by rewrite (C t b (mem_head _ _) Hb) map_nth_Ex ?sb.
Qed.

(* C22 *)
Lemma map_at m r p t t0 xs u : defined w m r (DMap p t t0) -> is_at m r (Num xs) u <-> is_at m p (Num (map t xs)) u.
Proof.
case=> lt Md; have Wf := l_wf (v_log I.1) lt; have H := den_map D G eps m xs u Wf Md.
by split=> -[l' /H].
Qed.
Lemma map_cov m r p t t0 xs s z M M' : defined w m r (DMap p t t0) -> P m p ->
  meant m r (Num xs) -> meant m s z -> cov_is m r s (Num xs) z M -> cov_is m p s (Num (map t xs)) z M' ->
  same_matrix M M'.
Proof.
move=> Md Pp [Pr [u Hu]] [Ps [v Hv]] E E'.
have K := is_k Mo Pr Ps Hu Hv E; have K' := is_k Mo Pp Ps (proj1 (map_at _ _ Md) Hu) Hv E'.
exact: (covmat_same K K').
Qed.
Lemma map_var m r p t t0 xs ys M M' : defined w m r (DMap p t t0) -> P m p ->
  meant m r (Num xs) -> meant m r (Num ys) -> cov_is m r r (Num xs) (Num ys) M ->
  cov_is m p p (Num (map t xs)) (Num (map t ys)) M' -> same_matrix M M'.
Proof.
move=> Md Pp [Pr [u Hu]] [_ [v Hv]] E E'.
have K := is_k Mo Pr Pr Hu Hv E; have K' := is_k Mo Pp Pp (proj1 (map_at _ _ Md) Hu) (proj1 (map_at _ _ Md) Hv) E'.
exact: (covmat_same K K').
Qed.
Lemma map_mean m r p t t0 xs e e' : defined w m r (DMap p t t0) -> P m p -> meant m r (Num xs) ->
  mean_is m r (Num xs) e -> mean_is m p (Num (map t xs)) e' -> e = e'.
Proof.
move=> Md Pp [Pr [u Hu]] E E'.
by rewrite (is_m Mo Pr Hu E) (is_m Mo Pp (proj1 (map_at _ _ Md) Hu) E').
Qed.
End LawFacts.

Section Features.
Variable R : fieldType.
Lemma feat_nth f (x : point R) i : (i < size x)%N -> nth 0 (feat f x) i = f i (nth 0 x i).
Proof.
move=> li; rewrite /feat (nth_map (0%N, 0)) ?size_zip ?size_iota ?minnn // nth_zip ?size_iota //=.
by rewrite nth_iota.
Qed.
Lemma feat_size f (x : point R) : size (feat f x) = size x.
Proof. by rewrite size_map size_zip size_iota minnn. Qed.
Lemma shift_add c (z : point R) : shiftX c (addX c z) = z.
Proof.
apply: (@eq_from_nth _ 0) => [|i]; rewrite feat_size size_mkseq // => li.
by rewrite feat_nth ?nth_mkseq ?size_mkseq // addrK.
Qed.
Lemma stretch_mul s (z : point R) : (forall i, (i < size z)%N -> s i != 0) -> stretchX s (mulX s z) = z.
Proof.
move=> H; apply: (@eq_from_nth _ 0) => [|i]; rewrite feat_size size_mkseq // => li.
by rewrite feat_nth ?nth_mkseq ?size_mkseq // [s i * _]mulrC mulfK // H.
Qed.
End Features.
