(* Facts about the meaning of models (RV.v). *)
From Coq Require Import List FunctionalExtensionality.
From mathcomp Require Import all_ssreflect all_algebra.
From mathcomp Require Import zify.
From Verif Require Import Graph Machine Refine RV.
Set Implicit Arguments. Unset Strict Implicit. Unset Printing Implicit Defensive.
Import GRing.Theory.
Local Open Scope ring_scope.

Section RVProofs.
Variable R : fieldType.
Variable W : space R.
Variable D : nat -> (point R -> R) -> point R -> R.
Variables (G : pid -> point R -> rv W) (eps : mid -> nat -> rv W).
Notation V := (rv W). Notation input := (input R). Notation hist := (hist R).
Notation point := (point R).
Notation at_ := (at_ D G eps). Notation denotes := (denotes D G eps).
Notation Ex := (@Ex R W). Notation cov := (@cov R W).
Implicit Types (u : seq V) (h : hist) (x : input) (A B C : input -> seq V -> Prop).

(* Expectation and covariance of combinations. *)
Lemma covDr (a b c : V) : cov c (radd a b) = cov c a + cov c b.
Proof. by rewrite covC covD (covC a) (covC b). Qed.
Lemma covZr t (a c : V) : cov c (rscale t a) = t * cov c a.
Proof. by rewrite covC covZ (covC a). Qed.
Lemma cov1r (a : V) : cov a (rone W) = 0. Proof. by rewrite covC cov1. Qed.
Lemma cov_const t (a : V) : cov (rconst W t) a = 0. Proof. by rewrite covZ cov1 mulr0. Qed.
Lemma cov_constr t (a : V) : cov a (rconst W t) = 0. Proof. by rewrite covC cov_const. Qed.
Lemma Ex_const t : Ex (rconst W t) = t. Proof. by rewrite ExZ Ex1 mulr1. Qed.
Lemma Ex_sub (a b : V) : Ex (rsub a b) = Ex a - Ex b.
Proof. by rewrite ExD ExZ mulN1r. Qed.
Lemma cov_sub (a b c : V) : cov (rsub a b) c = cov a c - cov b c.
Proof. by rewrite covD covZ mulN1r. Qed.
Lemma cov_subr (a b c : V) : cov c (rsub a b) = cov c a - cov c b.
Proof. by rewrite covC cov_sub !(covC c). Qed.
Lemma Ex_sum n F : Ex (rsum n F) = \sum_(k < n) Ex (F k).
Proof.
rewrite /rsum -(big_mkord xpredT (fun k => Ex (F k))) /index_iota subn0.
by elim: (iota 0 n) => [|k l IH] /=; rewrite ?big_nil ?Ex_const // big_cons ExD IH.
Qed.
Lemma cov_sum n F (a : V) : cov (rsum n F) a = \sum_(k < n) cov (F k) a.
Proof.
rewrite /rsum -(big_mkord xpredT (fun k => cov (F k) a)) /index_iota subn0.
by elim: (iota 0 n) => [|k l IH] /=; rewrite ?big_nil ?cov_const // big_cons covD IH.
Qed.
Lemma cov_sumr n F (a : V) : cov a (rsum n F) = \sum_(k < n) cov a (F k).
Proof. by rewrite covC cov_sum; apply: eq_bigr => k _; rewrite covC. Qed.

(* Lists. *)
Lemma size_zipw (T1 T2 T3 : Type) (f : T1 -> T2 -> T3) a b :
  size a = size b -> size (zipw f a b) = size a.
Proof. by move=> e; rewrite size_map size_zip e minnn. Qed.
Lemma nth_zipw (T1 T2 T3 : Type) (f : T1 -> T2 -> T3) t1 t2 t3 a b i :
  size a = size b -> (i < size a)%N -> nth t3 (zipw f a b) i = f (nth t1 a i) (nth t2 b i).
Proof.
move=> e lt; rewrite (nth_map (t1, t2)) ?size_zip ?e ?minnn -?e // nth_zip //=.
Qed.
Lemma zipw_cat (T1 T2 T3 : Type) (f : T1 -> T2 -> T3) a a' b b' :
  size a = size b -> zipw f (a ++ a') (b ++ b') = zipw f a b ++ zipw f a' b'.
Proof. by move=> e; rewrite /zipw zip_cat // map_cat. Qed.
Lemma vget_map (f : V -> V) u i : (i < size u)%N -> vget (map f u) i = f (vget u i).
Proof. exact: nth_map. Qed.

Lemma Forall2_size (T1 T2 : Type) (P : T1 -> T2 -> Prop) a b : Forall2 P a b -> size a = size b.
Proof. by elim=> //= x y l l' _ _ ->. Qed.
Lemma Forall2_nth (T1 T2 : Type) (P : T1 -> T2 -> Prop) a b t1 t2 i :
  Forall2 P a b -> (i < size a)%N -> P (nth t1 a i) (nth t2 b i).
Proof. by move=> H; elim: H i => //= x y l l' p _ IH [|i] //=; apply: IH. Qed.
Lemma Forall2_cat_l (T1 T2 : Type) (P : T1 -> T2 -> Prop) a a' b :
  Forall2 P (a ++ a') b -> exists b1 b2, [/\ b = b1 ++ b2, Forall2 P a b1 & Forall2 P a' b2].
Proof. by move/Forall2_app_inv_l => [b1 [b2 [H1 [H2 e]]]]; exists b1, b2. Qed.

(* [lift]. *)
Lemma lift_impl A B x u : (forall x u, A x u -> B x u) -> lift A x u -> lift B x u.
Proof.
move=> H; elim=> [xs v a|p y v a||y xs v v' _ L1 _ L2].
- by apply: lift_num; apply: H.
- by apply: lift_fdd; apply: H.
- exact: lift_nil.
- exact: lift_cons.
Qed.

Lemma lift_num_inv A xs u : lift A (Num xs) u -> A (Num xs) u.
Proof. by inversion 1. Qed.
Lemma lift_fdd_inv A p x u : lift A (Fdd p x) u -> A (Fdd p x) u.
Proof. by inversion 1. Qed.
Lemma lift_tup_inv A xs u : lift A (Tup xs) u ->
  exists2 us, Forall2 (lift A) xs us & u = flatten us.
Proof.
move: {-2}(Tup xs) (erefl (Tup xs)) => x e L; elim: L xs e => //= [xs [<-]|x0 xs0 u0 v L0 _ _ IH xs [<-]].
  by exists [::] => //; constructor.
by have [us H ->] := IH _ erefl; exists (u0 :: us) => //; constructor.
Qed.
Lemma lift_tup A xs us : Forall2 (lift A) xs us -> lift A (Tup xs) (flatten us).
Proof. by elim=> [|x y l l' H _ IH]; [exact: lift_nil | exact: lift_cons]. Qed.
Lemma lift1 A x u : lift A x u -> lift A (Tup [:: x]) u.
Proof. by move=> H; rewrite -(cats0 u); apply: lift_cons => //; apply: lift_nil. Qed.

(* Pointwise equations extend to tuples. *)
Lemma lift_map A B (f : V -> V) x u :
  (forall x u, A x u -> exists2 a, B x a & u = map f a) ->
  lift A x u -> exists2 a, lift B x a & u = map f a.
Proof.
move=> H; elim=> [xs v /H [a Ha ->]|p y v /H [a Ha ->]||y xs v1 v2 _ [a1 H1 ->] _ [a2 H2 ->]].
- by exists a => //; constructor.
- by exists a => //; constructor.
- by exists [::] => //; constructor.
- by exists (a1 ++ a2); [constructor | rewrite map_cat].
Qed.
Lemma lift_zip A B C (f : V -> V -> V) x u :
  (forall x u, A x u -> exists a b, [/\ B x a, C x b, size a = size b & u = zipw f a b]) ->
  lift A x u -> exists a b, [/\ lift B x a, lift C x b, size a = size b & u = zipw f a b].
Proof.
move=> H; elim=> [xs v /H [a [b [Ha Hb e ->]]]|p y v /H [a [b [Ha Hb e ->]]]||
    y xs v1 v2 _ [a1 [b1 [H1 H1' e1 ->]]] _ [a2 [b2 [H2 H2' e2 ->]]]].
- by exists a, b; split=> //; constructor.
- by exists a, b; split=> //; constructor.
- by exists [::], [::]; split=> //; constructor.
- exists (a1 ++ a2), (b1 ++ b2); split; try by constructor.
    by rewrite !size_cat e1 e2.
  by rewrite zipw_cat.
Qed.
Lemma lift_rel A B (P : V -> V -> Prop) x u :
  (forall x u, A x u -> exists2 a, B x a & Forall2 P a u) ->
  lift A x u -> exists2 a, lift B x a & Forall2 P a u.
Proof.
move=> H; elim=> [xs v /H [a Ha F]|p y v /H [a Ha F]||y xs v1 v2 _ [a1 H1 F1] _ [a2 H2 F2]].
- by exists a => //; constructor.
- by exists a => //; constructor.
- by exists [::] => //; constructor.
- by exists (a1 ++ a2); [constructor | apply: Forall2_app].
Qed.

(* Histories. *)
Lemma at_pids m h p x u : at_ m h p x u -> p \in pids h.
Proof.
elim: h m x u => [|pm par IH o|r d rest IH] m x u //=; first by case=> u0 /IH.
by rewrite inE; case: eqP => //= _ /IH.
Qed.
Lemma denotes_pids m h p x u : denotes m h p x u -> x <> Tup [::] -> u <> [::] -> p \in pids h.
Proof.
elim=> [xs v /at_pids //|q y v /at_pids //|//|y xs v1 v2 L1 IH1 L2 IH2 _ ne].
case: v1 L1 IH1 ne => [|b l] L1 IH1 ne; last by apply: IH1 => // e; subst y; inversion L1.
by apply: IH2 => // -[e]; subst xs; inversion L2; subst v2.
Qed.

Lemma at_ext m h h' p : ext h h' -> wfh h' -> p \in pids h -> at_ m h' p = at_ m h p.
Proof.
elim=> // r d h2 E IH Wf Hp; rewrite -(IH _ Hp); last by case/and3P: Wf.
have rp : p != r.
  by case/and3P: Wf => rn _ _; apply: contraNneq rn => <-; apply: (ext_pids E).
by apply: functional_extensionality => x; apply: functional_extensionality => u; rewrite /= (negbTE rp).
Qed.
Lemma denotes_ext m h h' p : ext h h' -> wfh h' -> p \in pids h -> denotes m h' p = denotes m h p.
Proof. by move=> E Wf Hp; rewrite /RV.denotes (at_ext _ E Wf Hp). Qed.

(* No data, no random variables. *)
Lemma lift_ne0 A x u : (forall x u, A x u -> ne x = 0%N -> u = [::]) ->
  lift A x u -> ne x = 0%N -> u = [::].
Proof.
move=> H; elim=> //= [xs v|p y v|y xs v1 v2 _ IH1 _ IH2]; try exact: H.
by move/eqP; rewrite addn_eq0 => /andP [/eqP /IH1 -> /eqP /IH2 ->].
Qed.
Lemma nil_of_size (T : Type) (s : seq T) : size s = 0%N -> s = [::]. Proof. by case: s. Qed.
Lemma at_ne0 m h p x u : at_ m h p x u -> ne x = 0%N -> u = [::].
Proof.
elim: h m p x u => [|pm par IH o|r d rest IH] m p x u //=.
  by case=> u0 /IH H F n0; apply: nil_of_size; rewrite -(Forall2_size F) (H n0).
case: eqP => [_|_]; last exact: IH.
case: d => [mu k|mu k l|q|q c|q f|q q'|q c|q f|q t t0|q d|ps] //=.
- by case=> xs -> -> /= n0; apply: nil_of_size; rewrite size_map.
- by case=> xs -> -> /= n0; apply: nil_of_size; rewrite size_map.
- exact: IH.
- by case=> a /IH H -> /H ->.
- by case=> xs [a [-> /IH H e ->]] /H ea; apply: nil_of_size; rewrite size_zipw // ea.
- by case=> a [b [/IH H _ e ->]] /H ea; apply: nil_of_size; rewrite size_zipw // ea.
- by case=> a /IH H -> /H ->.
- by case=> fv [a [_ /IH H e ->]] /H ea; apply: nil_of_size; rewrite size_zipw // e ea.
- by case=> xs -> /IH H n0; apply: H; rewrite /= size_map.
- by case=> xs [F [dF [-> _ _ ->]]] n0; apply: nil_of_size; rewrite size_map.
- case: x => //= [xs [us F ->] n0|a x [_ L] n0]; last by apply: (lift_ne0 _ L n0) => x' u' /IH.
  by elim: F => //= q v l l' /IH -> // _ ->.
Qed.

(* Random variables that are not related to anything in a history. *)
Fixpoint elabs (m : mid) h : seq mid :=
  match h with HRoot => [::] | HPost pm par _ => m :: elabs pm par | HAdd _ _ rest => elabs m rest end.

Hypothesis D0 : forall d t, D d (fun=> 0) t = 0.

Definition null (g : V) (u : seq V) := Forall (fun v => cov g v = 0) u.

Lemma null_nth g u : null g u <-> forall i, (i < size u)%N -> cov g (vget u i) = 0.
Proof.
split; first by move=> H; elim: H => // v l e _ IH [|i] //=; apply: IH.
elim: u => [|v u IH] H; constructor; first exact: (H 0%N).
by apply: IH => i lt; apply: (H i.+1).
Qed.
Lemma null_cat g u u' : null g u -> null g u' -> null g (u ++ u').
Proof. by move=> H1 H2; apply/Forall_app. Qed.
Lemma null_zipw (T : Type) (a0 : T) g (f : T -> V -> V) a b :
  size a = size b -> (forall i, (i < size b)%N -> cov g (f (nth a0 a i) (vget b i)) = 0) ->
  null g (zipw f a b).
Proof.
move=> e H; apply/null_nth => i; rewrite size_zipw // => lt.
by rewrite /vget (nth_zipw f a0 (rone W)) //; apply: H; rewrite -e.
Qed.

Lemma null_given g e y (w : seq V) (v : V) : (forall i, (i < size w)%N -> cov g (vget w i) = 0) ->
  (forall i, cov g (e i) = 0) -> cov g v = 0 -> cov g (given e y w v) = 0.
Proof.
move=> Hw He Hv; rewrite covDr Hv add0r cov_sumr big1 // => k _.
by rewrite covZr cov_subr cov_constr covDr Hw // He addr0 subr0 mulr0.
Qed.
Lemma null_project g e (w : seq V) (v : V) : (forall i, (i < size w)%N -> cov g (vget w i) = 0) ->
  (forall i, cov g (e i) = 0) -> cov g (project e w v) = 0.
Proof.
move=> Hw He; rewrite covDr cov_constr add0r cov_sumr big1 // => k _.
by rewrite covZr cov_subr cov_constr covDr Hw // He addr0 subr0 mulr0.
Qed.

Lemma lift_null A g x u : (forall x u, A x u -> null g u) -> lift A x u -> null g u.
Proof.
by move=> H; elim=> [xs v /H|p y v /H||y xs v v' _ L1 _ L2] //; exact: null_cat.
Qed.
Lemma data_null (A : pid -> input -> seq V -> Prop) e o g w : (forall p x u, p \in o_pids o -> A p x u -> null g u) -> (forall i, cov g (e i) = 0) ->
  data A e o w -> null g w.
Proof.
move=> H He; rewrite /data; have {}H x u : A (o_p o) x u -> null g u by apply: H; rewrite /o_pids mem_head.
case: (o_data o) => [d [_ [wz [wx [Hz Hx ->]]]]|]; last by apply: lift_null; exact: H.
have /null_nth Nz : null g wz by apply: lift_null Hz; exact: H.
by apply/null_nth => i; rewrite size_map => li; rewrite /vget (nth_map (rone W)) //; apply: null_project.
Qed.

Lemma at_null g m h p x u :
  (forall q t, q \in pids h -> cov g (G q t) = 0) ->
  (forall m' i, m' \in elabs m h -> cov g (eps m' i) = 0) ->
  at_ m h p x u -> null g u.
Proof.
elim: h m p x u => [|pm par IH o|r d rest IH] m p x u //= HG He.
  case=> u0 H0 F.
  have He' m' i : m' \in elabs pm par -> cov g (eps m' i) = 0.
    by move=> Hm; apply: He; rewrite inE Hm orbT.
  have /null_nth N0 := IH _ _ _ _ HG He' H0.
  apply/null_nth => i lt; have sz := Forall2_size F; rewrite -sz in lt.
  have [w Hw e] := Forall2_nth (rone W) (rone W) F lt; rewrite /vget e.
  have Hem j : cov g (eps m j) = 0 by apply: He; rewrite inE eqxx.
  have /null_nth Nw : null g w by apply: data_null Hw => // q y v _; apply: IH.
  by apply: null_given => //; [rewrite /noise_of; case: (o_data o) | apply: N0].
have HG' q t : q \in pids rest -> cov g (G q t) = 0 by move=> Hq; apply: HG; rewrite inE Hq orbT.
have {}IH p1 x1 u1 : at_ m rest p1 x1 u1 -> null g u1 by apply: IH.
case: eqP => [_|_]; last exact: IH.
case: d => [mu k|mu k l|q|q c|q f|q q'|q c|q f|q t t0|q d|ps] //=.
- case=> xs _ ->; apply/null_nth => i; rewrite size_map => lt.
  by rewrite /vget (nth_map [::]) // HG // inE eqxx.
- case=> xs _ ->; apply/null_nth => i; rewrite size_map => lt.
  by rewrite /vget (nth_map [::]) // HG // inE eqxx.
- exact: IH.
- case=> a /IH /null_nth H ->; apply/null_nth => i; rewrite size_map => lt.
  by rewrite vget_map // covDr H // cov_constr addr0.
- case=> xs [a [_ /IH /null_nth H e ->]]; apply/null_nth => i; rewrite size_zipw // => lt.
  by rewrite /vget (nth_zipw _ (rone W) [::]) // covDr H // cov_constr addr0.
- case=> a [b [/IH /null_nth H1 /IH /null_nth H2 e ->]]; apply/null_nth => i; rewrite size_zipw // => lt.
  by rewrite /vget (nth_zipw _ (rone W) (rone W)) // covDr H1 // H2 -?e // addr0.
- case=> a /IH /null_nth H ->; apply/null_nth => i; rewrite size_map => lt.
  by rewrite vget_map // covZr H // mulr0.
- case=> fv [a [_ /IH /null_nth H e ->]]; apply: (@null_zipw R 0) => // i lt.
  by rewrite covZr H // mulr0.
- by case=> xs _; apply: IH.
- case=> xs [F [dF [_ H [_ dc] ->]]]; apply/null_nth => i; rewrite size_map => lt.
  rewrite /vget (nth_map [::]) // covC dc.
  have -> : (fun t => cov (F t) g) = fun=> 0; last exact: D0.
  by apply: functional_extensionality => t; rewrite covC; have /null_nth /(_ 0%N isT) := IH _ _ _ (H t).
- case: x => //= [xs [us F ->]|a x [_ L]]; last by apply: (lift_null _ L) => x' u' /IH.
  by elim: F => /= [|q' v l l' /IH H1 _ H2]; [constructor | exact: null_cat].
Qed.

Lemma denotes_null g m h p x u :
  (forall q t, q \in pids h -> cov g (G q t) = 0) ->
  (forall m' i, m' \in elabs m h -> cov g (eps m' i) = 0) ->
  denotes m h p x u -> null g u.
Proof. by move=> H1 H2; apply: lift_null => y v; apply: at_null. Qed.

(* What a model denotes is determined up to random variables of zero variance. *)
Definition aseq (a b : V) : Prop := Ex a = Ex b /\ forall g, cov a g = cov b g.
Lemma aseq_refl a : aseq a a. Proof. by []. Qed.
Lemma aseq_r a b g : aseq a b -> cov g a = cov g b.
Proof. by case=> _ H; rewrite covC H covC. Qed.

Lemma aseq_add a a' b b' : aseq a a' -> aseq b b' -> aseq (radd a b) (radd a' b').
Proof. by case=> e1 c1 [e2 c2]; split=> [|g]; rewrite ?ExD ?covD ?e1 ?e2 ?c1 ?c2. Qed.
Lemma aseq_scale c a a' : aseq a a' -> aseq (rscale c a) (rscale c a').
Proof. by case=> e1 c1; split=> [|g]; rewrite ?ExZ ?covZ ?e1 ?c1. Qed.
Lemma aseq_sum n F F' : (forall k, (k < n)%N -> aseq (F k) (F' k)) -> aseq (rsum n F) (rsum n F').
Proof.
move=> H; split=> [|g]; rewrite ?Ex_sum ?cov_sum; apply: eq_bigr => k _; first by case: (H k (ltn_ord k)).
by have [_ ->] := H k (ltn_ord k).
Qed.

Definition aseqs (u v : seq V) := Forall2 aseq u v.
Lemma aseqs_nth u v : aseqs u v <-> size u = size v /\ forall i, (i < size u)%N -> aseq (vget u i) (vget v i).
Proof.
split; first by move=> F; split; [exact: Forall2_size F | move=> i lt; apply: (Forall2_nth _ _ F)].
elim: u v => [|a u IH] [|b v] /=; try (by case); first by constructor.
case=> e H; constructor; first exact: (H 0%N).
case: e => e.
by apply: IH; split=> // i lt; apply: (H i.+1).
Qed.

Lemma aseq_given e y (w w' : seq V) (v v' : V) : aseqs w w' -> aseq v v' -> aseq (given e y w v) (given e y w' v').
Proof.
move=> /aseqs_nth [sz H] Hv; rewrite /given -sz.
have d i : (i < size w)%N -> aseq (radd (vget w i) (e i)) (radd (vget w' i) (e i)).
  by move=> lt; apply: aseq_add => //; apply: H.
apply: aseq_add => //; apply: aseq_sum => k lt; have [d1 d2] := d k lt.
have -> : (\matrix_(i < size w, j < size w) cov (radd (vget w' i) (e i)) (radd (vget w' j) (e j))) =
          (\matrix_(i < size w, j < size w) cov (radd (vget w i) (e i)) (radd (vget w j) (e j))).
  by apply/matrixP => i j; rewrite !mxE; have [_ ->] := d i (ltn_ord i); rewrite (aseq_r _ (d j (ltn_ord j))).
have -> : (\row_(j < size w) cov v' (radd (vget w' j) (e j))) = (\row_(j < size w) cov v (radd (vget w j) (e j))).
  by apply/rowP => j; rewrite !mxE; have [_ ->] := Hv; rewrite (aseq_r _ (d j (ltn_ord j))).
apply: aseq_scale; apply: aseq_add => //; apply: aseq_scale; exact: d.
Qed.
Lemma aseq_project e (w w' : seq V) (v v' : V) : aseqs w w' -> aseq v v' -> aseq (project e w v) (project e w' v').
Proof.
move=> /aseqs_nth [sz H] Hv; rewrite /project -sz.
have d i : (i < size w)%N -> aseq (radd (vget w i) (e i)) (radd (vget w' i) (e i)).
  by move=> lt; apply: aseq_add => //; apply: H.
apply: aseq_add; first by rewrite Hv.1.
apply: aseq_sum => k lt; have [d1 d2] := d k lt.
have -> : (\matrix_(i < size w, j < size w) cov (radd (vget w' i) (e i)) (radd (vget w' j) (e j))) =
          (\matrix_(i < size w, j < size w) cov (radd (vget w i) (e i)) (radd (vget w j) (e j))).
  by apply/matrixP => i j; rewrite !mxE; have [_ ->] := d i (ltn_ord i); rewrite (aseq_r _ (d j (ltn_ord j))).
have -> : (\row_(j < size w) cov v' (radd (vget w' j) (e j))) = (\row_(j < size w) cov v (radd (vget w j) (e j))).
  by apply/rowP => j; rewrite !mxE; have [_ ->] := Hv; rewrite (aseq_r _ (d j (ltn_ord j))).
by apply: aseq_scale; apply: aseq_add; [exact: d | rewrite d1].
Qed.

Lemma aseqs_map f u v : (forall a b, aseq a b -> aseq (f a) (f b)) -> aseqs u v -> aseqs (map f u) (map f v).
Proof. by move=> H; elim=> [|a b l l' ab _ IH]; constructor; auto. Qed.
Lemma aseqs_zipw f a b a' b' : (forall a b a' b', aseq a a' -> aseq b b' -> aseq (f a b) (f a' b')) ->
  aseqs a a' -> aseqs b b' -> aseqs (zipw f a b) (zipw f a' b').
Proof.
move=> H F; elim: F b b' => [|x x' l l' e _ IH] b b' F'; first by case: F'; constructor.
by case: F' => [|y y' k k' e' F']; constructor; [exact: H | exact: IH].
Qed.
Lemma aseqs_Ex u v : aseqs u v -> map Ex u = map Ex v.
Proof. by elim=> //= a b l l' [-> _] _ ->. Qed.

Definition same A := forall x u v, A x u -> A x v -> aseqs u v.
Lemma lift_same A : same A -> same (lift A).
Proof.
move=> H x u v L; elim: L v => [xs u' a v /lift_num_inv|p y u' a v /lift_fdd_inv|v|y xs u1 u2 _ IH1 _ IH2 v].
- exact: H.
- exact: H.
- by inversion 1; constructor.
- by inversion 1; subst; apply: Forall2_app; [apply: IH1 | apply: IH2].
Qed.
Lemma data_same (A : pid -> input -> seq V -> Prop) e o w w' : (forall p, same (A p)) -> data A e o w -> data A e o w' -> aseqs w w'.
Proof.
move=> H; rewrite /data; case: (o_data o) => [d|]; last exact: (lift_same (H _)).
case=> _ [wz [wx [Hz Hx ->]]] [_ [wz' [wx' [Hz' Hx' ->]]]].
have Ez := lift_same (H _) Hz Hz'; have := lift_same (H _) Hx Hx'.
by elim=> [|a b l l' ab _ IH]; constructor => //; apply: aseq_project.
Qed.

Lemma at_same m h p : same (at_ m h p).
Proof.
elim: h m p => [|pm par IH o|r d rest IH] m p x u v //=.
  case=> u0 H0 F [v0 H0' F']; have /aseqs_nth [sz S0] := IH _ _ _ _ _ H0 H0'.
  apply/aseqs_nth; rewrite -(Forall2_size F) -(Forall2_size F') sz; split=> // i lt.
  have lt' : (i < size u0)%N by rewrite sz.
  have [w Hw e] := Forall2_nth (rone W) (rone W) F lt'.
  have [w' Hw' e'] := Forall2_nth (rone W) (rone W) F' lt; rewrite /vget e e'.
  by apply: aseq_given; [exact: (data_same (fun p => IH pm p) Hw Hw') | apply: S0; rewrite sz].
case: eqP => [_|_]; last exact: IH.
case: d => [mu k|mu k l|q|q c|q f|q q'|q c|q f|q t t0|q d|ps] //=.
- by case=> xs -> -> [ys [<-] ->]; apply/aseqs_nth.
- by case=> xs -> -> [ys [<-] ->]; apply/aseqs_nth.
- exact: IH.
- case=> a Ha -> [b Hb ->]; apply: aseqs_map (IH _ _ _ _ _ Ha Hb) => s t st; exact: aseq_add.
- case=> xs [a [ex Ha e ->]] [ys [b [ey Hb e' ->]]].
  have exy : xs = ys by move: ey; rewrite ex => -[].
  subst ys; have := IH _ _ _ _ _ Ha Hb => F; apply/aseqs_nth; rewrite !size_zipw // e e'; split=> // i lt.
  rewrite /vget !(nth_zipw _ (rone W) [::]) ?e ?e' //; apply: aseq_add => //.
  by have /aseqs_nth [_] := F; apply; rewrite e.
- case=> a [b [Ha Hb e ->]] [a' [b' [Ha' Hb' e' ->]]]; apply: aseqs_zipw.
  + by move=> s t s' t'; apply: aseq_add.
  + exact: IH Ha Ha'.
  + exact: IH Hb Hb'.
- case=> a Ha -> [b Hb ->]; apply: aseqs_map (IH _ _ _ _ _ Ha Hb) => s t; exact: aseq_scale.
- case=> fv [a [Hf Ha e ->]] [fv' [a' [Hf' Ha' e' ->]]].
  have ef : fv = fv'.
    case: (f) Hf Hf' => //= [g [xs -> ->] [ys [<-] ->]|m' p' [_ [w Hw ->]] [_ [w' Hw' ->]]] //.
    by apply: aseqs_Ex; apply: (IH _ _ _ _ _ Hw Hw').
  subst fv'; have := IH _ _ _ _ _ Ha Ha' => F; apply/aseqs_nth; rewrite !size_zipw //; split=> // i lt.
  rewrite /vget !(nth_zipw _ 0 (rone W)) //; apply: aseq_scale.
  by have /aseqs_nth [sz] := F; apply; rewrite -e.
- by case=> xs -> Ha [ys [<-] Hb]; apply: IH Ha Hb.
- case=> xs [F [dF [-> H [e1 c1] ->]]] [ys [F' [dF' [[<-] H' [e2 c2] ->]]]].
  have FF t : aseq (F t) (F' t) by have /aseqs_nth [_ /(_ 0%N isT)] := IH _ _ _ _ _ (H t) (H' t).
  apply/aseqs_nth; rewrite !size_map; split=> // i lt; rewrite /vget !(nth_map [::]) //; split=> [|g].
    by rewrite e1 e2; congr (D d _ _); apply: functional_extensionality => t; case: (FF t).
  by rewrite c1 c2; congr (D d _ _); apply: functional_extensionality => t; case: (FF t).
- case: x => //= [xs [us F ->] [vs F' ->]|a x [_ L] [_ L']]; last exact: (lift_same (IH m a) L L').
  elim: F vs F' => [|p' y l l' H _ IH2] vs F'; inversion F'; subst; first by constructor.
  by apply: Forall2_app; [apply: IH H _ | apply: IH2].
Qed.

Lemma denotes_same m h p : same (denotes m h p).
Proof. by apply: lift_same; apply: at_same. Qed.

End RVProofs.
