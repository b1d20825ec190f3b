(* A model with a process of [add_gp] that the theorems about meaning apply to; used for an
   example in P_Model.v. *)
From Coq Require Import List.
From mathcomp Require Import all_ssreflect all_algebra.
From mathcomp Require Import ring.
From Verif Require Import Graph Machine Refine Worlds Eval GraphSpec GraphProofs GraphOps GraphFacts RV RVProofs Sound Typing ModelSpec Formal ModelFacts Plain Cond CondFacts ModelThms ExModel.
Set Implicit Arguments. Unset Strict Implicit. Unset Printing Implicit Defensive.
Import GRing.Theory Num.Theory.
Local Open Scope ring_scope.

Section Ex.
Variable R : realFieldType.
Notation point := (point R). Notation xD := (@xD R). Notation klin := (@klin R).

(* 0: f, 1: g (which is 2 f), added by [add_gp], 2: e, 3: f + g, 4: g + e; then f + g is
   observed with noise. *)
Definition umean (c : R) (t : point) : R := c * nth 0 t 0.
Definition ukern (c : R) (s t : point) : R := c * klin s t.
Definition urule (q : pid) : option (kexp R) := if q == 0%N then Some (KElem (ukern 2%:R)) else None.
Definition uob : obs R := Obs 3 (X0 R) (one1 R) [:: 1].
Definition uops : seq (op R) :=
  [:: OMeasure; OGP 0 (MElem (umean 1)) (KElem (ukern 1));
      OUser 0 (MElem (umean 2%:R)) (KElem (ukern 4%:R)) urule None; OGP 0 (MElem (umean 0)) (KElem (ukern 1));
      OSum 0 1 [:: 0%N]; OSum 1 2 [:: 0%N]; OCond 0 uob].
Definition uw := run_ops uops.
Definition ul0 : hist R := HAdd 0 (DInd (MElem (umean 1)) (KElem (ukern 1))) (@HRoot R).
Definition ul1 : hist R := HAdd 1 (DUser (MElem (umean 2%:R)) (KElem (ukern 4%:R)) urule) ul0.
Definition ul2 : hist R := HAdd 2 (DInd (MElem (umean 0)) (KElem (ukern 1))) ul1.
Definition ul3 : hist R := HAdd 3 (DSum 0 1) ul2.
Definition ulog : hist R := HAdd 4 (DSum 1 2) ul3.
Lemma uinv : winv uw. Proof. exact (winv_run uops). Qed.
Lemma unm : w_nm uw = 2%N. Proof. vm_compute; reflexivity. Qed.
Lemma ulog0 : w_log uw 0 = ulog. Proof. vm_compute; reflexivity. Qed.
Lemma ulog1 : w_log uw 1 = HPost 0 ulog uob. Proof. vm_compute; reflexivity. Qed.

Section World.
Variable w : world R.
Hypotheses (Iw : winv w) (enm : w_nm w = 2%N) (el0 : w_log w 0 = ulog) (el1 : w_log w 1 = HPost 0 ulog uob).

Lemma ext_inv (r p : pid) d d' (h h' : hist R) : ext (HAdd r d h) (HAdd p d' h') -> [/\ r = p, d = d' & h = h'] \/ ext (HAdd r d h) h'.
Proof. by move=> E; inversion E; subst; [left | right]. Qed.
Lemma ext_root (r : pid) d (h : hist R) : ~ ext (HAdd r d h) (@HRoot R). Proof. by move=> E; inversion E. Qed.
Lemma ext_post (r : pid) d (h : hist R) pm par o : ~ ext (HAdd r d h) (HPost pm par o). Proof. by move=> E; inversion E. Qed.
Lemma lt2 m : (m < 2)%N -> m = 0%N \/ m = 1%N.
Proof. by case: m => [|[|m]]; [left | right | ]. Qed.
Lemma uext m p d rest : (m < w_nm w)%N -> ext (HAdd p d rest) (w_log w m) -> m = 0%N /\
  ([\/ HAdd p d rest = ul0, HAdd p d rest = ul1 | HAdd p d rest = ul2] \/ HAdd p d rest = ul3 \/ HAdd p d rest = ulog).
Proof.
rewrite enm => /lt2 [] ->; rewrite ?el0 ?el1; last by move/ext_post.
case/ext_inv=> [[-> -> ->]|]; first by split=> //; right; right.
case/ext_inv=> [[-> -> ->]|]; first by split=> //; right; left.
case/ext_inv=> [[-> -> ->]|]; first by split=> //; left; constructor 3.
case/ext_inv=> [[-> -> ->]|]; first by split=> //; left; constructor 2.
case/ext_inv=> [[-> -> ->]|]; first by split=> //; left; constructor 1.
by move/ext_root.
Qed.
Lemma ubase m pm par o : (m < w_nm w)%N -> base (w_log w m) = Some (pm, par, o) -> [/\ m = 1%N, pm = 0%N, par = ulog & o = uob].
Proof. by rewrite enm => /lt2 [] ->; rewrite ?el0 ?el1 // => -[<- <- <-]. Qed.

(* The random variables: f, e and the noise of the observation are independent. *)
Definition ukap (a b : nat * point) : R := if a.1 == b.1 then klin a.2 b.2 else 0.
Definition uEx (a : nat * point) : R := if a.1 == 0%N then nth 0 a.2 0 else 0.
Lemma ukap_sym a b : ukap a b = ukap b a.
Proof. by rewrite /ukap eq_sym; case: ifP => // _; rewrite /ExModel.klin mulrC. Qed.
Definition uW : space R := formal uEx ukap_sym.
Definition uat (a : nat) (t : point) : rv uW := f_atom R (a, t).
Definition uG (p : pid) (t : point) : rv uW :=
  match p with 0%N => uat 0 t | 1%N => rscale 2%:R (uat 0 t) | _ => uat 1 t end.
Definition ueps (m : mid) (i : nat) : rv uW := uat m.+2 [::].

Lemma uatE a b s t : cov (uat a s) (uat b t) = if a == b then klin s t else 0.
Proof. by rewrite [LHS]f_atom_cov. Qed.
Lemma uatM a t : Ex (uat a t) = if a == 0%N then nth 0 t 0 else 0.
Proof. by rewrite [LHS]f_atom_Ex. Qed.

Lemma uG0 t : uG 0 t = uat 0 t. Proof. by []. Qed.
Lemma uG1 t : uG 1 t = rscale 2%:R (uat 0 t). Proof. by []. Qed.
Lemma uG2 p t : uG p.+2 t = uat 1 t. Proof. by []. Qed.
Notation at_ := (at_ xD uG ueps).
Lemma ufirst m q y v : at_ m ul0 q y v -> q = 0%N /\ exists2 ys, y = Num ys & v = map (uG 0) ys.
Proof. by rewrite /=; case: eqP => // -> H. Qed.
Lemma covmat_map (f : point -> point -> R) (F H : point -> rv uW) xs ys rdk rdm n M :
  (forall s t, cov (F s) (H t) = f s t) -> evk rdk rdm xD n (KElem f) (Num xs) (Num ys) = Some M ->
  covmat M (map F xs) (map H ys).
Proof.
move=> e; case: n => [|n] //= [<-]; split=> [||i j]; rewrite ?size_map // => li lj.
by rewrite /vget !(nth_map [::]) // e.
Qed.
Lemma mean_map (f : point -> R) (F : point -> rv uW) xs rdk rdm n v :
  (forall t, Ex (F t) = f t) -> evm rdk rdm xD n (MElem f) (Num xs) = Some v -> v = map (@Ex R uW) (map F xs).
Proof. by move=> e; case: n => [|n] //= [<-]; rewrite -map_comp; apply: eq_map => t; rewrite -e. Qed.
Lemma mean_num (f : point -> R) x rdk rdm n v : evm rdk rdm xD n (MElem f) x = Some v -> exists xs, x = Num xs.
Proof. by case: n => [|n] //=; case: x => // xs _; exists xs. Qed.

Lemma uvalid : valid xD uG ueps w everywhere.
Proof.
split=> //.
- move=> m p mu k rest n xs ys M lt /(uext lt) [_ H] _.
  case: H => [[[-> _ -> _]|//|[-> _ -> _]]|[]//]; apply: covmat_map => s t; rewrite ?uG0 ?uG2 uatE /ukern mul1r.
  + by [].
  + by [].
- move=> m p mu k rest n x u v lt E _ Du Ev.
  have Hp : p \in pids (HAdd p (DInd mu k) rest) by rewrite inE eqxx.
  move: Du; rewrite (full xD uG ueps Iw lt E Hp) => Du; have [_ H] := uext lt E.
  have [f ef] : exists f, mu = MElem f by case: H => [[[_ -> _ _]|//|[_ -> _ _]]|[]//]; eexists.
  move: Ev; rewrite ef => Ev; have [xs ex] := mean_num Ev; move: Du Ev; rewrite ex => Du Ev.
  inversion Du; subst; move: H1; rewrite /= eqxx => -[ys [<-] ->].
  apply: mean_map Ev => t; case: H => [[[-> [->] _ _]|//|[-> [->] _ _]]|[]//]; rewrite ?uG0 ?uG2 uatM /umean.
  + by rewrite mul1r.
  + by rewrite mul0r.
- move=> m p mu k lr rest n xs ys M lt /(uext lt) [_ H] _.
  case: H => [[//|[-> _ -> _ _]|//]|[]//]; apply: covmat_map => s t.
  by rewrite !uG1 covZ covC covZ covC uatE eqxx /ukern; ring.
- move=> m p mu k lr rest n x u v lt E _ Du Ev.
  have Hp : p \in pids (HAdd p (DUser mu k lr) rest) by rewrite inE eqxx.
  move: Du; rewrite (full xD uG ueps Iw lt E Hp) => Du; have [_ H] := uext lt E.
  have [f ef] : exists f, mu = MElem f by case: H => [[//|[_ -> _ _ _]|//]|[]//]; eexists.
  move: Ev; rewrite ef => Ev; have [xs ex] := mean_num Ev; move: Du Ev; rewrite ex => Du Ev.
  inversion Du; subst; move: H1; rewrite /= eqxx => -[ys [<-] ->].
  apply: mean_map Ev => t; case: H => [[//|[-> [->] _ _ _]|//]|[]//]; by rewrite uG1 ExZ uatM /umean.
- move=> m p mu k lr rest q kq n xs y v M lt /(uext lt) [_ H] _ _ Er.
  case: H => [[//|[-> _ _ e er]|//]|[]//]; rewrite er => /ufirst [eq [ys -> ->]].
  move: Er; rewrite e eq /= => -[<-]; apply: covmat_map => s t.
  by rewrite uG1 uG0 covZ uatE.
- move=> p q s t ne [m [mu [k [rest [lt /(uext lt) [_ H]]]]]] [m' [mu' [k' [rest' [lt' /(uext lt') [_ H']]]]]].
  have {}H : p = 0%N \/ p = 2%N by case: H => [[[-> _ _ _]|//|[-> _ _ _]]|[]//]; [left | right].
  have {}H' : q = 0%N \/ q = 2%N by case: H' => [[[-> _ _ _]|//|[-> _ _ _]]|[]//]; [left | right].
  by case: H H' ne => -> [] -> // _; rewrite uG0 uG2 uatE.
- move=> m p mu k rest q s t lt /(uext lt) [_ H].
  case: H => [[[-> _ _ ->]|//|[-> _ _ ->]]|[]//]; first by [].
  have -> : pids ul1 = [:: 1; 0]%N by []; rewrite !inE => /orP [] /eqP ->; rewrite uG2 ?uG1 ?uG0; first by rewrite covC covZ uatE mulr0.
  by rewrite uatE.
- move=> m i p t; rewrite /ueps; case: p => [|[|p]]; rewrite ?uG0 ?uG1 ?uG2 ?uatE //.
  by rewrite covC covZ uatE mulr0.
- move=> m m' i j ne; rewrite uatE; case: eqP => // -[e]; by case: ne.
- move=> m pm par o lt /(ubase lt) [-> _ _ ->]; split=> [i|i j]; first by rewrite uatM.
  by rewrite uatE eqxx /= /ExModel.klin /= mulr0 addr0.
- by move=> m pm par o d lt /(ubase lt) [_ _ _ ->].
Qed.
Lemma uordered_w : ordered xD uG ueps w everywhere.
Proof.
move=> m p mu k rest q y v lt /(uext lt) [_ H] _ _.
case: H => [[[_ _ _ ->]|//|[_ _ _ ->]]|[]//] //.
by rewrite /=; case: eqP => [_|_]; [|case: eqP => // _]; case=> xs -> ->; rewrite size_map.
Qed.
Lemma umodel_w : model xD uG ueps w everywhere. Proof. split; [exact uvalid | exact uordered_w]. Qed.
End World.
Lemma umodel : model xD uG ueps uw everywhere.
Proof. exact (@umodel_w uw uinv unm ulog0 ulog1). Qed.

(* g at 1 given that f + g, with noise 1, was observed at 0. *)
Section Values.
Variable w : world R.
Hypotheses (enm : w_nm w = 2%N) (el0 : w_log w 0 = ulog) (el1 : w_log w 1 = HPost 0 ulog uob).
Lemma ug_w : is_at xD uG ueps w 0 1 (X1 R) [:: uG 1 [:: 1]].
Proof. by split; [rewrite enm | rewrite el0; apply: lift_num; exists [:: [:: 1]]]. Qed.
Lemma us_w : is_at xD uG ueps w 0 3 (X0 R) [:: radd (uG 0 [:: 0]) (uG 1 [:: 0])].
Proof.
split; [by rewrite enm | rewrite el0; apply: lift_num].
by exists [:: uG 0 [:: 0]], [:: uG 1 [:: 0]]; split=> //; exists [:: [:: 0]].
Qed.
Lemma ucond_w : conditioned w 1 0 uob [:: 4; 3; 2; 1; 0]%N.
Proof. by split; [rewrite enm | | exists ulog; [rewrite el1 | ]]. Qed.
Hypothesis Mo : model xD uG ueps w everywhere.
Variable ops : seq (op R).
Hypothesis ew : w = run_ops ops.
Lemma v1 (a : rv uW) : vget [:: a] 0 = a. Proof. by []. Qed.
Lemma uvalues_w K Kp A Kz : cov_is xD w 0 1 1 (X1 R) (X1 R) K -> cov_is xD w 0 1 3 (X1 R) (X0 R) Kp ->
  cov_is xD w 0 3 1 (X0 R) (X1 R) A ->
  cov_is xD w 0 3 3 (X0 R) (X0 R) Kz -> [/\ ent Kz 0 0 = 9%:R, nr Kz = 1%N &
  exists2 K', cov_is xD w 1 1 1 (X1 R) (X1 R) K' & 10%:R * ent K' 0 0 = 44%:R].
Proof.
move=> E1 E2 E2' E3; have Mo' := Mo; rewrite ew in Mo' E1 E2 E2' E3.
have Ug := ug_w; have Us := us_w; rewrite ew in Ug Us.
have [a1 a2 a3] := covs (model_sound Mo') (I : everywhere 0 1) I Ug Ug E1.
have [b1 b2 b3] := covs (model_sound Mo') (I : everywhere 0 1) I Ug Us E2.
have [c1 c2 c3] := covs (model_sound Mo') (I : everywhere 0 3) I Us Us E3.
have [d1 d2 _] := covs (model_sound Mo') (I : everywhere 0 3) I Us Ug E2'.
have Kz0 : ent Kz 0 0 = 9%:R.
  rewrite c3 // !v1 uG0 uG1 !(covD, covDr, covZ, covZr) !uatE eqxx /ExModel.klin /=; ring.
have K0 : ent K 0 0 = 8%:R by rewrite a3 // !v1 uG1 !(covZ, covZr) !uatE eqxx /ExModel.klin /=; ring.
have Kp0 : ent Kp 0 0 = 6%:R.
  rewrite b3 // !v1 uG0 uG1 !(covD, covDr, covZ, covZr) !uatE eqxx /ExModel.klin /=; ring.
rewrite -ew in E1 E2 E2' E3; split=> //.
have nz : ent Kz 0 0 + ent (o_noise uob) 0 0 != 0 by rewrite Kz0 /= -(natrD _ 9 1) pnatr_eq0.
have [K' EK'] : exists K', cov_is xD w 1 1 1 (X1 R) (X1 R) K'.
  apply: (pcd ew ucond_w _ _ _ _ _ _ E1 E2' E2' E3) => //=; rewrite ?a1 ?a2 ?b1 ?b2 ?c1 ?c2 ?d1 ?d2 //=.
  by rewrite unitmxE det_mx11 !mxE unitfE.
exists K' => //.
have mg : meant xD uG ueps w everywhere 0 1 (X1 R) by split=> //; exists [:: uG 1 [:: 1]]; exact ug_w.
have ms : meant xD uG ueps w everywhere 0 3 (X0 R) by split=> //; eexists; exact us_w.
have i1 : 1%N \in [:: 4; 3; 2; 1; 0]%N by [].
have [_ _ [b eb eK]] := one_value ew ucond_w isT Mo i1 i1 mg mg ms E1 E2 E2 E3 EK' a1 a2 c1 erefl erefl nz.
rewrite eK K0 Kp0; move: eb; rewrite Kz0 Kp0 /= => eb.
have -> : 10%:R * (8%:R - b * 6%:R) = 80%:R - (b * (9%:R + 1)) * 6%:R :> R by ring.
rewrite eb; ring.
Qed.
End Values.
Lemma ucov p q x y : kernel_at xD 20 uw 0 p q x y -> exists K, cov_is xD uw 0 p q x y K.
Proof. exact (@some_cov R xD uw p q x y 20). Qed.
Lemma ucov1 : exists K, cov_is xD uw 0 1 1 (X1 R) (X1 R) K. Proof. apply ucov; vm_compute; reflexivity. Qed.
Lemma ucov2 : exists K, cov_is xD uw 0 1 3 (X1 R) (X0 R) K. Proof. apply ucov; vm_compute; reflexivity. Qed.
Lemma ucov3 : exists K, cov_is xD uw 0 3 1 (X0 R) (X1 R) K. Proof. apply ucov; vm_compute; reflexivity. Qed.
Lemma ucov4 : exists K, cov_is xD uw 0 3 3 (X0 R) (X0 R) K. Proof. apply ucov; vm_compute; reflexivity. Qed.
Lemma uwE : uw = run_ops uops. Proof. reflexivity. Qed.
Lemma uvalues : exists2 K, cov_is xD uw 0 3 3 (X0 R) (X0 R) K & [/\ ent K 0 0 = 9%:R, nr K = 1%N &
  exists2 K', cov_is xD uw 1 1 1 (X1 R) (X1 R) K' & 10%:R * ent K' 0 0 = 44%:R].
Proof.
destruct ucov1 as [K1 e1], ucov2 as [K2 e2], ucov3 as [K3 e3], ucov4 as [K4 e4].
exists K4; [exact e4 | exact (@uvalues_w uw unm ulog0 ulog1 umodel uops uwE K1 K2 K3 K4 e1 e2 e3 e4)].
Qed.
Lemma ug : is_at xD uG ueps uw 0 1 (X1 R) [:: uG 1 [:: 1]]. Proof. exact (@ug_w uw unm ulog0). Qed.
Lemma us : is_at xD uG ueps uw 0 3 (X0 R) [:: radd (uG 0 [:: 0]) (uG 1 [:: 0])]. Proof. exact (@us_w uw unm ulog0). Qed.
End Ex.
