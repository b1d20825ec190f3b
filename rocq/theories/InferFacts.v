(* Sizes and masks of processes at inputs. *)
From Coq Require Import List.
From mathcomp Require Import all_ssreflect all_algebra.
From mathcomp Require Import zify.
From Verif Require Import Graph Machine Refine Worlds Eval GraphSpec GraphProofs GraphOps GraphFacts RV RVProofs Sound Typing ModelSpec ModelFacts Combine Infer InferSpec ElwiseFacts.
Set Implicit Arguments. Unset Strict Implicit. Unset Printing Implicit Defensive.
Import GRing.Theory.
Local Open Scope ring_scope.

Lemma merge_in (ds : seq (option nat)) o d : merge ds = Some o -> Some d \in ds -> d != 0%N -> o = Some d.
Proof.
rewrite /merge => E H nz.
have : d \in [seq d <- pmap id ds | d != 0%N] by rewrite mem_filter nz mem_pmap map_id.
case: (filter _ _) E => [|d' ds'] //; case: ifP => // /allP A [<-]; rewrite inE => /orP [/eqP -> //|/A /eqP -> //].
Qed.

Section Dim.
Variable R : fieldType.
Notation hist := (hist R). Notation kexp := (kexp R). Notation input := (input R).
Implicit Types (h : hist) (k : kexp) (x : input).

Lemma basic_dim k : basic k -> dimensionality k = Some (Some 1%N).
Proof.
elim: k => //= [k1 IH1 k2 IH2|k1 IH1 k2 IH2]; by case/andP=> /IH1 -> /IH2 ->.
Qed.

Lemma flat_pos Q h p : flat Q h p -> (0 < outputs h p)%N.
Proof.
elim: h p => [|pm par IH o|r d rest IH] p //=; first exact: IH.
case: eqP => [_|_]; last exact: IH.
case: d => [mu k|mu k lr|q|q c|q f|q q'|q c|q f|q t t0|q d|ps] //=.
- by move=> H; apply: IH; apply: H; rewrite inE.
- by move=> H; apply: IH; apply: H; rewrite inE.
- by case=> _ H; apply: IH.
- by move=> H; apply: IH; apply: H; rewrite inE eqxx.
- by move=> H; apply: IH; apply: H; rewrite inE.
- by move=> H; apply: IH; apply: H; case: (f) => * /=; rewrite inE eqxx.
- by move=> H; apply: IH; apply: H; rewrite inE.
- by move=> H; apply: IH; apply: H; rewrite inE.
- by case: ps => // H; case: H.
Qed.

(* The dimensionality of the kernel of a process is its number of outputs. *)
Lemma dim_own Q h m p k o : flat Q h p -> KA m h p p = Some k -> dimensionality k = Some o -> o = Some (outputs h p).
Proof.
elim: h m p k o => [|pm par IH ob|r d rest IH] m p k o //= F.
  have Po := flat_pos F; case: ifP => // _; rewrite /post_k /post_k1 /post_k2; case: (o_data ob) => [dd|]; last (case: eqP => _ /=); rewrite /= /onk /onm ?eqxx.
  - case Ek: (KA pm par p p) => [k0|] //=; case: (KA pm par (o_p ob) p) => [kz|] //=; case: (KA _ _ _ _) => [k1|] //=.
    case: (KA _ _ _ _) => [k2|] //=; case: (KA _ _ _ _) => [k3|] //= [<-] /=.
    case E0: (dimensionality k0) => [d0|] //=; case: (dimensionality kz) => [dz|] //=.
    case M1: (merge _) => [o1|] //=; case M2: (merge _) => [o2|] //= M3.
    have e1 : o1 = Some (outputs par p) by apply: (merge_in M1); rewrite -?lt0n // inE (IH _ _ _ _ F Ek E0) eqxx.
    by apply: (merge_in M3); rewrite -?lt0n // inE e1 eqxx.
  - by case Ek: (KA _ _ _ _) => [k'|] // [<-]; apply: IH F Ek.
  case Ek: (KA pm par p p) => [k0|] //=; case: (KA pm par (o_p ob) p) => [kz|] //=; case: (KA _ _ _ _) => [k1|] //= [<-] /=.
  case E0: (dimensionality k0) => [d0|] //=; case: (dimensionality kz) => [dz|] //= /merge_in H.
  by apply: H; rewrite -?lt0n // inE (IH _ _ _ _ F Ek E0) eqxx.
move: F; case: eqP => [_|_]; last exact: IH.
have Hq q : flat Q rest q -> forall k0, KA m rest q q = Some k0 -> forall o, dimensionality k0 = Some o -> o = Some (outputs rest q).
  by move=> F k0 Ek o'; apply: IH F Ek.
have Po q : flat Q rest q -> outputs rest q != 0%N by move=> F; rewrite -lt0n; apply: flat_pos F.
case: d => [mu k0|mu k0 lr|q|q c|q f|q q'|q c|q f|q t t0|q dd|ps] F //=; rewrite /onk /onm ?eqxx.
- by case=> <-; rewrite basic_dim // => -[<-].
- by case Ek: (KA _ _ _ _) => [k1|] // [<-]; apply: Hq Ek _; apply: F; rewrite inE.
- by case Ek: (KA _ _ _ _) => [k1|] // [<-]; apply: Hq Ek _; apply: F; rewrite inE.
- by case Ek: (KA _ _ _ _) => [k1|] // [<-]; apply: Hq Ek _; case: F.
- have Fq : flat Q rest q by apply: F; rewrite inE eqxx.
  case Ek: (KA m rest q q) => [k1|] //=; rewrite ?eqxx; case: (KA m rest q' q') => [k2|] //=; rewrite ?eqxx.
  case: (KA m rest q q') => [k3|] //=; rewrite ?eqxx; case: (KA m rest q' q) => [k4|] // [<-] /=.
  case E1: (dimensionality k1) => [d1|] //=; rewrite (Hq _ Fq _ Ek _ E1).
  case: (dimensionality k2) => [d2|] //=; case: (dimensionality k3) => [d3|] //=; last by case: (merge _).
  case: (dimensionality k4) => [d4|] //=; last by case: (merge _) => //= ?; case: (merge _).
  have nz := Po _ Fq.
  case M1: (merge _) => [o1|] //=; rewrite (merge_in M1 (mem_head _ _) nz).
  case M2: (merge _) => [o2|] //=; rewrite (merge_in M2 (mem_head _ _) nz).
  by move=> M3; rewrite (merge_in M3 (mem_head _ _) nz).
- by case Ek: (KA _ _ _ _) => [k1|] // [<-]; apply: Hq Ek _; apply: F; rewrite inE.
- have Fq : flat Q rest q by apply: F; case: (f) => * /=; rewrite inE eqxx.
  case Ek: (KA m rest q q) => [k1|] // [<-] /=; case E1: (dimensionality k1) => [d1|] //=.
  by rewrite (Hq _ Fq _ Ek _ E1) => M1; apply: (merge_in M1); rewrite ?Po // !inE eqxx orbT.
- by case Ek: (KA _ _ _ _) => [k1|] // [<-]; apply: Hq Ek _; apply: F; rewrite inE.
- by case Ek: (KA _ _ _ _) => [k1|] // [<-]; apply: Hq Ek _; apply: F; rewrite inE.
- by case=> <- [<-].
Qed.

(* A process whose kernel is that of a Cartesian product is one. *)
Lemma mok_product Q h m p m' ps : flat Q h p -> KA m h p p = Some (KMok m' ps) -> product h p = Some ps.
Proof.
elim: h m p => [|pm par IH ob|r d rest IH] m p //= F.
  case: ifP => // _; rewrite /post_k /post_k1 /post_k2; case: (o_data ob) => [dd|]; last (case: eqP => _ /=); rewrite /= /onk /onm ?eqxx.
  - case: (KA pm par p p) => [k0|] //=; case: (KA pm par (o_p ob) p) => [kz|] //=; case: (KA _ _ _ _) => [k1|] //=.
    by case: (KA _ _ _ _) => [k2|] //=; case: (KA _ _ _ _).
  - by case Ek: (KA _ _ _ _) => [k'|] // [ek]; apply: (IH pm _ F); rewrite Ek ek.
  by case: (KA pm par p p) => [k0|] //=; case: (KA pm par (o_p ob) p) => [kz|] //=; case: (KA _ _ _ _).
move: F; case: eqP => [_|_]; last exact: IH.
case: d => [mu k0|mu k0 lr|q|q c|q f|q q'|q c|q f|q t t0|q dd|ps'] F //=; rewrite /onk /onm ?eqxx.
- by case=> ek; move: F; rewrite ek.
- by case Ek: (KA _ _ _ _) => [k1|] // [ek]; apply: (IH m); rewrite ?Ek ?ek //; apply: F; rewrite inE.
- by case Ek: (KA _ _ _ _) => [k1|] // [ek]; apply: (IH m); rewrite ?Ek ?ek //; apply: F; rewrite inE.
- by case Ek: (KA _ _ _ _) => [k1|] // [ek]; apply: (IH m); rewrite ?Ek ?ek //; case: F.
- by case: (KA m rest q q) => [k1|] //=; rewrite ?eqxx; case: (KA m rest q' q') => [k2|] //=; rewrite ?eqxx;
  case: (KA m rest q q') => [k3|] //=; rewrite ?eqxx; case: (KA m rest q' q).
- by case: (KA _ _ _ _).
- by case: (KA _ _ _ _).
- by case: (KA _ _ _ _).
- by case: (KA _ _ _ _).
- by case=> _ ->.
Qed.

Lemma flat_pids Q h p : flat Q h p -> p \in pids h.
Proof.
elim: h p => [|pm par IH o|r d rest IH] p //=; first exact: IH.
by rewrite inE; case: eqP => //= _; apply: IH.
Qed.
Lemma flat_weaken (Q Q' : pid -> Prop) h p : (forall a, Q a -> Q' a) -> flat Q h p -> flat Q' h p.
Proof.
move=> QQ; elim: h p => [|pm par IH o|r d rest IH] p //=; first exact: IH.
case: eqP => [_|_]; last exact: IH.
case: d => [mu k0|mu k0 lr|q|q c|q f|q q'|q c|q f|q t t0|q dd|ps'] F //; try by move=> a /F /IH.
  by case: F => ? /IH.
by case: F => ? H; split=> // a /H [] *; split=> //; [apply: QQ | apply: IH].
Qed.
End Dim.

Section Size.
Variables (R : fieldType) (W : space R).
Variable D : nat -> (point R -> R) -> point R -> R.
Variables (G : pid -> point R -> rv W) (eps : mid -> nat -> rv W).
Notation V := (rv W). Notation at_ := (at_ D G eps). Notation denotes := (denotes D G eps).
Notation input := (input R). Notation hist := (hist R).
Implicit Types (h : hist) (x y : input) (u v : seq V).

Definition asize (d : nat) x : nat := match x with Num xs => (d * size xs)%N | Fdd _ x' => ne x' | Tup _ => 0%N end.

Lemma lift_ne (A : input -> seq V -> Prop) x u : (forall x u, A x u -> size u = asize 1 x) -> lift A x u -> size u = ne x.
Proof.
move=> H; elim=> [xs v /H|p y v /H||y xs a b _ e1 _ e2] //=; first by rewrite mul1n.
by rewrite size_cat e1 e2.
Qed.

Lemma at_size Q m h p x u : flat Q h p -> at_ m h p x u -> size u = asize (outputs h p) x.
Proof.
elim: h m p x u => [|pm par IH o|r d rest IH] m p x u //=.
  by move=> F [u0 /(IH _ _ _ _ F) <- /Forall2_size].
case: eqP => [_|_ F]; last exact: IH F.
have {}IH q y v : flat Q rest q -> at_ m rest q y v -> size v = asize (outputs rest q) y by apply: IH.
case: d => [mu k0|mu k0 lr|q|q c|q f|q q'|q c|q f|q t t0|q dd|ps] F //.
- by case=> xs -> ->; rewrite size_map /= mul1n.
- by apply: IH; apply: F; rewrite inE.
- by case=> a Ha ->; rewrite size_map; apply: IH Ha; apply: F; rewrite inE.
- by case=> xs [a [ex Ha sa ->]]; rewrite size_zipw // -(IH _ _ _ F.2 Ha).
- by case=> a [b [Ha _ e ->]]; rewrite size_zipw // -(IH _ _ _ _ Ha) //; apply: F; rewrite inE eqxx.
- by case=> a Ha ->; rewrite size_map; apply: IH Ha; apply: F; rewrite inE.
- case=> fv [a [_ Ha e ->]]; rewrite size_zipw // e; apply: IH Ha; apply: F.
  by case: (f) => * /=; rewrite inE eqxx.
- by case=> xs -> /IH -> /=; [rewrite size_map | apply: F; rewrite inE].
- case=> xs [Fq [dF [-> A _ ->]]]; rewrite size_map /=.
  have := IH q _ _ (F q (mem_head _ _)) (A [::]); rewrite /= muln1 => <-; by rewrite mul1n.
- case: F => _ F; case: x => //= [xs|a x].
    case=> us Fs ->; elim: ps us F Fs => [|q ps IHp] [|v us] F Fs //=; try by inversion Fs.
    have [F1 F2] : at_ m rest q (Num xs) v /\ Forall2 (fun p v => at_ m rest p (Num xs) v) ps us by inversion Fs.
    rewrite size_cat IHp //; last by move=> a Ha; apply: F; rewrite inE Ha orbT.
    by have [_ o1 Fq] := F q (mem_head _ _); rewrite (IH _ _ _ Fq F1) o1 /= mul1n mulSn.
  by case=> /F [_ o1 Fa] L; apply: lift_ne L => y v /(IH _ _ _ Fa); rewrite o1.
Qed.

Lemma infer_lift (A : input -> seq V -> Prop) k d x u s : (forall o, dimensionality k = Some o -> o = Some d) ->
  (forall x u, A x u -> size u = asize d x) -> lift A x u -> infer_size k x = Some s -> size u = s.
Proof.
move=> Hk H L; elim: L s => [xs v /H ->|p y v /H -> /= s [<-]|s [<-]|y xs a b _ IH1 _ IH2 s] //=.
  by move=> s; case Ek: (dimensionality k) => [o|] //; move/Hk: Ek => -> [<-]; rewrite mulnC.
case E1: (infer_size k y) => [s1|] //=.
rewrite -/(infer_size k (Tup xs)); case E2: (infer_size k (Tup xs)) => [s2|] //= [<-].
by rewrite size_cat (IH1 _ E1) (IH2 _ E2).
Qed.

Lemma infer_den Q m h p k x u s : flat Q h p -> KA m h p p = Some k -> denotes m h p x u -> infer_size k x = Some s -> size u = s.
Proof.
move=> F Ek; apply: infer_lift; first by move=> o; apply: dim_own F Ek.
by move=> y v; apply: at_size F.
Qed.
End Size.

(* Masks. *)
Section Stage.
Variable R : fieldType.
Notation hist := (hist R).
(* Earlier histories. *)
Inductive stage : hist -> hist -> Prop :=
| st_refl h : stage h h
| st_add h r d rest : stage h rest -> stage h (HAdd r d rest)
| st_post h m par o : stage h par -> stage h (HPost m par o).
Lemma stage_trans h1 h2 h3 : stage h1 h2 -> stage h2 h3 -> stage h1 h3.
Proof. by move=> S1 S2; elim: S2 S1 => // *; constructor; auto. Qed.
Lemma stage_pids h h' : stage h h' -> {subset pids h <= pids h'}.
Proof. by elim=> {h h'} [h|h r d rest _ IH|h m par o _ IH] a //= /IH Ha //; rewrite inE Ha orbT. Qed.
Lemma stage_facts Q h h' a : stage h h' -> wfh h' -> a \in pids h ->
  [/\ outputs h' a = outputs h a, product h' a = product h a & flat Q h' a <-> flat Q h a].
Proof.
elim=> {h h'} [h|h r d rest S IH|h m par o S IH] /= Wf Ha; [by split | | exact: IH].
case/and3P: Wf => rn _ Wf.
have -> : a == r = false by apply/eqP => ea; rewrite -ea (stage_pids S Ha) in rn.
exact: IH.
Qed.
End Stage.

Section Mask.
Variables (R : fieldType) (W : space R).
Variable D : nat -> (point R -> R) -> point R -> R.
Variables (G : pid -> point R -> rv W) (eps : mid -> nat -> rv W).
Notation V := (rv W). Notation at_ := (at_ D G eps). Notation denotes := (denotes D G eps).
Notation input := (input R). Notation hist := (hist R).
Implicit Types (h : hist) (x y : input) (u v : seq V) (mu : seq bool).

Lemma zipw_mask (A B C : Type) (f : A -> B -> C) a b mu : zipw f (mask mu a) (mask mu b) = mask mu (zipw f a b).
Proof.
rewrite /zipw -map_mask; congr (map _ _).
have z0 (X Y : Type) (t : seq Y) : zip [::] t = [::] :> seq (X * Y) by case: t.
have z1 (X Y : Type) (t : seq X) : zip t [::] = [::] :> seq (X * Y) by case: t.
elim: a b mu => [|a s IH] b mu; first by rewrite mask0 !z0 mask0.
case: b => [|b t]; first by rewrite mask0 !z1 mask0.
by case: mu => [|[] mu] //=; rewrite IH.
Qed.
Lemma Forall2_mask (A B : Type) (Q : A -> B -> Prop) a b mu : Forall2 Q a b -> Forall2 Q (mask mu a) (mask mu b).
Proof.
move=> F; elim: F mu => [|x y l l' H _ IH] mu; first by rewrite !mask0.
by case: mu => [|[] mu] /=; [constructor | constructor; [|exact: IH] | exact: IH].
Qed.

Lemma at_mask Q m h p xs u mu : flat Q h p -> at_ m h p (Num xs) u -> size u = size xs -> size mu = size xs ->
  at_ m h p (Num (mask mu xs)) (mask mu u).
Proof.
elim: h m p xs u => [|pm par IH o|r d rest IH] m p xs u //=.
  move=> F [u0 H0 F0] su smu; exists (mask mu u0); last exact: Forall2_mask.
  by apply: (IH _ _ _ _ F H0 _ smu); rewrite (Forall2_size F0).
case: eqP => [_|_ F]; last exact: IH F.
have {}IH q ys v : flat Q rest q -> at_ m rest q (Num ys) v -> size v = size ys -> size mu = size ys ->
  at_ m rest q (Num (mask mu ys)) (mask mu v) by apply: IH.
have As q y v : flat Q rest q -> at_ m rest q y v -> size v = asize (outputs rest q) y by apply: at_size.
case: d => [e k0|e k0 lr|q|q c|q f|q q'|q c|q f|q t t0|q dd|ps] F //.
- by case=> _ [<-] -> _ _; exists (mask mu xs); rewrite ?map_mask.
- by apply: IH; apply: F; rewrite inE.
- case=> a Ha ->; rewrite size_map => sa sm; exists (mask mu a); rewrite ?map_mask //.
  by apply: IH => //; apply: F; rewrite inE.
- case=> _ [a [[<-] Ha sa ->]] _ sm; exists (mask mu xs), (mask mu a); split=> //.
  + by apply: IH => //; case: F.
  + by rewrite !size_mask // ?sa.
  + by rewrite zipw_mask.
- case=> a [b [Ha Hb e ->]]; rewrite size_zipw // => sa sm; exists (mask mu a), (mask mu b); split=> //.
  + by apply: IH => //; apply: F; rewrite inE eqxx.
  + by apply: IH => //; [apply: F; rewrite !inE eqxx orbT | rewrite -e].
  + by rewrite !size_mask // -?e ?sa.
  + by rewrite zipw_mask.
- case=> a Ha ->; rewrite size_map => sa sm; exists (mask mu a); rewrite ?map_mask //.
  by apply: IH => //; apply: F; rewrite inE.
- case=> fv [a [Hf Ha e ->]]; rewrite size_zipw // => sf sm; exists (mask mu fv), (mask mu a); split=> //.
  + case: f F Hf => //= [g|m' q2] F; first by case=> _ [<-] ->; exists (mask mu xs); rewrite ?map_mask.
    case=> -> [w Hw ew]; split=> //; exists (mask mu w); last by rewrite ew map_mask.
    by apply: IH => //; [apply: F; rewrite !inE eqxx orbT | rewrite -sf ew size_map].
  + by apply: IH => //; [apply: F; case: (f) => * /=; rewrite inE eqxx | rewrite -e].
  + by rewrite !size_mask // -?e ?sf.
  + by rewrite zipw_mask.
- case=> _ [<-] Ha su sm; exists (mask mu xs) => //; rewrite map_mask; apply: IH; rewrite ?size_map //.
  by apply: F; rewrite inE.
- by case=> _ [Fq [dF [[<-] A Hd ->]]] _ sm; exists (mask mu xs), Fq, dF; split=> //; rewrite map_mask.
- case: F => nz F [us Fs ->] su sm.
  have Hs : forall i, (i < size us)%N -> size (nth [::] us i) = size xs.
    move=> i li; have lp : (i < size ps)%N by rewrite (Forall2_size Fs).
    have Ha := Forall2_nth 0%N [::] Fs lp; have [_ o1 Fa] := F _ (mem_nth 0%N lp).
    by rewrite (As _ _ _ Fa Ha) o1 /= mul1n.
  case: ps us F nz Fs su Hs => [|q ps] [|v us] F _ Fs //; try by inversion Fs.
  have [F1 F2] : at_ m rest q (Num xs) v /\ Forall2 (fun p v => at_ m rest p (Num xs) v) ps us by inversion Fs.
  move=> su Hs; have sv : size v = size xs by apply: (Hs 0%N).
  case: ps us F F2 {Fs} su Hs => [|q2 ps] [|v2 us] F F2 su Hs; try by inversion F2.
    exists [:: mask mu v]; last by rewrite /= !cats0.
    constructor; last by constructor.
    by apply: IH => //; have [] := F q (mem_head _ _).
  have x0 : xs = [::].
    apply: size0nil; move: su; rewrite /= !size_cat sv (Hs 1%N) // => e; lia.
  subst xs; rewrite mask0.
  have -> : mask mu (flatten [:: v, v2 & us]) = flatten [:: v, v2 & us] by rewrite (size0nil su) mask0.
  by exists [:: v, v2 & us] => //; constructor.
Qed.

Lemma lift_rel2 (A B : input -> seq V -> Prop) (Q : V -> V -> Prop) x a u :
  (forall x a u, A x a -> Forall2 Q a u -> B x u) -> lift A x a -> Forall2 Q a u -> lift B x u.
Proof.
move=> H L; elim: L u => [xs v Hv u F|p y v Hv u F|u F|y xs a1 b1 _ IH1 _ IH2 u F].
- by apply: lift_num; apply: H Hv F.
- by apply: lift_fdd; apply: H Hv F.
- by inversion F; apply: lift_nil.
- by case: (Forall2_cat_l F) => u1 [u2 [-> F1 F2]]; apply: lift_cons; [apply: IH1 | apply: IH2].
Qed.

(* A Cartesian product at an array is the tuple of its components. *)
Lemma product_num Q m h p ps xs u : flat Q h p -> product h p = Some ps -> at_ m h p (Num xs) u ->
  denotes m h p (Tup [seq Fdd b (Num xs) | b <- ps]) u.
Proof.
elim: h m p u => [|pm par IH o|r d rest IH] m p u //.
  by move=> F E /= [u0 /(IH _ _ _ F E) L F0]; apply: (lift_rel2 _ L F0) => x a v Ha Fa; exists a.
have Z v x : p = r -> lift (equation D G m (at_ m rest) r d) x v -> denotes m (HAdd r d rest) p x v.
  by move=> ->; apply: lift_impl => y b /=; rewrite eqxx.
rewrite /=; case: eqP => [ep|np F E H]; last first.
  by apply: lift_impl (IH _ _ _ F E H) => y b /=; case: eqP.
case: d Z => [e k0|e k0 lr|q|q c|q f|q q'|q c|q f|q t t0|q dd|ps'] Z F //= E.
- move=> H; apply: Z ep _; apply: IH E H; by apply: F; rewrite inE.
- case=> a Ha ->; apply: Z ep _.
  have {}Ha := IH _ _ _ (F q (mem_head _ _)) E Ha.
  apply: (lift_rel2 _ Ha (Q := fun a b => b = radd a (rconst W c))); last by elim: (a) => [|? ? ?]; constructor.
  move=> x b v Hb Fb; exists b => //.
  by elim: Fb => // x1 y1 l l' -> _ ->.
- by case: F E => ->.
- by case: E => <- [us Fs ->]; rewrite ep; apply: cross_tup Fs _.
Qed.

Lemma product_fdd Q m h p ps b y y' u mu : wfh h -> flat Q h p -> product h p = Some ps ->
  (forall m' h' v, stage h' h -> b \in pids h' -> denotes m' h' b y v -> size mu = size v -> denotes m' h' b y' (mask mu v)) ->
  at_ m h p (Fdd b y) u -> size mu = size u -> at_ m h p (Fdd b y') (mask mu u).
Proof.
elim: h m p u => [|pm par IH o|r d rest IH] m p u //= Wf.
  move=> F E T [u0 H0 F0] su; exists (mask mu u0); last exact: Forall2_mask.
  apply: (IH _ _ _ Wf F E _ H0); last by rewrite (Forall2_size F0).
  by move=> m' h' v S; apply: T; constructor.
case/and3P: Wf => rn ra Wf.
have {}IH q v : flat Q rest q -> product rest q = Some ps ->
  (forall m' h' v, stage h' (HAdd r d rest) -> b \in pids h' -> denotes m' h' b y v -> size mu = size v -> denotes m' h' b y' (mask mu v)) ->
  at_ m rest q (Fdd b y) v -> size mu = size v -> at_ m rest q (Fdd b y') (mask mu v).
  by move=> F E T; apply: IH => // m' h' v' S; apply: T; constructor.
case: eqP => [ep|np F E T]; last exact: IH.
case: d ra IH => [e k0|e k0 lr|q|q c|q f|q q'|q c|q f|q t t0|q dd|ps'] ra IH F //= E T.
- by apply: IH => //; apply: F; rewrite inE.
- case=> a Ha ->; rewrite size_map => sa; exists (mask mu a); rewrite ?map_mask //.
  by apply: IH => //; apply: F; rewrite inE.
- by case: F E => ->.
- case=> Hb Hd su; split=> //; apply: T => //; first by constructor; constructor.
  by move/allP: ra; apply.
Qed.
End Mask.

Section Take.
Variables (R : fieldType) (W : space R).
Variable D : nat -> (point R -> R) -> point R -> R.
Variables (G : pid -> point R -> rv W) (eps : mid -> nat -> rv W).
Notation V := (rv W). Notation at_ := (at_ D G eps). Notation denotes := (denotes D G eps).
Notation input := (input R). Notation hist := (hist R).
Variables (w : world R) (m : mid).
Hypotheses (I : winv w) (lt : (m < w_nm w)%N).
Notation L := (w_log w m). Notation own := (own_kernel w).
Notation Q := (settled w m).
Implicit Types (h : hist) (x y : input) (u v : seq V) (mu : seq bool).

Let Wf : wfh L. Proof. exact: (l_wf (v_log I.1)). Qed.
Lemma own_here a k : Q a -> own a = Some k ->
  (forall o, dimensionality k = Some o -> o = Some (outputs L a)) /\ (forall m' ps, k = KMok m' ps -> product L a = Some ps).
Proof.
case=> m0 [Eh lt0 F <- <-]; rewrite /own_kernel Eh /= see_k_log // lt0 => Ek; split; first by move=> o; apply: dim_own F Ek.
by move=> m' ps ek; rewrite ek in Ek; apply: mok_product F Ek.
Qed.

(* What [_take_x] returns denotes the masked values. *)
Definition tk n := forall a k x mu x', Q a -> flat Q L a -> own a = Some k -> take_x own n k x mu = Some x' ->
  forall m' h u, stage h L -> a \in pids h -> denotes m' h a x u -> size mu = size u -> denotes m' h a x' (mask mu u).

Lemma slices_ok n a k xs mu xs' m' h u : tk n -> Q a -> flat Q L a -> own a = Some k -> stage h L -> a \in pids h ->
  slices (take_x own n k) (infer_size k) xs mu = Some xs' -> denotes m' h a (Tup xs) u -> size mu = size u ->
  denotes m' h a (Tup xs') (mask mu u).
Proof.
move=> T Qa Fa Ek S Ha; have [KL _] := own_here Qa Ek; have [eo _ fi] := stage_facts Q S Wf Ha.
have Fh : flat Q h a by apply/fi.
elim: xs mu xs' u => [|x xs IH] mu xs' u /=.
  by case=> <- L0 _; have [us F ->] := lift_tup_inv L0; inversion F; rewrite mask0; apply: lift_nil.
case Es: (infer_size k x) => [s|] //=; case Ex: (take_x _ _ _ _ _) => [x1|] //=.
case El: (slices _ _ _ _) => [xs1|] //= [<-] L0.
have [u1 [u2 [-> L1 L2]]] : exists u1 u2, [/\ u = u1 ++ u2, denotes m' h a x u1 & denotes m' h a (Tup xs) u2].
  have [us F ->] := lift_tup_inv L0; case: us F => [|u1 us] F; first by inversion F.
  by exists u1, (flatten us); split=> //; [inversion F | apply: lift_tup; inversion F].
have s1 : size u1 = s.
  apply: (infer_lift (d := outputs h a) _ _ L1 Es); last by move=> y v; apply: at_size Fh.
  by move=> o Eo; rewrite (KL _ Eo) eo.
rewrite size_cat s1 => sm; have st : size (take s mu) = s by rewrite size_takel // sm leq_addr.
have sd : size (drop s mu) = size u2 by rewrite size_drop sm addKn.
rewrite -(cat_take_drop s mu) mask_cat ?st ?s1 //; apply: lift_cons.
  by apply: (T _ _ _ _ _ Qa Fa Ek Ex _ _ _ S Ha L1); rewrite st s1.
exact: IH El L2 sd.
Qed.

Lemma tk_all n : tk n.
Proof.
elim: n => [|n IH] a k x mu x' Qa Fa Ek //= E m' h u S Ha Lu su.
have [_ KL] := own_here Qa Ek; have [eo ep fi] := stage_facts Q S Wf Ha.
have Fh : flat Q h a by apply/fi.
case: x E Lu => [xs|b y|xs].
- move=> E /lift_num_inv Hu.
  have [[m0 [ps ek]]|E'] : (exists m0 ps, k = KMok m0 ps) \/
      (if size mu == size xs then Some (Num (mask mu xs)) else None) = Some x'.
    by move: E; case: (k) => *; try (by right); left; do 2!eexists.
    subst k; have Ep := KL _ _ erefl.
    have Lt := product_num Fh (etrans (esym ep) Ep) Hu.
    move: E; case Es: (slices _ _ _ _) => [xs'|] //= [<-].
    exact: slices_ok IH Qa Fa Ek S Ha Es Lt su.
  move: E'; case: eqP => // sm [<-]; apply: lift_num; exact (at_mask Fh Hu (etrans (esym su) sm) sm).
- case: (k) Ek KL => // m0 ps Ek KL; case: ifP => // Hb E /lift_fdd_inv Hu.
  have Ep := KL _ _ erefl; rewrite ep in Ep.
  case Ekb: (own b) E => [kb|] //=; case Et: (take_x _ _ _ _ _) => [y'|] //=; case: (infer_size _ _) => [s|] //= [<-].
  apply: lift_fdd.
  have [Qb Fb] : Q b /\ flat Q L b.
    have : product L a = Some ps by rewrite ep.
    move: Hb Fa Wf; elim: (L) a {Qa Ek KL Fh S Ha Hu fi eo ep Ep} => [|pm par IHh o|r d rest IHh] a //= Hb; first by apply: IHh.
    case: (a =P r) => [_|_]; last first.
      by move=> Fr /and3P [rn _ Wr] /(IHh _ Hb Fr Wr) [Qb Fb]; split=> //; case: eqP => // eb; move: rn; rewrite -eb (flat_pids Fb).
    have go q : flat Q rest q -> r \notin pids rest -> wfh rest -> product rest q = Some ps ->
        Q b /\ (if b == r then match d with
           | DInd _ k0 => is_true (basic k0) | DUser _ _ _ => False
           | DCross ps0 => ps0 <> [::] /\ forall a, a \in ps0 -> [/\ Q a, outputs rest a = 1%N & flat Q rest a]
           | DAddF q0 _ => product rest q0 = None /\ flat Q rest q0
           | _ => forall q0, q0 \in needs d -> flat Q rest q0 end else flat Q rest b).
      move=> Fq rn Wr Eq; have [Qb Fb] := IHh _ Hb Fq Wr Eq; split=> //.
      by case: eqP => // eb; move: rn; rewrite -eb (flat_pids Fb).
    case: d go => [e k0|e k0 lr|q|q c|q f|q q'|q c|q f|q t t0|q dd|ps'] go Fd /and3P [rn _ Wr] //=.
    + by apply: go => //; apply: Fd; rewrite inE.
    + by apply: go => //; apply: Fd; rewrite inE.
    + by apply: go => //; case: Fd.
    + case=> e; subst ps'; case: (Fd) => _ H; have [Qb _ Fb] := H _ Hb; split=> //.
      by case: eqP => // eb; move: rn; rewrite -eb (flat_pids Fb).
  have Wh : wfh h by elim: S (Wf) => // ? ? ? ? _ IHs /and3P [_ _ /IHs].
  apply: (product_fdd Wh Fh Ep _ Hu su) => m2 h2 v S2 Hb2 Lv sv.
  exact: IH Qb Fb Ekb Et _ _ _ (stage_trans S2 S) Hb2 Lv sv.
- case Es: (slices _ _ _ _) => [xs'|] //= [<-] Lu.
  exact: slices_ok IH Qa Fa Ek S Ha Es Lu su.
Qed.
End Take.
