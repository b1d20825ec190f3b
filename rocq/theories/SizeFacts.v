(* Which FDDs can be constructed. *)
From Coq Require Import List.
From mathcomp Require Import all_ssreflect all_algebra.
From mathcomp Require Import zify.
From Verif Require Import Graph Machine Refine Worlds Eval GraphSpec GraphProofs Combine Infer InferSpec InferFacts SizeSpec.
Set Implicit Arguments. Unset Strict Implicit. Unset Printing Implicit Defensive.

Section Size.
Variable R : fieldType.
Notation hist := (hist R). Notation kexp := (kexp R). Notation input := (input R).
Implicit Types (h : hist) (k : kexp) (x : input) (i j p : pid).

Definition fine v k : Prop := dimensionality k = Some None \/ dimensionality k = Some (Some v).
Definition sure v k : Prop := dimensionality k = Some (Some v).
Lemma sure_fine v k : sure v k -> fine v k. Proof. by right. Qed.

Lemma add_fine v k1 k2 : (0 < v)%N -> fine v k1 -> fine v k2 -> fine v (KAdd k1 k2).
Proof. rewrite /fine /= => nz [->|->] [->|->] /=; rewrite /merge /= -?lt0n ?nz /= ?eqxx; auto. Qed.
Lemma add_sure v k1 k2 : (0 < v)%N -> sure v k1 -> fine v k2 -> sure v (KAdd k1 k2).
Proof. by rewrite /fine /sure /= => nz -> [->|->] /=; rewrite /merge /= -?lt0n ?nz /= ?eqxx. Qed.
Lemma mul_sure k1 k2 : sure 1 k1 -> fine 1 k2 -> sure 1 (KMul k1 k2).
Proof. by rewrite /fine /sure /= => -> [->|->]. Qed.
Lemma post_fine v k1 k2 k3 k4 z n : (0 < v)%N -> fine v k1 -> fine v k2 -> fine v k3 -> fine v (KPost k1 k2 k3 k4 z n).
Proof. rewrite /fine /= => nz [->|->] [->|->] [->|->] /=; rewrite /merge /= -?lt0n ?nz /= ?eqxx; auto. Qed.
Lemma post_sure v k1 k2 k3 k4 z n : (0 < v)%N -> sure v k1 -> fine v k2 -> fine v k3 -> sure v (KPost k1 k2 k3 k4 z n).
Proof. by rewrite /fine /sure /= => nz -> [->|->] [->|->] /=; rewrite /merge /= -?lt0n ?nz /= ?eqxx. Qed.
Lemma sub_fine v k2 k3 kz kzx kx z n x nx me : (0 < v)%N -> fine v k2 -> fine v k3 ->
  fine v (KSub k2 k3 kz kzx kx z n x nx me).
Proof. rewrite /fine /= => nz [->|->] [->|->] /=; rewrite /merge /= -?lt0n ?nz /= ?eqxx; auto. Qed.

Variable keep : mid -> nat.
Notation sized := (sized keep).
Lemma sized_pos h i a : sized h i = Some a -> (0 < a)%N.
Proof.
elim: h i a => [|pm par IH o|r d rest IH] i a //=.
  case E: (sized par i) => [d|] //; case: (sized par _) => // c; case: ifP => // _ [<-]; exact: IH E.
case: ifP => // _; last exact: IH.
case: d => [mu k|mu k lr|q|q c|q f|q q'|q c|q f|q t t0|q d|ps] //=; try exact: IH.
- by case: ifP => // _ [<-].
- by case: ifP => // _; apply: IH.
- by case: ifP => // _ [<-].
by case: ps => // p ps [<-].
Qed.

(* The only size that the kernel of two processes can have. *)
Definition vv a b : nat := if a == b then a else 1%N.
Lemma vvC a b : vv a b = vv b a. Proof. by rewrite /vv eq_sym; case: eqP => // ->. Qed.
Lemma vv_pos a b : (0 < a)%N -> (0 < vv a b)%N. Proof. by rewrite /vv; case: eqP. Qed.
Lemma vv1 a : vv 1 a = 1%N. Proof. by rewrite /vv; case: eqP. Qed.

Lemma dims h m i j a b k : sized h i = Some a -> sized h j = Some b -> KA m h i j = Some k ->
  fine (vv a b) k /\ (i = j -> sure a k).
Proof.
elim: h m i j a b k => [|pm par IH o|r d rest IH] m i j a b k //=.
  case Ei: (sized par i) => [d1|] //; case Ez: (sized par (o_p o)) => [c|] //; case: ifP => // /andP [/eqP k1 H1] [e1].
  case Ej: (sized par j) => [d2|] //; case: ifP => // /andP [/eqP k2 H2] [e2]; subst a b.
  rewrite {H2} k2 -{k2}k1 in Ej *; rewrite {1}/vv eqxx; have nz := sized_pos Ei.
  have vz : vv c d1 = d1.
    by move: H1; rewrite /vv => /orP [/eqP->|/eqP->]; [case: eqP|rewrite eqxx].
  case: ifP => // _; rewrite /post_k /post_k1 /post_k2.
  have Hij k' : KA pm par i j = Some k' -> fine d1 k' /\ (i = j -> sure d1 k').
    by move=> Ek; have := IH _ _ _ _ _ _ Ei Ej Ek; rewrite /vv eqxx.
  have Hzi k' : KA pm par (o_p o) i = Some k' -> fine d1 k' by move=> Ek; have [] := IH _ _ _ _ _ _ Ez Ei Ek; rewrite vz.
  have Hzj k' : KA pm par (o_p o) j = Some k' -> fine d1 k' by move=> Ek; have [] := IH _ _ _ _ _ _ Ez Ej Ek; rewrite vz.
  case: (o_data o) => [dd|]; last (case: eqP => _ /=); rewrite /= /onk /onm ?eqxx.
  - case Ek1: (KA pm par i j) => [k1|] //=; rewrite ?eqxx; case Ek2: (KA pm par (o_p o) i) => [k2|] //=; rewrite ?eqxx.
    case Ek3: (KA pm par (o_p o) j) => [k3|] //=; rewrite ?eqxx; case: (KA _ _ _ _) => [k4|] //=; rewrite ?eqxx.
    case: (KA _ _ _ _) => [k5|] //=; rewrite ?eqxx; case: (KA _ _ _ _) => [k6|] //= [<-].
    have [f1 s1] := Hij _ Ek1; have f2 := Hzi _ Ek2; have f3 := Hzj _ Ek3.
    split; first by apply: add_fine => //; [apply: post_fine|apply: sub_fine].
    by move=> e; apply: add_sure => //; [apply: post_sure => //; apply: s1|apply: sub_fine].
  - by case Ek1: (KA pm par i j) => [k1|] // [<-]; exact: Hij.
  case Ek1: (KA pm par i j) => [k1|] //=; rewrite ?eqxx; case Ek2: (KA pm par (o_p o) i) => [k2|] //=; rewrite ?eqxx.
  case Ek3: (KA pm par (o_p o) j) => [k3|] //=; rewrite ?eqxx; case: (KA _ _ _ _) => [k4|] //= [<-].
  have [f1 s1] := Hij _ Ek1; have f2 := Hzi _ Ek2; have f3 := Hzj _ Ek3.
  by split; [apply: post_fine|move=> e; apply: post_sure => //; apply: s1].
(* The new process with an old one. *)
have L c b' q k' : sized (HAdd r d rest) r = Some c -> sized rest q = Some b' ->
  pint (onk m (KA m rest)) (noM R) (left_of m d q) = Some k' -> fine (vv c b') k'.
  rewrite /= eqxx => Ec Eq; move: Ec.
  case: d => [mu k0|mu k0 lr|q'|q' c'|q' f|q1 q2|q' c'|q' f|q' t t0|q' d|ps] //=; rewrite /onk /onm ?eqxx.
  - by case: ifP => // _ [<-] [<-]; rewrite vv1; right.
  - by move=> Ec; case Ek: (KA _ _ _ _) => [k1|] // [<-]; case: (IH _ _ _ _ _ _ Ec Eq Ek).
  - by move=> Ec; case Ek: (KA _ _ _ _) => [k1|] // [<-]; case: (IH _ _ _ _ _ _ Ec Eq Ek).
  - by move=> Ec; case Ek: (KA _ _ _ _) => [k1|] // [<-]; case: (IH _ _ _ _ _ _ Ec Eq Ek).
  - case: ifP => // /eqP e Ec; case Ek: (KA m rest q1 q) => [k1|] //=; rewrite ?eqxx.
    case Ek2: (KA m rest q2 q) => [k2|] // [<-]; have E2 := Ec; rewrite e in E2.
    have [f1 _] := IH _ _ _ _ _ _ Ec Eq Ek; have [f2 _] := IH _ _ _ _ _ _ E2 Eq Ek2.
    by apply: add_fine => //; apply: vv_pos; apply: sized_pos Ec.
  - by move=> Ec; case Ek: (KA _ _ _ _) => [k1|] // [<-]; case: (IH _ _ _ _ _ _ Ec Eq Ek).
  - case: ifP => // /eqP Ec [<-]; case Ek: (KA m rest q' q) => [k1|] // [<-].
    by have [] := IH _ _ _ _ _ _ Ec Eq Ek; rewrite vv1 => f1 _; apply: sure_fine; apply: mul_sure.
  - by move=> Ec; case Ek: (KA _ _ _ _) => [k1|] // [<-]; case: (IH _ _ _ _ _ _ Ec Eq Ek).
  - by move=> Ec; case Ek: (KA _ _ _ _) => [k1|] // [<-]; case: (IH _ _ _ _ _ _ Ec Eq Ek).
  by case: ps => // p0 ps [_] [<-]; left.
case: (i =P r) => [ei|ni].
  case: (j =P r) => [ej|nj]; last first.
    move=> Ei Ej; case: ifP => // _ Ek; split; last by move=> e; case: nj; rewrite -e.
    by apply: (L _ _ _ _ _ Ej Ek); rewrite /= eqxx.
  move=> E1 E2; have eab : a = b by move: E1; rewrite E2 => -[].
  rewrite -eab {1}/vv eqxx => Ek; suff S : sure a k by split=> [|_]; [exact: sure_fine|].
  move: E1 Ek; case: (d) => [mu k0|mu k0 lr|q'|q' c'|q' f|q1 q2|q' c'|q' f|q' t t0|q' d0|ps] //=; rewrite /onk /onm ?eqxx.
  - by case: ifP => // B [<-] [<-]; exact: basic_dim.
  - by move=> Ec; case Ek: (KA _ _ _ _) => [k1|] // [<-]; have [_ /(_ erefl)] := IH _ _ _ _ _ _ Ec Ec Ek.
  - by move=> Ec; case Ek: (KA _ _ _ _) => [k1|] // [<-]; have [_ /(_ erefl)] := IH _ _ _ _ _ _ Ec Ec Ek.
  - by move=> Ec; case Ek: (KA _ _ _ _) => [k1|] // [<-]; have [_ /(_ erefl)] := IH _ _ _ _ _ _ Ec Ec Ek.
  - case: ifP => // /eqP e Ec; have E3 := Ec; rewrite e in E3; have nz := sized_pos Ec.
    case Ek1: (KA m rest q1 q1) => [k1|] //=; rewrite ?eqxx; case Ek2: (KA m rest q2 q2) => [k2|] //=; rewrite ?eqxx.
    case Ek3: (KA m rest q1 q2) => [k3|] //=; rewrite ?eqxx; case Ek4: (KA m rest q2 q1) => [k4|] // [<-].
    have [_ /(_ erefl) s1] := IH _ _ _ _ _ _ Ec Ec Ek1; have := IH _ _ _ _ _ _ E3 E3 Ek2.
    have := IH _ _ _ _ _ _ Ec E3 Ek3; have := IH _ _ _ _ _ _ E3 Ec Ek4; rewrite /vv eqxx => -[f4 _] [f3 _] [f2 _].
    by do 3 (apply: add_sure => //).
  - by move=> Ec; case Ek: (KA _ _ _ _) => [k1|] // [<-]; have [_ /(_ erefl)] := IH _ _ _ _ _ _ Ec Ec Ek.
  - case: ifP => // /eqP Ec [<-]; case Ek: (KA _ _ _ _) => [k1|] // [<-].
    by have [_ /(_ erefl) s1] := IH _ _ _ _ _ _ Ec Ec Ek; apply: mul_sure => //; apply: sure_fine.
  - by move=> Ec; case Ek: (KA _ _ _ _) => [k1|] // [<-]; have [_ /(_ erefl)] := IH _ _ _ _ _ _ Ec Ec Ek.
  - by move=> Ec; case Ek: (KA _ _ _ _) => [k1|] // [<-]; have [_ /(_ erefl)] := IH _ _ _ _ _ _ Ec Ec Ek.
  by case: ps => // p0 ps [<-] [<-].
case: (j =P r) => [ej|nj]; last exact: IH.
move=> Ei Ej; case: ifP => // _ Ek; split; last by move=> e; case: ni; rewrite e.
have Er : sized (HAdd r d rest) r = Some b by rewrite /= eqxx.
have Rv : pint (onk m (fun a b => if a == r then pint (onk m (KA m rest)) (noM R) (left_of m d b) else KA m rest a b)) (noM R)
    (GetK m r i (fun a => Ret (KRev a))) = Some k -> fine (vv a b) k.
  rewrite /= /onk /onm ?eqxx; case El: (pint _ _ _) => [k1|] // [<-]; rewrite vvC.
  by have := L _ _ _ _ Er Ei El.
move: Ej Ek Rv; case: (d) => [mu k0|mu k0 lr|q'|q' c'|q' f|q1 q2|q' c'|q' f|q' t t0|q' d0|ps] //=; try by move=> _ Ek; apply; exact: Ek.
  by case: ifP => // _ [<-] [<-] _; rewrite vvC vv1; right.
move=> Eq; rewrite /onk /onm ?eqxx; case: eqP => // _; case Ek: (KA _ _ _ _) => [k1|] // [<-] _.
by case: (IH _ _ _ _ _ _ Ei Eq Ek).
Qed.

Lemma infer_total k x d : dimensionality k = Some (Some d) -> exists s, infer_size k x = Some s.
Proof.
move=> E; elim/input_ind': x => [xs|p x _|xs IH] /=; [by rewrite E; eexists|by eexists|].
elim: xs IH => [|y xs IHx] H; first by exists 0%N.
have [s ->] := H y (or_introl erefl); have [t ->] := IHx (fun z Hz => H z (or_intror Hz)).
by exists (s + t)%N.
Qed.

Lemma sized_infers ops m p d k x : let w := run_ops ops in sized (w_log w m) p = Some d -> see_k w m p p = Some k ->
  (exists s, infer_size k x = Some s) /\ forall xs, infer_size k (Num xs) = Some (size xs * d)%N.
Proof.
move=> w S; rewrite see_k_log; last exact: winv_run.
case: ifP => // _ Ek; have [_ /(_ erefl) e] := dims S S Ek.
by split=> [|xs] /=; [apply: infer_total e|rewrite e].
Qed.

(* The first posterior. *)
Lemma no_products_one h i a : no_products h -> sized h i = Some a -> a = 1%N.
Proof.
elim: h i a => [|pm par IH o|r d rest IH] i a //= /andP [nd np]; case: ifP => // _; last exact: IH.
case: d nd => [mu k|mu k lr|q|q c|q f|q q'|q c|q f|q t t0|q d|ps] //= _; try exact: IH.
- by case: ifP => // _ [<-].
- by case: ifP => // _; apply: IH.
by case: ifP => // _ [<-].
Qed.
Definition blank k : Prop := dimensionality k = Some None.
Lemma add_blank k1 k2 : blank k1 -> blank k2 -> blank (KAdd k1 k2).
Proof. by rewrite /blank /= => -> ->. Qed.
Lemma blanks h m i j a b k : products_late h -> sized h i = Some a -> sized h j = Some b -> a <> b -> KA m h i j = Some k -> blank k.
Proof.
elim: h m i j a b k => [|pm par IH o|r d rest IH] m i j a b k //= /andP [pl pd].
have L c b' q k' : sized (HAdd r d rest) r = Some c -> sized rest q = Some b' -> c <> b' ->
  pint (onk m (KA m rest)) (noM R) (left_of m d q) = Some k' -> blank k'.
  rewrite /= eqxx => Ec Eq nb; move: Ec.
  case: d pd => [mu k0|mu k0 lr|q'|q' c'|q' f|q1 q2|q' c'|q' f|q' t t0|q' d|ps] //= pd; rewrite /onk /onm ?eqxx.
  - by case: ifP => // _ [ec]; case: nb; rewrite (no_products_one pd Eq) ec.
  - by move=> Ec; case Ek: (KA _ _ _ _) => [k1|] // [<-]; exact: (IH _ _ _ _ _ _ pl Ec Eq nb Ek).
  - by move=> Ec; case Ek: (KA _ _ _ _) => [k1|] // [<-]; exact: (IH _ _ _ _ _ _ pl Ec Eq nb Ek).
  - by move=> Ec; case Ek: (KA _ _ _ _) => [k1|] // [<-]; exact: (IH _ _ _ _ _ _ pl Ec Eq nb Ek).
  - case: ifP => // /eqP e Ec; case Ek: (KA m rest q1 q) => [k1|] //=; rewrite ?eqxx.
    case Ek2: (KA m rest q2 q) => [k2|] // [<-]; have E2 := Ec; rewrite e in E2.
    by apply: add_blank; [exact: (IH _ _ _ _ _ _ pl Ec Eq nb Ek)|exact: (IH _ _ _ _ _ _ pl E2 Eq nb Ek2)].
  - by move=> Ec; case Ek: (KA _ _ _ _) => [k1|] // [<-]; exact: (IH _ _ _ _ _ _ pl Ec Eq nb Ek).
  - by case: ifP => // _ [ec]; case: nb; rewrite (no_products_one pd Eq) ec.
  - by move=> Ec; case Ek: (KA _ _ _ _) => [k1|] // [<-]; exact: (IH _ _ _ _ _ _ pl Ec Eq nb Ek).
  - by move=> Ec; case Ek: (KA _ _ _ _) => [k1|] // [<-]; exact: (IH _ _ _ _ _ _ pl Ec Eq nb Ek).
  by case: ps => // p0 ps [_] [<-].
case: (i =P r) => [ei|ni].
  case: (j =P r) => [ej|nj]; first by move=> -> [].
  move=> Ei Ej nb; case: ifP => // _ Ek; apply: (L _ _ _ _ _ Ej nb Ek); by rewrite /= eqxx.
case: (j =P r) => [ej|nj]; last exact: IH.
move=> Ei Ej nb; case: ifP => // _ Ek.
have Er : sized (HAdd r d rest) r = Some b by rewrite /= eqxx.
have Rv : pint (onk m (fun a b => if a == r then pint (onk m (KA m rest)) (noM R) (left_of m d b) else KA m rest a b)) (noM R)
    (GetK m r i (fun a => Ret (KRev a))) = Some k -> blank k.
  rewrite /= /onk /onm ?eqxx; case El: (pint _ _ _) => [k1|] // [<-].
  by have := L _ _ _ _ Er Ei (not_eq_sym nb) El.
move: pd Ej Ek Rv; case: (d) => [mu k0|mu k0 lr|q'|q' c'|q' f|q1 q2|q' c'|q' f|q' t t0|q' d0|ps] //= pd; try by move=> _ Ek; apply; exact: Ek.
  by case: ifP => // _ [eb]; case: nb; rewrite (no_products_one pd Ei) eb.
move=> Eq; rewrite /onk /onm ?eqxx; case: eqP => // _; case Ek: (KA _ _ _ _) => [k1|] // [<-] _.
exact: (IH _ _ _ _ _ _ pl Ei Eq nb Ek).
Qed.
Lemma first_dims h m pm o i a c k : products_late h -> sized h i = Some a -> sized h (o_p o) = Some c ->
  KA m (HPost pm h o) i i = Some k -> sure a k.
Proof.
move=> pl Ei Ez /=; case: ifP => // _; rewrite /post_k /post_k1 /post_k2; have nz := sized_pos Ei.
have Hii k' : KA pm h i i = Some k' -> sure a k' by move=> Ek; have [_ /(_ erefl)] := dims Ei Ei Ek.
have Hz k' : KA pm h (o_p o) i = Some k' -> fine a k'.
  move=> Ek; case: (c =P a) => [e|ne]; last by left; exact: (blanks pl Ez Ei ne Ek).
  by have [] := dims Ez Ei Ek; rewrite e /vv eqxx.
case: (o_data o) => [dd|]; last (case: eqP => _ /=); rewrite /= /onk /onm ?eqxx.
- case Ek1: (KA pm h i i) => [k1|] //=; rewrite ?eqxx; case Ek2: (KA pm h (o_p o) i) => [k2|] //=; rewrite ?eqxx ?Ek2 /= ?eqxx.
  case: (KA _ _ _ _) => [k4|] //=; rewrite ?eqxx.
  case: (KA _ _ _ _) => [k5|] //=; rewrite ?eqxx; case: (KA _ _ _ _) => [k6|] //= [<-].
  have f2 := Hz _ Ek2; apply: add_sure => //; [apply: post_sure => //; exact: Hii|exact: sub_fine].
- by case Ek1: (KA pm h i i) => [k1|] // [<-]; exact: Hii.
case Ek1: (KA pm h i i) => [k1|] //=; rewrite ?eqxx; case Ek2: (KA pm h (o_p o) i) => [k2|] //=; rewrite ?eqxx ?Ek2 /= ?eqxx.
case: (KA _ _ _ _) => [k4|] //= [<-].
by have f2 := Hz _ Ek2; apply: post_sure => //; exact: Hii.
Qed.
Lemma first_infers ops m pm h o p d c k x : let w := run_ops ops in
  w_log w m = HPost pm h o -> products_late h -> sized h p = Some d -> sized h (o_p o) = Some c -> see_k w m p p = Some k ->
  (exists s, infer_size k x = Some s) /\ forall xs, infer_size k (Num xs) = Some (size xs * d)%N.
Proof.
move=> w El pl Ep Ez; rewrite see_k_log; last exact: winv_run.
rewrite El; case: ifP => // _ Ek; have e := first_dims pl Ep Ez Ek.
by split=> [|xs] /=; [apply: infer_total e|rewrite e].
Qed.
End Size.
