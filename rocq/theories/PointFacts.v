(* Processes without Cartesian products have one value per point. *)
From Coq Require Import List FunctionalExtensionality.
From mathcomp Require Import all_ssreflect all_algebra.
From mathcomp Require Import zify.
From Verif Require Import Graph Machine Refine Worlds Eval GraphSpec GraphProofs GraphOps GraphFacts RV RVProofs Sound Typing ModelSpec ModelFacts.
Set Implicit Arguments. Unset Strict Implicit. Unset Printing Implicit Defensive.
Import GRing.Theory.
Local Open Scope ring_scope.

Section PointFacts.
Variables (R : fieldType) (W : space R).
Variable D : nat -> (point R -> R) -> point R -> R.
Variables (G : pid -> point R -> rv W) (eps : mid -> nat -> rv W).
Notation V := (rv W). Notation Ex := (@Ex R W). Notation cov := (@cov R W).
Notation at_ := (at_ D G eps). Notation denotes := (denotes D G eps).
Implicit Types (h : hist R) (u : seq V).

Lemma at_single m h p x u : single h p -> at_ m h p x u -> exists2 xs, x = Num xs & size u = size xs.
Proof.
elim: h m p x u => [|pm par IH o|r d rest IH] m p x u //=.
  by move=> S [u0 /(IH _ _ _ _ S) [xs -> e] F]; exists xs => //; rewrite -(Forall2_size F).
case: eqP => [_ [Sd Sn]|_]; last exact: IH.
have {}IH p1 x1 u1 : p1 \in needs d -> at_ m rest p1 x1 u1 -> exists2 xs, x1 = Num xs & size u1 = size xs by move=> /Sn; apply: IH.
have I0 (q : pid) s : q \in q :: s by rewrite inE eqxx.
case: d Sd Sn IH => [mu k|mu k l|q|q c|q f|q q'|q c|q f|q t t0|q d|ps] //= _ _ IH.
- by case=> xs -> ->; exists xs; rewrite ?size_map.
- by case=> xs -> ->; exists xs; rewrite ?size_map.
- by apply: IH.
- by case=> a /(IH _ _ _ (I0 _ _)) [xs -> e] ->; exists xs; rewrite ?size_map.
- by case=> xs [a [-> _ e ->]]; exists xs; rewrite ?size_zipw.
- by case=> a [b [/(IH _ _ _ (I0 _ _)) [xs -> e] _ e' ->]]; exists xs; rewrite ?size_zipw.
- by case=> a /(IH _ _ _ (I0 _ _)) [xs -> e] ->; exists xs; rewrite ?size_map.
- case=> fv [a [_ Ha e ->]]; have [|xs ex e'] := IH _ _ _ _ Ha; first by case: (f) => * /=; apply: I0.
  by exists xs => //; rewrite size_zipw // e.
- case=> xs -> /(IH _ _ _ (I0 _ _)) [ys [ey] e]; exists xs => //; by rewrite e -ey size_map.
- by case=> xs [F [dF [-> _ _ ->]]]; exists xs; rewrite ?size_map.
Qed.

Lemma at_point m h p xs ys u v i j : single h p -> at_ m h p (Num xs) u -> at_ m h p (Num ys) v ->
  (i < size xs)%N -> (j < size ys)%N -> nth [::] xs i = nth [::] ys j -> aseq (vget u i) (vget v j).
Proof.
elim: h m p xs ys u v => [|pm par IH o|r d rest IH] m p xs ys u v // S Hu Hv li lj eij.
  have Su := at_single S Hu; have Sv := at_single S Hv; case: Su Sv => _ [<-] su [_ [<-] sv].
  case: Hu => u0 H0 F; case: Hv => v0 H0' F'.
  have lu : (i < size u0)%N by rewrite (Forall2_size F) su.
  have lv : (j < size v0)%N by rewrite (Forall2_size F') sv.
  have [w Hw e] := Forall2_nth (rone W) (rone W) F lu.
  have [w' Hw' e'] := Forall2_nth (rone W) (rone W) F' lv; rewrite /vget e e'.
  by apply: aseq_given; [by apply: (data_same _ Hw Hw') => ?; apply: at_same | exact: (IH _ _ _ _ _ _ S H0 H0')].
have [su sv] : size u = size xs /\ size v = size ys.
  by have [_ [<-] su] := at_single S Hu; have [_ [<-] sv] := at_single S Hv.
move: S Hu Hv; rewrite /=; case: eqP => [_ [Sd Sn]|_ S Hu Hv]; last exact: IH S Hu Hv li lj eij.
have As p1 x1 u1 : p1 \in needs d -> at_ m rest p1 (Num x1) u1 -> size u1 = size x1.
  by move=> /Sn S H; have [_ [<-]] := at_single S H.
have {}IH p1 x1 y1 u1 v1 : p1 \in needs d -> at_ m rest p1 (Num x1) u1 -> at_ m rest p1 (Num y1) v1 ->
    (i < size x1)%N -> (j < size y1)%N -> nth [::] x1 i = nth [::] y1 j -> aseq (vget u1 i) (vget v1 j).
  by move=> /Sn S; apply: IH.
have I0 (q : pid) s : q \in q :: s by rewrite inE eqxx.
have I1 (q r0 : pid) s : q \in [:: r0, q & s] by rewrite !inE eqxx orbT.
case: d Sd Sn IH As => [mu k|mu k l|q|q c|q f|q q'|q c|q f|q t t0|q d|ps] //= _ _ IH As.
- by case=> _ [<-] -> [_ [<-] ->]; rewrite /vget !(nth_map [::]) // eij.
- by case=> _ [<-] -> [_ [<-] ->]; rewrite /vget !(nth_map [::]) // eij.
- by move=> Hu Hv; apply: IH Hu Hv _ _ _.
- case=> a Ha -> [b Hb ->]; have sa := As _ _ _ (I0 _ _) Ha; have sb := As _ _ _ (I0 _ _) Hb.
  by rewrite !vget_map ?sa ?sb //; apply: aseq_add => //; apply: IH Ha Hb _ _ _.
- case=> _ [a [[<-] Ha e ->]] [_ [b [[<-] Hb e' ->]]].
  by rewrite /vget !(nth_zipw _ (rone W) [::]) ?e ?e' // eij; apply: aseq_add => //; apply: IH Ha Hb _ _ _.
- case=> a [b [Ha Hb e ->]] [a' [b' [Ha' Hb' e' ->]]].
  have sa := As _ _ _ (I0 _ _) Ha; have sa' := As _ _ _ (I0 _ _) Ha'.
  rewrite /vget (nth_zipw _ (rone W) (rone W) _ e) ?(nth_zipw _ (rone W) (rone W) _ e') ?sa ?sa' //.
  by apply: aseq_add; [apply: IH Ha Ha' _ _ _ | apply: IH Hb Hb' _ _ _].
- case=> a Ha -> [b Hb ->]; have sa := As _ _ _ (I0 _ _) Ha; have sb := As _ _ _ (I0 _ _) Hb.
  by rewrite !vget_map ?sa ?sb //; apply: aseq_scale => //; apply: IH Ha Hb _ _ _.
- have Iq : q \in (if f is FMean _ q0 then [:: q; q0] else [:: q]) by case: (f) => * /=; apply: I0.
  case=> fv [a [Hf Ha e ->]] [fv' [a' [Hf' Ha' e' ->]]].
  have sa := As _ _ _ Iq Ha; have sa' := As _ _ _ Iq Ha'.
  have ef : nth 0 fv i = nth 0 fv' j.
    case: (f) IH As Hf Hf' {Iq} => //= [g|m' p'] IH As.
      by case=> _ [<-] -> [_ [<-] ->]; rewrite !(nth_map [::]) // eij.
    case=> _ [w Hw ->] [_ [w' Hw' ->]].
    have sw := As _ _ _ (I1 _ _ _) Hw; have sw' := As _ _ _ (I1 _ _ _) Hw'.
    by rewrite !(nth_map (rone W)) ?sw ?sw' //; have [] := IH _ _ _ _ _ (I1 _ _ _) Hw Hw' li lj eij.
  rewrite /vget (nth_zipw _ 0 (rone W) _ e) ?(nth_zipw _ 0 (rone W) _ e') ?e ?e' ?sa ?sa' // ef; apply: aseq_scale.
  exact: IH Iq Ha Ha' li lj eij.
- case=> _ [<-] Ha [_ [<-] Hb]; apply: IH Ha Hb _ _ _; rewrite ?size_map //.
  by rewrite !(nth_map [::]) // eij.
- case=> _ [F [dF [[<-] H [e1 c1] ->]]] [_ [F' [dF' [[<-] H' [e2 c2] ->]]]].
  have FF t : aseq (F t) (F' t) by have /aseqs_nth [_ /(_ 0%N isT)] := at_same (H t) (H' t).
  rewrite /vget !(nth_map [::]) // eij; split=> [|g].
    by rewrite e1 e2; congr (D d _ _); apply: functional_extensionality => t; case: (FF t).
  by rewrite c1 c2; congr (D d _ _); apply: functional_extensionality => t; case: (FF t).
Qed.

Lemma points_num xs : points (Num xs) = Some xs :> option (seq (point R)). Proof. by []. Qed.
Lemma points_cons (x : input R) xs a b : points x = Some a -> points (Tup xs) = Some b -> points (Tup (x :: xs)) = Some (a ++ b).
Proof. by move=> /= -> ->. Qed.

Lemma den_points m h p x u : single h p -> denotes m h p x u -> exists xs, [/\ points x = Some xs, size u = size xs &
  forall i, (i < size xs)%N -> exists ys v j, [/\ at_ m h p (Num ys) v, (j < size ys)%N, nth [::] ys j = nth [::] xs i & vget u i = vget v j]].
Proof.
move=> S; elim=> {x u} [xs u H|q x u H||x xs u v _ [a [Ea sa Ha]] _ [b [Eb sb Hb]]].
- have [_ [<-] su] := at_single S H; exists xs; split=> // i li; by exists xs, u, i.
- by have [] := at_single S H.
- by exists [::].
exists (a ++ b); split; [exact: points_cons | by rewrite !size_cat sa sb | move=> i].
rewrite size_cat nth_cat /vget nth_cat sa; case: (ltnP i (size a)) => li lt; first exact: Ha.
have lb : (i - size a < size b)%N by lia.
exact: Hb.
Qed.

Lemma den_point m h p x y u v xs ys i j : single h p -> denotes m h p x u -> denotes m h p y v ->
  points x = Some xs -> points y = Some ys -> (i < size xs)%N -> (j < size ys)%N -> nth [::] xs i = nth [::] ys j ->
  aseq (vget u i) (vget v j).
Proof.
move=> S Hu Hv Ex Ey li lj e.
have [a [ea _ Ha]] := den_points S Hu; move: ea; rewrite Ex => -[ea]; subst a; have [xs' [u' [i' [Hu' li' ei ->]]]] := Ha i li.
have [b [eb _ Hb]] := den_points S Hv; move: eb; rewrite Ey => -[eb]; subst b; have [ys' [v' [j' [Hv' lj' ej ->]]]] := Hb j lj.
by apply: at_point S Hu' Hv' li' lj' _; rewrite ei ej.
Qed.
Lemma den_size m h p x u xs : single h p -> denotes m h p x u -> points x = Some xs -> size u = size xs.
Proof. by move=> S /(den_points S) [xs' [-> -> _]] [->]. Qed.
End PointFacts.
