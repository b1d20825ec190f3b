From mathcomp Require Import all_ssreflect.
From Verif Require Import Naming.
Set Implicit Arguments. Unset Strict Implicit. Unset Printing Implicit Defensive.

Section P.
Variables (N : eqType) (truthy : pred N).
Implicit Types (d : names N) (w : world N).

(* The two dictionaries are inverse to each other. *)
Definition two_way d := forall n p, by_name d n = Some p <-> by_gp d p = Some n.
Definition all_two_way w := forall m, two_way (w_names w m).

Lemma name_set_ok d p n : two_way d -> by_gp d p = None -> two_way (name_set d p n).1.
Proof.
move=> H Hp; rewrite /name_set; case En: (by_name d n) => [q|] //= n' p'.
rewrite /= /dset; case: eqP => [->|Hn]; case: eqP => [->|Hp'] //; split=> //.
- by case=> E; case: Hp'.
- by move=> /H; rewrite En.
- by move=> /H; rewrite Hp.
- by case=> E; case: Hn.
Qed.

Lemma ddel_two_way d p n : two_way d -> by_gp d p = Some n ->
  two_way (Names (ddel (by_name d) n) (ddel (by_gp d) p)).
Proof.
move=> H Hp n' p' /=; rewrite /ddel.
have Hn : by_name d n = Some p by apply/H.
case: eqP => [->|Dn]; case: eqP => [->|Dp] //; split=> //.
- by move/H; rewrite Hn => -[] E; case: Dp.
- by move/H; rewrite Hp => -[] E; case: Dn.
Qed.

Lemma name_gp_two_way d p n : two_way d -> two_way (name_gp d p n).1.
Proof.
move=> H; rewrite /name_gp; case Ep: (by_gp d p) => [old|]; last exact: name_set_ok.
have Eo : by_name d old = Some p by apply/H.
rewrite Eo; apply: name_set_ok; first exact: ddel_two_way.
by rewrite /= /ddel eqxx.
Qed.

Lemma name_gp_no_key d p n : two_way d -> (name_gp d p n).2 <> NKeyError.
Proof.
move=> H; rewrite /name_gp; case Ep: (by_gp d p) => [old|].
  have -> : by_name d old = Some p by apply/H.
  by rewrite /name_set; case: (by_name _ n).
by rewrite /name_set; case: (by_name _ n).
Qed.

Lemma w_name_two_way w m p n : all_two_way w -> all_two_way (w_name w m p n).1.
Proof.
move=> H m'; rewrite /w_name; case E: (name_gp _ _ _) => [d r] /=.
rewrite /fupd; case: eqP => // _; have := name_gp_two_way p n (H m).
by rewrite E.
Qed.

Lemma w_name_all_two_way ms w p n : all_two_way w -> all_two_way (w_name_all w ms p n).1.
Proof.
elim: ms w => //= m ms IH w H; have := w_name_two_way m p n H.
by case: (w_name w m p n) => w' [] //= H'; apply: IH.
Qed.

Lemma nstep_two_way w o : all_two_way w -> all_two_way (nstep truthy w o).1.
Proof.
move=> H; case: o => [|m no|m|m p n|p n] /=.
- by move=> m; rewrite /= /fupd; case: eqP.
- case: no => [n|] //=; case: ifP => // _; exact: w_name_two_way.
- by move=> m' /=; rewrite /fupd; case: eqP.
- exact: w_name_two_way.
exact: w_name_all_two_way.
Qed.

Lemma nrun_two_way w h : all_two_way w -> all_two_way (nrun truthy w h).
Proof. by elim: h w => //= o h IH w H; apply: IH; apply: nstep_two_way. Qed.

Lemma world0_two_way : all_two_way (world0 N).
Proof. by move=> m n p. Qed.

Lemma w_name_all_no_key ms w p n : all_two_way w -> (w_name_all w ms p n).2 <> NKeyError.
Proof.
elim: ms w => //= m ms IH w H.
have := w_name_two_way m p n H.
have : (w_name w m p n).2 <> NKeyError.
  rewrite /w_name; have := @name_gp_no_key (w_names w m) p n (H m).
  by case: (name_gp _ _ _).
by case: (w_name w m p n) => w' [] //= _ H'; apply: IH.
Qed.

(* C06 *)
Lemma names_two_way h m n p :
  let w := nrun truthy (world0 N) h in
  lookup_name w m n = Some p <-> lookup_gp w m p = Some n.
Proof. exact: (nrun_two_way h world0_two_way). Qed.

Lemma names_no_key_error h o : (nstep truthy (nrun truthy (world0 N) h) o).2 <> NKeyError.
Proof.
have H := nrun_two_way h world0_two_way; move: (nrun _ _ _) H => w H.
have Hn m p n : forall w, all_two_way w -> (w_name w m p n).2 <> NKeyError.
  move=> w' H'; rewrite /w_name; have := @name_gp_no_key (w_names w' m) p n (H' m).
  by case: (name_gp _ _ _).
case: o => [|m [n|]|m|m p n|p n] //=; first by case: ifP => // _; apply: Hn.
  exact: Hn.
exact: w_name_all_no_key.
Qed.

(* C07 *)
Lemma name_gp_spec d p n : two_way d ->
  let taken := exists2 q, by_name d n = Some q & q <> p in
  let d' := (name_gp d p n).1 in
  [/\ taken -> (name_gp d p n).2 = NTaken,
      ~ taken -> (name_gp d p n).2 = NOk,
      ~ taken -> forall n', by_name d' n' = Some p <-> n' = n &
      forall q n', q <> p -> (by_gp d' q = Some n' <-> by_gp d q = Some n')].
Proof.
move=> H taken d'; rewrite {}/taken {}/d' /name_gp.
case Ep: (by_gp d p) => [old|].
  have Eo : by_name d old = Some p by apply/H.
  rewrite Eo /name_set /= /ddel; case: (n =P old) => [E|Dn] /=.
    subst n; split=> //.
    - by case=> q; rewrite Eo => -[->].
    - move=> _ n'; rewrite /dset; case: (n' =P old) => [->//|Dn']; split=> //.
      by move=> /H; rewrite Ep => -[] /esym.
    - by move=> q n' /eqP /negPf Dq; rewrite /dset !Dq.
  case En: (by_name d n) => [q|] /=.
    have Dq : q <> p by move=> E; apply: Dn; move: En; rewrite E => /H; rewrite Ep => -[].
    have T : exists2 q0 : nat, Some q = Some q0 & q0 <> p by exists q.
    split=> //; try by move=> /(_ T).
    by move=> q' n' /eqP /negPf Dq'; rewrite Dq'.
  split=> //; first by case.
  - move=> _ n'; rewrite /dset; case: eqP => [->//|Dn']; split=> //.
    by case: (n' =P old) => // Dold /H; rewrite Ep => -[] E; case: Dold.
  - by move=> q n' /eqP /negPf Dq; rewrite /dset !Dq.
rewrite /name_set; case En: (by_name d n) => [q|] /=.
  have Dq : q <> p by move=> E; move: En; rewrite E => /H; rewrite Ep.
  have T : exists2 q0 : nat, Some q = Some q0 & q0 <> p by exists q.
  by split=> //; move=> /(_ T).
split=> //; first by case.
- move=> _ n'; rewrite /dset; case: eqP => [->//|Dn']; split=> //.
  by move/H; rewrite Ep.
- by move=> q n' /eqP /negPf Dq; rewrite /dset !Dq.
Qed.

Lemma measure_name_spec h m p n :
  let w := nrun truthy (world0 N) h in
  let w' := (nstep truthy w (NName m p n)).1 in
  let res := (nstep truthy w (NName m p n)).2 in
  let taken := exists2 q, lookup_name w m n = Some q & q <> p in
  [/\ taken -> res = NTaken,
      ~ taken -> res = NOk /\ forall n', lookup_name w' m n' = Some p <-> n' = n,
      forall q n', q <> p -> (lookup_gp w' m q = Some n' <-> lookup_gp w m q = Some n') &
      forall m', m' <> m -> forall q, lookup_gp w' m' q = lookup_gp w m' q].
Proof.
move=> w w' res taken.
have H : two_way (w_names w m) by apply: (nrun_two_way h world0_two_way).
rewrite {}/w' {}/res /lookup_name /lookup_gp /= /w_name.
move: (name_gp_spec p n H) => [].
case: (name_gp _ _ _) => d' r /= H1 H2 H3 H4.
split=> //=; rewrite /fupd; rewrite ?eqxx //.
  by move=> Ht; split; [apply: H2|apply: H3].
by move=> m' /eqP /negPf->.
Qed.

(* C08 *)
Lemma name_gp_rejected d p n : two_way d -> (name_gp d p n).2 = NTaken ->
  by_gp (name_gp d p n).1 p = None.
Proof.
move=> H; rewrite /name_gp; case Ep: (by_gp d p) => [old|].
  have -> : by_name d old = Some p by apply/H.
  rewrite /name_set; case: (by_name _ n) => //= _ _.
  by rewrite /ddel eqxx.
by rewrite /name_set; case: (by_name _ n).
Qed.

Lemma rejected_forgets h m p n :
  let w := nrun truthy (world0 N) h in
  (nstep truthy w (NName m p n)).2 = NTaken ->
  lookup_gp (nstep truthy w (NName m p n)).1 m p = None.
Proof.
move=> w; have H : two_way (w_names w m) by apply: (nrun_two_way h world0_two_way).
rewrite /lookup_gp /= /w_name; have := @name_gp_rejected (w_names w m) p n H.
by case: (name_gp _ _ _) => d r /=; rewrite /fupd eqxx.
Qed.

Lemma rejected_unnamed h m p n :
  let w := nrun truthy (world0 N) h in
  lookup_gp w m p = None ->
  (nstep truthy w (NName m p n)).2 = NTaken ->
  forall m' q, lookup_gp (nstep truthy w (NName m p n)).1 m' q = lookup_gp w m' q.
Proof.
move=> w; rewrite /lookup_gp /= /w_name /name_gp => ->.
rewrite /name_set; case: (by_name _ n) => //= _ _ m' q.
by rewrite /fupd; case: eqP => // ->.
Qed.

(* The first measure of a process never changes, so [p.name] is the name in the measure in
   which the process was constructed. *)
Definition first_is w p m := ohead (w_meas w p) = Some m /\ (p < w_np w)%N.
Lemma w_name_meas w m p n : w_meas (w_name w m p n).1 = w_meas w /\ w_np (w_name w m p n).1 = w_np w.
Proof. by rewrite /w_name; case: (name_gp _ _ _). Qed.
Lemma w_name_all_meas ms w p n :
  w_meas (w_name_all w ms p n).1 = w_meas w /\ w_np (w_name_all w ms p n).1 = w_np w.
Proof.
elim: ms w => //= m ms IH w; have := w_name_meas w m p n.
by case: (w_name w m p n) => w' [] //= [<- <-].
Qed.
Lemma ohead_cat (T : Type) (s t : seq T) x : ohead s = Some x -> ohead (s ++ t) = Some x.
Proof. by case: s. Qed.
Lemma first_step w p m o : first_is w p m -> first_is (nstep truthy w o).1 p m.
Proof.
move=> [H lt]; case: o => [|m' no|m'|m' q n|q n] /=.
- by [].
- set w2 := w_attach _ _ _.
  have F : first_is w2 p m.
    split; last exact: (ltnW lt).
    by rewrite /= /fupd eqxx; case: eqP lt => [->|//]; rewrite ltnn.
  case: no => [n|] //; case: ifP => // _; have [a b] := w_name_meas w2 m' (w_np w) n.
  by rewrite /first_is a b.
- by split=> //=; apply: ohead_cat.
- by have [a b] := w_name_meas w m' q n; rewrite /first_is a b.
by have [a b] := w_name_all_meas (w_meas w q) w q n; rewrite /first_is a b.
Qed.
Lemma first_run w p m h : first_is w p m -> first_is (nrun truthy w h) p m.
Proof. by elim: h w => //= o h IH w H; apply: IH; apply: first_step. Qed.

Lemma name_of_home h m no h' :
  let w := nrun truthy (world0 N) h in let p := w_np w in
  let w' := nrun truthy (nstep truthy w (NGP m no)).1 h' in
  gp_name w' p = lookup_gp w' m p.
Proof.
move=> w p w'.
have [H _] : first_is w' p m.
  apply: first_run => /=; clear w'; set w2 := w_attach _ _ _.
  have F : first_is w2 p m by split; rewrite /= ?/fupd ?eqxx.
  case: no => [n|] //; case: ifP => // _; have [a b] := w_name_meas w2 m (w_np w) n.
  by rewrite /first_is a b.
by rewrite /gp_name; case: (w_meas w' p) H => //= m' l [->].
Qed.
End P.
