From mathcomp Require Import all_ssreflect.
From Verif Require Import Lazy LazySpec.
Set Implicit Arguments. Unset Strict Implicit. Unset Printing Implicit Defensive.

Section P.
Variables (I Obj : eqType) (addr : Obj -> I) (A : Type).
Implicit Types (w : mworld I A) (m : lmat I A).

Lemma mrun_cat w h1 h2 : mrun addr w (h1 ++ h2) = mrun addr (mrun addr w h1) h2.
Proof. by rewrite /mrun foldl_cat. Qed.
Lemma vrun_cat (w : vworld I A) h1 h2 : vrun addr w (h1 ++ h2) = vrun addr (vrun addr w h1) h2.
Proof. by rewrite /vrun foldl_cat. Qed.


Variant mget_spec m idx : lmat I A * res A -> Prop :=
| MGHit a of m_store m idx = Some a : mget_spec m idx (m, Ok a)
| MGNew a of m_store m idx = None & mbuild m idx = Ok a :
    mget_spec m idx (LMat (upd (m_store m) idx a) (m_rules m) (m_left m) (m_right m), Ok a)
| MGErr e of m_store m idx = None & mbuild m idx = Err A e : mget_spec m idx (m, Err A e).
Lemma mgetP m idx : mget_spec m idx (mget m idx).
Proof.
rewrite /mget; case E: (m_store m idx) => [a|]; first exact: MGHit.
by case Eb: (mbuild m idx) => [a|e]; [apply: MGNew|apply: MGErr].
Qed.
Variant vget_spec (m : lvec I A) idx : lvec I A * res A -> Prop :=
| VGHit a of v_store m idx = Some a : vget_spec m idx (m, Ok a)
| VGNew a of v_store m idx = None & vbuild m idx = Ok a :
    vget_spec m idx (LVec (upd (v_store m) idx a) (v_rules m), Ok a)
| VGErr e of v_store m idx = None & vbuild m idx = Err A e : vget_spec m idx (m, Err A e).
Lemma vgetP (m : lvec I A) idx : vget_spec m idx (vget m idx).
Proof.
rewrite /vget; case E: (v_store m idx) => [a|]; first exact: VGHit.
by case Eb: (vbuild m idx) => [a|e]; [apply: VGNew|apply: VGErr].
Qed.

(* ---- effect of one step on the store ---- *)
Lemma mstep_store_other w o idx :
  (if o is MSet k _ then resolve addr 2 k != idx else true) ->
  (if o is MGet k then resolve addr 2 k != idx else true) ->
  m_store (mw_obj (mstep addr w o).1) idx = m_store (mw_obj w) idx.
Proof.
case: o => //= [k a Hk _|k _ Hk].
  by rewrite /upd eq_sym (negPf Hk).
by case: mgetP => //= a _ _; rewrite /upd eq_sym (negPf Hk).
Qed.

Lemma vstep_store_other (w : vworld I A) o idx :
  (if o is VSet k _ then resolve addr 1 k != idx else true) ->
  (if o is VGet k then resolve addr 1 k != idx else true) ->
  v_store (vw_obj (vstep addr w o).1) idx = v_store (vw_obj w) idx.
Proof.
case: o => //= [k a Hk _|k _ Hk].
  by rewrite /upd eq_sym (negPf Hk).
by case: vgetP => //= a _ _; rewrite /upd eq_sym (negPf Hk).
Qed.

Lemma mstep_store_keep w o idx a :
  (if o is MSet k _ then resolve addr 2 k != idx else true) ->
  m_store (mw_obj w) idx = Some a ->
  m_store (mw_obj (mstep addr w o).1) idx = Some a.
Proof.
case: o => //= [k b Hk Hs|k _ Hs].
  by rewrite /upd eq_sym (negPf Hk).
case: mgetP => //= b Hn _; rewrite /upd; case: eqP => // Eq.
by move: Hn; rewrite -Eq Hs.
Qed.

Lemma vstep_store_keep (w : vworld I A) o idx a :
  (if o is VSet k _ then resolve addr 1 k != idx else true) ->
  v_store (vw_obj w) idx = Some a ->
  v_store (vw_obj (vstep addr w o).1) idx = Some a.
Proof.
case: o => //= [k b Hk Hs|k _ Hs].
  by rewrite /upd eq_sym (negPf Hk).
case: vgetP => //= b Hn _; rewrite /upd; case: eqP => // Eq.
by move: Hn; rewrite -Eq Hs.
Qed.

Lemma mrun_store_keep h w idx a :
  m_unassigned addr h idx -> m_store (mw_obj w) idx = Some a ->
  m_store (mw_obj (mrun addr w h)) idx = Some a.
Proof.
elim: h w => //= o h IH w /andP[Ho Hh] Hs.
by apply: IH => //; apply: mstep_store_keep.
Qed.
Lemma vrun_store_keep h (w : vworld I A) idx a :
  v_unassigned addr h idx -> v_store (vw_obj w) idx = Some a ->
  v_store (vw_obj (vrun addr w h)) idx = Some a.
Proof.
elim: h w => //= o h IH w /andP[Ho Hh] Hs.
by apply: IH => //; apply: vstep_store_keep.
Qed.

Lemma mget_ok_stored m idx a :
  (mget m idx).2 = Ok a -> m_store (mget m idx).1 idx = Some a.
Proof.
case: mgetP => //= [b Hb|b _ _] [<-] //; by rewrite /upd eqxx.
Qed.
Lemma vget_ok_stored (m : lvec I A) idx a :
  (vget m idx).2 = Ok a -> v_store (vget m idx).1 idx = Some a.
Proof.
case: vgetP => //= [b Hb|b _ _] [<-] //; by rewrite /upd eqxx.
Qed.

(* C01 *)
Lemma m_read_stable w k1 k2 a h :
  mread addr w k1 = Ok a ->
  resolve addr 2 k2 = resolve addr 2 k1 ->
  m_unassigned addr h (resolve addr 2 k1) ->
  mread addr (mrun addr w (MGet A k1 :: h)) k2 = Ok a.
Proof.
move=> Hr Ek Hh.
have Hs : m_store (mw_obj (mstep addr w (MGet A k1)).1) (resolve addr 2 k1) = Some a.
  rewrite /=; move: (mget_ok_stored Hr); by case: (mget _ _).
by rewrite /mread /mget /= Ek (mrun_store_keep Hh Hs).
Qed.
Lemma v_read_stable (w : vworld I A) k1 k2 a h :
  vread addr w k1 = Ok a ->
  resolve addr 1 k2 = resolve addr 1 k1 ->
  v_unassigned addr h (resolve addr 1 k1) ->
  vread addr (vrun addr w (VGet A k1 :: h)) k2 = Ok a.
Proof.
move=> Hr Ek Hh.
have Hs : v_store (vw_obj (vstep addr w (VGet A k1)).1) (resolve addr 1 k1) = Some a.
  rewrite /=; move: (vget_ok_stored Hr); by case: (vget _ _).
by rewrite /vread /vget /= Ek (vrun_store_keep Hh Hs).
Qed.

(* ---- rules in force after a history ---- *)
Fixpoint sets_after (s : nat -> pred I) (h : seq (mop I Obj A)) : nat -> pred I :=
  match h with
  | [::] => s
  | MMutAdd r i :: h' => sets_after (set_add s r i) h'
  | MMutDel r i :: h' => sets_after (set_del s r i) h'
  | _ :: h' => sets_after s h'
  end.

Lemma mrun_rules h w :
  [/\ m_rules (mw_obj (mrun addr w h)) = m_rules (mw_obj w) ++ udecl (mw_sets w) h,
      m_left (mw_obj (mrun addr w h)) = m_left (mw_obj w) ++ ldecl (mw_sets w) h &
      m_right (mw_obj (mrun addr w h)) = m_right (mw_obj w) ++ rdecl (mw_sets w) h].
Proof.
elim: h w => [|o h IH] w /=; first by rewrite !cats0.
case: (IH (mstep addr w o).1) => -> -> ->.
case: o => [k a|k|s b|i s b|i s b|s i|s i] //=; try by rewrite ?cat_rcons.
by case: mgetP => //=; rewrite ?cat_rcons.
Qed.
Lemma vrun_rules h (w : vworld I A) :
  v_rules (vw_obj (vrun addr w h)) = v_rules (vw_obj w) ++ vdecl (vw_sets w) h.
Proof.
elim: h w => [|o h IH] w /=; first by rewrite !cats0.
rewrite (IH (vstep addr w o).1).
case: o => [k a|k|s b|s i|s i] //=; try by rewrite ?cat_rcons.
by case: vgetP => //=; rewrite ?cat_rcons.
Qed.

(* ---- scans find the first covering rule ---- *)
Lemma first_match_cons T (c : T -> bool) x l r :
  ~~ c x -> first_match c l r -> first_match c (x :: l) r.
Proof. by move=> Hx [l1 [l2 [-> H1 H2]]]; exists (x :: l1), l2; rewrite /= negb_or Hx. Qed.
Lemma first_match_head T (c : T -> bool) x l : c x -> first_match c (x :: l) x.
Proof. by move=> Hx; exists [::], l. Qed.

Lemma outcome_call (v : option A) : outcome v (call v).
Proof. by case: v. Qed.

Lemma uscanP (us : seq _) i j k :
  (exists2 u, first_match (@ucovers I A i j) us u & outcome (ur_fun u i j) (uscan us i j k))
  \/ ~~ has (@ucovers I A i j) us /\ uscan us i j k = k.
Proof.
elim: us => [|u us IH] /=; first by right.
set c := (X in if X then _ else _).
have Ec : @ucovers I A i j u = c by rewrite /c /ucovers.
case: ifPn => H.
  by left; exists u; [apply: first_match_head; rewrite Ec|apply: outcome_call].
case: IH => [[v Hv Ho]|[H1 ->]]; last by right; rewrite Ec (negPf H) (negPf H1).
by left; exists v => //; apply: first_match_cons => //; rewrite Ec.
Qed.
Lemma lscanP (us : seq _) i j k :
  (exists2 u, first_match (@lcovers I A i j) us u & outcome (sr_fun u j) (lscan us i j k))
  \/ ~~ has (@lcovers I A i j) us /\ lscan us i j k = k.
Proof.
elim: us => [|u us IH] /=; first by right.
set c := (X in if X then _ else _).
have Ec : @lcovers I A i j u = c by rewrite /c /lcovers eq_sym.
case: ifPn => H.
  by left; exists u; [apply: first_match_head; rewrite Ec|apply: outcome_call].
case: IH => [[v Hv Ho]|[H1 ->]]; last by right; rewrite Ec (negPf H) (negPf H1).
by left; exists v => //; apply: first_match_cons => //; rewrite Ec.
Qed.
Lemma rscanP (us : seq _) i j k :
  (exists2 u, first_match (@rcovers I A i j) us u & outcome (sr_fun u i) (rscan us i j k))
  \/ ~~ has (@rcovers I A i j) us /\ rscan us i j k = k.
Proof.
elim: us => [|u us IH] /=; first by right.
set c := (X in if X then _ else _).
have Ec : @rcovers I A i j u = c by rewrite /c /rcovers andbC [j == _]eq_sym.
case: ifPn => H.
  by left; exists u; [apply: first_match_head; rewrite Ec|apply: outcome_call].
case: IH => [[v Hv Ho]|[H1 ->]]; last by right; rewrite Ec (negPf H) (negPf H1).
by left; exists v => //; apply: first_match_cons => //; rewrite Ec.
Qed.
Lemma vscanP (us : seq _) i  :
  (exists2 u, first_match (@vcovers I A i) us u & outcome (vr_fun u i) (vscan us i))
  \/ ~~ has (@vcovers I A i) us /\ vscan us i = Err A ENoRule.
Proof.
elim: us => [|u us IH] /=; first by right.
set c := (X in if X then _ else _).
have Ec : @vcovers I A i u = c by rewrite /c /vcovers.
case: ifPn => H.
  by left; exists u; [apply: first_match_head; rewrite Ec|apply: outcome_call].
case: IH => [[v Hv Ho]|[H1 ->]]; last by right; rewrite Ec (negPf H) (negPf H1).
by left; exists v => //; apply: first_match_cons => //; rewrite Ec.
Qed.

Lemma mbuild_spec m i j :
  matrix_build (m_rules m) (m_left m) (m_right m) i j (mbuild m [:: i; j]).
Proof.
rewrite /mbuild.
case: (uscanP (m_rules m) i j
  (lscan (m_left m) i j (rscan (m_right m) i j (Err A ENoRule)))) => [H|[H1 ->]].
  by left.
right; case: (lscanP (m_left m) i j (rscan (m_right m) i j (Err A ENoRule))) => [H|[H2 ->]].
  by left.
right; case: (rscanP (m_right m) i j (Err A ENoRule)) => [H|[H3 ->]]; first by left.
by right.
Qed.
Lemma vbuild_spec (v : lvec I A) i : vector_build (v_rules v) i (vbuild v [:: i]).
Proof. by rewrite /vbuild; case: (vscanP (v_rules v) i) => [H|H]; [left|right]. Qed.

(* ---- untouched elements are not stored ---- *)
Lemma untouched_store h w0 idx :
  m_store (mw_obj w0) idx = None -> m_untouched addr w0 h idx ->
  m_store (mw_obj (mrun addr w0 h)) idx = None.
Proof.
elim/last_ind: h => [//|h o IH] H0 Hu.
rewrite -cats1 mrun_cat /=.
have IH' : m_store (mw_obj (mrun addr w0 h)) idx = None.
  apply: IH => // h1 o' h2 E; apply: (Hu h1 o' (h2 ++ [:: o])).
  by rewrite -cats1 E -catA.
have := Hu h o [::]; rewrite cats1 => /(_ erefl).
case: o {Hu} => [k a|k|s b|i s b|i s b|s i|s i] //=.
  by move=> /eqP; rewrite /upd eq_sym => /negPf->.
move=> Hk; case E: (resolve addr 2 k == idx).
  move/eqP: E => E; by have := Hk E; rewrite /mread E; case: mgetP => /= [a _ /(_ a)|a _ _ /(_ a)|].
by case: mgetP => //= a _ _; rewrite /upd eq_sym E.
Qed.
Lemma v_untouched_store h (w0 : vworld I A) idx :
  v_store (vw_obj w0) idx = None -> v_untouched addr w0 h idx ->
  v_store (vw_obj (vrun addr w0 h)) idx = None.
Proof.
elim/last_ind: h => [//|h o IH] H0 Hu.
rewrite -cats1 vrun_cat /=.
have IH' : v_store (vw_obj (vrun addr w0 h)) idx = None.
  apply: IH => // h1 o' h2 E; apply: (Hu h1 o' (h2 ++ [:: o])).
  by rewrite -cats1 E -catA.
have := Hu h o [::]; rewrite cats1 => /(_ erefl).
case: o {Hu} => [k a|k|s b|s i|s i] //=.
  by move=> /eqP; rewrite /upd eq_sym => /negPf->.
move=> Hk; case E: (resolve addr 1 k == idx).
  move/eqP: E => E; by have := Hk E; rewrite /vread E; case: vgetP => /= [a _ /(_ a)|a _ _ /(_ a)|].
by case: vgetP => //= a _ _; rewrite /upd eq_sym E.
Qed.

(* C02 *)
Lemma m_first_read sets h k i j :
  let w0 := MWorld sets (lmat_new I A) in
  resolve addr 2 k = [:: i; j] -> m_untouched addr w0 h [:: i; j] ->
  matrix_build (udecl sets h) (ldecl sets h) (rdecl sets h) i j (mread addr (mrun addr w0 h) k).
Proof.
move=> w0 Hk Hu.
have Hs : m_store (mw_obj (mrun addr w0 h)) [:: i; j] = None by apply: untouched_store.
have -> : mread addr (mrun addr w0 h) k = mbuild (mw_obj (mrun addr w0 h)) [:: i; j].
  by rewrite /mread Hk; case: mgetP; rewrite ?Hs // => x _ ->.
have := mbuild_spec (mw_obj (mrun addr w0 h)) i j.
by case: (mrun_rules h w0) => -> -> ->.
Qed.
Lemma v_first_read sets h k i :
  let w0 := VWorld sets (lvec_new I A) in
  resolve addr 1 k = [:: i] -> v_untouched addr w0 h [:: i] ->
  vector_build (vdecl sets h) i (vread addr (vrun addr w0 h) k).
Proof.
move=> w0 Hk Hu.
have Hs : v_store (vw_obj (vrun addr w0 h)) [:: i] = None by apply: v_untouched_store.
have -> : vread addr (vrun addr w0 h) k = vbuild (vw_obj (vrun addr w0 h)) [:: i].
  by rewrite /vread Hk; case: vgetP; rewrite ?Hs // => x _ ->.
have := vbuild_spec (vw_obj (vrun addr w0 h)) i.
by rewrite (vrun_rules h w0).
Qed.
Lemma m_failed_read w k e :
  mread addr w k = Err A e -> (mstep addr w (MGet A k)).1 = w.
Proof.
case: w => s m; by rewrite /mread /=; case: mgetP.
Qed.
Lemma v_failed_read (w : vworld I A) k e :
  vread addr w k = Err A e -> (vstep addr w (VGet A k)).1 = w.
Proof.
case: w => s m; by rewrite /vread /=; case: vgetP.
Qed.

(* C03 / C04 *)
Lemma mbuild_eq m m' idx :
  m_rules m = m_rules m' -> m_left m = m_left m' -> m_right m = m_right m' ->
  mbuild m idx = mbuild m' idx.
Proof. by rewrite /mbuild => -> -> ->. Qed.

Lemma m_passive_read1 w o k :
  m_passive o -> mread addr (mstep addr w o).1 k = mread addr w k.
Proof.
case: o => //= k' _; rewrite /mread /=.
case: (mgetP (mw_obj w) (resolve addr 2 k')) => //= a E Eb.
rewrite /mget /= /upd; case: eqP => [Eq|_]; first by rewrite Eq E Eb.
case: (m_store (mw_obj w) _) => //.
by rewrite /mbuild /=; case: (resolve _ _ k) => //= i [|j []] //=; case: (uscan _ _ _ _).
Qed.
Lemma v_passive_read1 (w : vworld I A) o k :
  v_passive o -> vread addr (vstep addr w o).1 k = vread addr w k.
Proof.
case: o => //= k' _; rewrite /vread /=.
case: (vgetP (vw_obj w) (resolve addr 1 k')) => //= a E Eb.
rewrite /vget /= /upd; case: eqP => [Eq|_]; first by rewrite Eq E Eb.
case: (v_store (vw_obj w) _) => //.
by rewrite /vbuild /=; case: (resolve _ _ k) => //= i [|j []] //=; case: (vscan _ _).
Qed.
Lemma m_passive_read w h k :
  all (@m_passive I Obj A) h -> mread addr (mrun addr w h) k = mread addr w k.
Proof.
elim: h w => //= o h IH w /andP[Ho Hh].
by rewrite IH // m_passive_read1.
Qed.
Lemma v_passive_read (w : vworld I A) h k :
  all (@v_passive I Obj A) h -> vread addr (vrun addr w h) k = vread addr w k.
Proof.
elim: h w => //= o h IH w /andP[Ho Hh].
by rewrite IH // v_passive_read1.
Qed.

(* C05 *)
Lemma m_set_read w k v k' :
  mread addr (mstep addr w (MSet k v)).1 k' =
  if resolve addr 2 k' == resolve addr 2 k then Ok v else mread addr w k'.
Proof.
rewrite /mread /= /mget /= /upd; case: eqP => // _.
case: (m_store (mw_obj w) _) => //.
by rewrite /mbuild /=; case: (resolve _ _ k') => //= i [|j []] //=; case: (uscan _ _ _ _).
Qed.
Lemma v_set_read (w : vworld I A) k v k' :
  vread addr (vstep addr w (VSet k v)).1 k' =
  if resolve addr 1 k' == resolve addr 1 k then Ok v else vread addr w k'.
Proof.
rewrite /vread /= /vget /= /upd; case: eqP => // _.
case: (v_store (vw_obj w) _) => //.
by rewrite /vbuild /=; case: (resolve _ _ k') => //= i [|j []] //=; case: (vscan _ _).
Qed.
Lemma m_diag_read w a : mread addr w (KOne a) = mread addr w (KTup [:: a; a]).
Proof. by []. Qed.
Lemma m_diag_step w a v :
  mstep addr w (MSet (KOne a) v) = mstep addr w (MSet (KTup [:: a; a]) v).
Proof. by []. Qed.
End P.

Section P5.
Variables (I Obj : eqType) (addr : Obj -> I) (A : Type).
Lemma m_set_objects (w : mworld I A) o1 o2 p1 p2 v :
  injective addr ->
  mread addr (mstep addr w (MSet (KTup [:: AObj I o1; AObj I o2]) v)).1 (KTup [:: AObj I p1; AObj I p2]) =
  if (p1 == o1) && (p2 == o2) then Ok v else mread addr w (KTup [:: AObj I p1; AObj I p2]).
Proof.
move=> inj; rewrite m_set_read /resolve /=.
by rewrite !eqseq_cons !(inj_eq inj) andbT.
Qed.
End P5.
