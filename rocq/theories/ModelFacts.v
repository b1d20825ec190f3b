(* Consequences of soundness, in the form in which P_Model.v states them. *)
From Coq Require Import List FunctionalExtensionality.
From mathcomp Require Import all_ssreflect all_algebra.
From mathcomp Require Import ring zify.
From Verif Require Import Graph Machine Refine Worlds Eval GraphSpec GraphProofs GraphOps RV RVProofs Sound Typing ModelSpec.
Set Implicit Arguments. Unset Strict Implicit. Unset Printing Implicit Defensive.
Import GRing.Theory.
Local Open Scope ring_scope.

Section Logs.
Variable R : fieldType.
Implicit Types (w : world R) (h : hist R).

Lemma winvid0 : winvid (@world0 R). Proof. by []. Qed.
Lemma winvid_run ops : winvid (@run_ops R ops). Proof. exact: winvid_from winvid0. Qed.

Lemma odef_law (o : op R) : odef o = law o. Proof. by case: o. Qed.

Lemma log_from ops w m : winv w -> (m < w_nm w)%N ->
  (m < w_nm (run_from w ops))%N /\ ext (w_log w m) (w_log (run_from w ops) m).
Proof.
move=> I lt; have L := later_from ops I; split; first exact: leq_trans lt (t_nm L).
exact: (t_log L lt).
Qed.

Lemma made_ext h h' r d : ext h h' -> made h r d -> made h' r d.
Proof. by elim=> //= p d' h2 _ IH /IH; right. Qed.
Lemma made_pids h r d : made h r d -> r \in pids h.
Proof.
elim: h => //= r' d' h IH [[-> _]|/IH]; rewrite inE ?eqxx // => ->; exact: orbT.
Qed.
Lemma ext_made h r d rest : ext (HAdd r d rest) h -> made h r d.
Proof. by move/made_ext; apply; left. Qed.

(* The process that an operation creates has its definition, now and later. *)
Lemma law_defined w o w' res d m ops : winv w -> step w o = (w', ROk res) -> law o = Some d ->
  m \in w_gm w' (w_np w) -> defined (run_from w' ops) m (w_np w) d.
Proof.
move=> I E; rewrite -odef_law => Ed Hm; have [_ [lt lg]] := new_def I E Ed Hm.
have I' : winv w' by have := winv_step o I; rewrite E.
have [lt' X] := log_from ops I' lt; split=> //.
by move: X; rewrite lg; apply: ext_made.
Qed.

(* Definitions survive. *)
Lemma defined_from w m r d ops : winv w -> defined w m r d -> defined (run_from w ops) m r d.
Proof. by move=> I [lt M]; have [lt' X] := log_from ops I lt; split=> //; apply: made_ext X M. Qed.
End Logs.

(* Definitions that hold pointwise hold before and after conditioning. *)
Section Laws.
Variables (R : fieldType) (W : space R).
Variable D : nat -> (point R -> R) -> point R -> R.
Variables (G : pid -> point R -> rv W) (eps : mid -> nat -> rv W).
Notation V := (rv W).
Notation at_ := (at_ D G eps). Notation denotes := (denotes D G eps).
Implicit Types (h : hist R) (x : input R) (u : seq V).

Lemma aseq_sym (a b : V) : aseq a b -> aseq b a.
Proof. by case=> e c; split=> [|g]; rewrite ?e ?c. Qed.
Lemma aseq_trans (a b c : V) : aseq a b -> aseq b c -> aseq a c.
Proof. by case=> e k [e' k']; split=> [|g]; rewrite ?e ?k. Qed.
Lemma aseqs_refl u : aseqs u u. Proof. by elim: u => [|a u IH]; constructor. Qed.
Lemma aseqs_trans (u v z : seq V) : aseqs u v -> aseqs v z -> aseqs u z.
Proof.
move=> F; elim: F z => [|a b l l' ab _ IH] z F'; first by inversion F'; constructor.
inversion F'; subst; constructor; [exact: aseq_trans ab _ | exact: IH].
Qed.
Lemma aseqs_sym (u v : seq V) : aseqs u v -> aseqs v u.
Proof. by elim=> [|a b l l' ab _ IH]; constructor; [exact: aseq_sym|]. Qed.

Lemma given_add e y dat (a b : V) : aseq (given e y dat (radd a b)) (radd (given e y dat a) (given e y dat b)).
Proof.
have ec : gc e dat (radd a b) = gc e dat a + gc e dat b by apply/rowP => j; rewrite !mxE covD.
split=> [|g]; first by rewrite given_Ex (ExD a b) (ExD (given e y dat a)) !given_Ex ec !mulmxDl mxE addrACA.
rewrite (covD (given e y dat a)) !cov_given covD addrACA -opprD -big_split /=; congr (_ - _); apply: eq_bigr => k _.
by rewrite ec mulmxDl mxE mulrDl.
Qed.
Lemma given_scale e y dat c (a : V) : aseq (given e y dat (rscale c a)) (rscale c (given e y dat a)).
Proof.
have ec : gc e dat (rscale c a) = c *: gc e dat a by apply/rowP => j; rewrite !mxE covZ.
split=> [|g]; first by rewrite given_Ex (ExZ c a) (ExZ c (given e y dat a)) !given_Ex ec -!scalemxAl mxE mulrDr.
rewrite covZ !cov_given covZ mulrBr big_distrr /=; congr (_ - _); apply: eq_bigr => k _.
by rewrite ec -!scalemxAl mxE mulrA.
Qed.
Lemma given_const e y dat c : aseq (given e y dat (rconst W c)) (rconst W c).
Proof.
have ec : gc e dat (rconst W c) = 0 by apply/rowP => j; rewrite !mxE cov_const.
split=> [|g]; first by rewrite given_Ex ec !mul0mx mxE addr0.
by rewrite cov_given ec mul0mx big1 ?subr0 // => k _; rewrite mxE mul0r.
Qed.

(* Operations on random variables with which conditioning commutes. *)
Record linear2 (f : V -> V -> V) : Prop := Linear2 {
  l2_eq : forall a b a' b', aseq a a' -> aseq b b' -> aseq (f a b) (f a' b');
  l2_given : forall e y dat a b, aseq (given e y dat (f a b)) (f (given e y dat a) (given e y dat b)) }.

Lemma l2_fst : linear2 (fun a _ => a). Proof. by split. Qed.
Lemma l2_add : linear2 (@radd _ W).
Proof. by split; [move=> *; exact: aseq_add | exact: given_add]. Qed.
Lemma l2_scale c : linear2 (fun a _ => rscale c a).
Proof. by split; [move=> *; exact: aseq_scale | move=> *; exact: given_scale]. Qed.
Lemma l2_const c : linear2 (fun a _ => radd a (rconst W c)).
Proof.
split=> [a b a' b' e _|e y dat a b]; first exact: aseq_add.
by apply: aseq_trans (given_add _ _ _ _ _) _; apply: aseq_add => //; apply: given_const.
Qed.

(* The definitions that are such an operation. *)
Definition linlaw (d : pdef R) : option (pid * pid * (V -> V -> V)) :=
  match d with
  | DCopy p => Some (p, p, fun a _ => a)
  | DAddC p c => Some (p, p, fun a _ => radd a (rconst W c))
  | DSum p q => Some (p, q, @radd _ W)
  | DScale p c => Some (p, p, fun a _ => rscale c a)
  | _ => None
  end.
Lemma linlaw_l2 d p q f : linlaw d = Some (p, q, f) -> linear2 f.
Proof.
case: d => //= [p'|p' c|p' q'|p' c] [_ _ <-];
  [exact: l2_fst | exact: l2_const | exact: l2_add | exact: l2_scale].
Qed.

Lemma zipw_self (f : V -> V -> V) (u : seq V) : zipw f u u = [seq f v v | v <- u].
Proof. by rewrite /zipw; elim: u => //= a u ->. Qed.

Lemma at_add m r d rest p x u : wfh (HAdd r d rest) -> at_ m rest p x u -> at_ m (HAdd r d rest) p x u.
Proof.
move=> /and3P [Hr _ _] H /=; case: eqP => // e; move: Hr; rewrite -e.
by rewrite (at_pids H).
Qed.
Lemma made_add (r r' : pid) (d d' : pdef R) (rest : hist R) :
  wfh (HAdd r' d' rest) -> made rest r d -> (r == r') = false.
Proof. by move=> /and3P [Hr _ _] /made_pids H; apply/eqP => e; move: Hr; rewrite -e H. Qed.

Lemma made_args h r d p : wfh h -> made h r d -> p \in dargs d -> p \in pids h.
Proof.
elim: h => //= r' d' rest IH /and3P [Hr /allP Ha Wf] [[_ <-]|M] Hp; rewrite inE; first by rewrite Ha ?orbT.
by rewrite IH ?orbT.
Qed.

Lemma at_lin h m r d p q f x u : wfh h -> made h r d -> linlaw d = Some (p, q, f) -> at_ m h r x u ->
  exists a b, [/\ at_ m h p x a, at_ m h q x b, size a = size b & aseqs u (zipw f a b)].
Proof.
elim: h m x u => [|pm par IH o|r' d' rest IH] m x u //.
  move=> Wf M Ed [u0 /(IH _ _ _ Wf M Ed) [a [b [Ha Hb sz S]]] F].
  have [sz0 Hn] := proj1 (aseqs_nth _ _) S; rewrite size_zipw // in sz0.
  case: u0 F S sz0 Hn => [|v0 u0] F S sz0 Hn.
    exists [::], [::]; inversion F; subst; split=> //; last by constructor.
    + by exists a => //; case: (a) sz0 => [|//] _; constructor.
    + by exists b => //; rewrite sz in sz0; case: (b) sz0 => [|//] _; constructor.
  have [dat Hd _] := Forall2_nth (rone W) (rone W) F (ltn0Sn _).
  pose g := given (noise_of o (eps m)) (values o) dat.
  have Fg l : Forall2 (fun v0 v => exists2 w, data (at_ pm par) (eps m) o w & v = given (noise_of o (eps m)) (values o) w v0) l (map g l).
    by elim: l => [|v l IHl]; constructor => //; exists dat.
  exists (map g a), (map g b); split; [by exists a | by exists b | by rewrite !size_map |].
  apply/aseqs_nth; rewrite size_zipw ?size_map // -(Forall2_size F) sz0; split=> // i lt.
  rewrite -sz0 in lt; have [w Hw e] := Forall2_nth (rone W) (rone W) F lt.
  rewrite /vget e (nth_zipw _ (rone W) (rone W)) ?size_map ?(nth_map (rone W)) -?sz -?sz0 //.
  apply: aseq_trans (_ : aseq (g (f (vget a i) (vget b i))) _); last first.
    by have [_ H] := linlaw_l2 Ed; apply: H.
  apply: aseq_given; first by apply: (data_same _ Hw Hd) => ?; apply: at_same.
  by have := Hn i lt; rewrite {2}/vget (nth_zipw _ (rone W) (rone W)) // -sz0.
move=> Wf [[er ed]|M] Ed H; last first.
  move: H; rewrite /= (made_add Wf M) => /(IH _ _ _ _ M Ed) [|a [b [Ha Hb sz S]]]; first by case/and3P: Wf.
  by exists a, b; split=> //; apply: (at_add Wf).
subst r' d'; have {}H : equation D G m (at_ m rest) r d x u by move: H; rewrite /= eqxx.
have : forall p u, at_ m rest p x u -> at_ m (HAdd r d rest) p x u by move=> *; apply: at_add.
move: (at_ m (HAdd r d rest)) => A' K.
case: (d) H Ed => //= [p'|p' c|p' q'|p' c] H [<- <- <-].
- by exists u, u; rewrite zipw_self map_id; split=> //; [exact: K | exact: K | exact: aseqs_refl].
- case: H => a Ha ->; exists a, a; rewrite zipw_self; split=> //; [exact: K | exact: K | exact: aseqs_refl].
- case: H => a [b [Ha Hb sz ->]]; exists a, b; split=> //; [exact: K | exact: K | exact: aseqs_refl].
- case: H => a Ha ->; exists a, a; rewrite zipw_self; split=> //; [exact: K | exact: K | exact: aseqs_refl].
Qed.

Lemma lift_zip_as (A B C : input R -> seq V -> Prop) f x u :
  (forall x u, A x u -> exists a b, [/\ B x a, C x b, size a = size b & aseqs u (zipw f a b)]) ->
  lift A x u -> exists a b, [/\ lift B x a, lift C x b, size a = size b & aseqs u (zipw f a b)].
Proof.
move=> H; elim=> [xs v /H|p y v /H||y xs v v' _ [a [b [Ha Hb e E]]] _ [a' [b' [Ha' Hb' e' E']]]].
- by case=> a [b [Ha Hb e E]]; exists a, b; split=> //; apply: lift_num.
- by case=> a [b [Ha Hb e E]]; exists a, b; split=> //; apply: lift_fdd.
- by exists [::], [::]; split=> //; try exact: lift_nil; constructor.
exists (a ++ a'), (b ++ b'); split; try exact: lift_cons; first by rewrite !size_cat e e'.
by rewrite zipw_cat //; apply: Forall2_app.
Qed.

Lemma den_lin h m r d p q f x u : wfh h -> made h r d -> linlaw d = Some (p, q, f) -> denotes m h r x u ->
  exists a b, [/\ denotes m h p x a, denotes m h q x b, size a = size b & aseqs u (zipw f a b)].
Proof. by move=> Wf M Ed; apply: lift_zip_as => y v; apply: at_lin Ed. Qed.

(* Maps of the inputs. *)
Lemma at_map h m r p t t0 xs u : wfh h -> made h r (DMap p t t0) ->
  at_ m h r (Num xs) u <-> at_ m h p (Num (map t xs)) u.
Proof.
elim: h m xs u => [|pm par IH o|r' d' rest IH] m xs u //.
  move=> Wf M; split=> -[u0 H F]; exists u0 => //; exact/(IH pm).
move=> Wf [[er ed]|M].
  subst r' d'.
  rewrite /= eqxx; have /and3P [Hr /= /andP [Hp _] _] := Wf.
  have -> : (p == r) = false by apply/eqP => e; move: Hr; rewrite -e Hp.
  by split; [case=> ys [<-] | exists xs].
rewrite /= (made_add Wf M).
have -> : (p == r') = false.
  by apply/eqP => e; have /and3P [Hr _ Wr] := Wf; move: Hr; rewrite -e (made_args Wr M) ?inE ?eqxx.
by apply: IH M; case/and3P: Wf.
Qed.

Lemma den_map h m r p t t0 xs u : wfh h -> made h r (DMap p t t0) ->
  denotes m h r (Num xs) u <-> denotes m h p (Num (map t xs)) u.
Proof.
move=> Wf M; split=> /lift_num_inv H; apply: lift_num; exact/(at_map _ _ _ Wf M).
Qed.

(* Cartesian products. *)
Lemma Forall2_flatten (T1 T2 : Type) (P : T1 -> T2 -> Prop) us v : Forall2 P (flatten us) v ->
  exists2 vs, Forall2 (Forall2 P) us vs & v = flatten vs.
Proof.
elim: us v => [|u us IH] v /=; first by inversion 1; exists [::]; constructor.
by case/Forall2_cat_l => v1 [v2 [-> F1 /IH [vs F ->]]]; exists (v1 :: vs); constructor.
Qed.
Lemma F2_add m r d rest xs l us : (forall p, p \in l -> (p == r) = false) ->
  Forall2 (fun p ui => at_ m rest p (Num xs) ui) l us <->
  Forall2 (fun p ui => at_ m (HAdd r d rest) p (Num xs) ui) l us.
Proof.
elim: l us => [|p l IHl] us Hp; first by split; inversion 1; constructor.
have pr : (p == r) = false by apply: Hp; rewrite inE eqxx.
have E : at_ m (HAdd r d rest) p (Num xs) = at_ m rest p (Num xs) by rewrite /= pr.
have {}IHl us' := IHl us' (fun q Hq => Hp q (mem_behead (s := p :: l) Hq)).
by split; inversion 1; subst; constructor; rewrite ?E // -?E //; exact/IHl.
Qed.
Lemma at_cross h m r ps xs u : wfh h -> made h r (DCross ps) ->
  at_ m h r (Num xs) u <-> exists2 us, Forall2 (fun p ui => at_ m h p (Num xs) ui) ps us & u = flatten us.
Proof.
elim: h m xs u => [|pm par IH o|r' d' rest IH] m xs u //.
  move=> Wf M; split.
    case=> u0 /(IH pm _ _ Wf M) [us0 F0 ->] /Forall2_flatten [us F ->]; exists us => //.
    elim: F0 us F => [|p v ps' us' Hp _ IH'] us F; inversion F; subst; constructor; last exact: IH'.
    by exists v.
  case=> us F ->; have {F} [us0 F0 F] : exists2 us0, Forall2 (fun p ui => at_ pm par p (Num xs) ui) ps us0 &
      Forall2 (fun v0 v => exists2 w, data (at_ pm par) (eps m) o w & v = given (noise_of o (eps m)) (values o) w v0) (flatten us0) (flatten us).
    elim: F => [|p v ps' us' [v0 Hv0 Fv] _ [us0 F1 F2]]; first by exists [::]; constructor.
    by exists (v0 :: us0); [constructor | apply: Forall2_app].
  by exists (flatten us0) => //; apply/(IH pm _ _ Wf M); exists us0.
move=> Wf [[er ed]|M].
  subst r' d'; have /and3P [Hr /= /allP Hp _] := Wf; rewrite eqxx.
  have E := F2_add m (DCross ps) rest xs (l := ps) (r := r).
  by split=> -[us F ->]; exists us => //; apply/E => // p Hq; apply/eqP => e; move: Hr; rewrite -e Hp.
rewrite /= (made_add Wf M); have /and3P [Hr _ Wr] := Wf.
have Hp : forall p, p \in ps -> (p == r') = false.
  by move=> p Hp; apply/eqP => e; move: Hr; rewrite -e (made_args Wr M).
by rewrite (IH _ _ _ Wr M); split=> -[us F ->]; exists us => //; move: F; apply F2_add.
Qed.

Lemma lift_F2 (A B : input R -> seq V -> Prop) (Q : V -> V -> Prop) x u :
  (forall x u, B x u <-> exists2 u0, A x u0 & Forall2 Q u0 u) ->
  lift B x u <-> exists2 u0, lift A x u0 & Forall2 Q u0 u.
Proof.
move=> H; split.
  by apply: lift_rel => y v /H.
case=> u0 L; elim: L u => [xs v a u F|p y v a u F|u F|y xs v v' _ L1 _ L2 u].
- by apply: lift_num; apply/H; exists v.
- by apply: lift_fdd; apply/H; exists v.
- by inversion F; apply: lift_nil.
by case/Forall2_cat_l => v1 [v2 [-> F1 F2]]; apply: lift_cons; auto.
Qed.

Lemma at_cross_fdd h m r ps a x u : wfh h -> made h r (DCross ps) ->
  at_ m h r (Fdd a x) u <-> a \in ps /\ lift (at_ m h a) x u.
Proof.
elim: h m u => [|pm par IH o|r' d' rest IH] m u //.
  move=> Wf M; rewrite (lift_F2 (A := at_ pm par a) (Q := fun v0 v => exists2 w, data (at_ pm par) (eps m) o w & v = given (noise_of o (eps m)) (values o) w v0)) //=; split.
    by case=> u0 /(IH pm _ Wf M) [Ha L] F; split=> //; exists u0.
  by case=> Ha [u0 L F]; exists u0 => //; apply/(IH pm _ Wf M).
move=> Wf H; have Ha : a \in ps -> at_ m (HAdd r' d' rest) a = at_ m rest a.
  have /and3P [Hr /= /allP Hp Wr] := Wf => Ha.
  apply: (@at_ext _ _ D G eps m rest (HAdd r' d' rest) a) => //; first by constructor; constructor.
  case: H => [[_ ed]|M]; last exact: (made_args Wr M).
  by apply: Hp; rewrite ed.
case: H => [[er ed]|M].
  subst r' d'; have -> : at_ m (HAdd r (DCross ps) rest) r (Fdd a x) u = (a \in ps /\ lift (at_ m rest a) x u) by rewrite /= eqxx.
  by split=> -[a1 a2]; split=> //; move: a2; rewrite Ha.
have /and3P [Hr _ Wr] := Wf.
have -> : at_ m (HAdd r' d' rest) r (Fdd a x) u = at_ m rest r (Fdd a x) u by rewrite /= (made_add Wf M).
by rewrite (IH _ _ Wr M); split=> -[a1 a2]; split=> //; move: a2; rewrite Ha.
Qed.
End Laws.

(* Linear combinations. *)
Section Affine.
Variable R : fieldType.
Implicit Types (l : seq (R * pid)) (F : pid -> R).

Lemma sum_coef l F (S : seq pid) : uniq S -> (forall t, t \in l -> t.2 \in S) ->
  \sum_(t <- l) t.1 * F t.2 = \sum_(p <- S) coef l p * F p.
Proof.
move=> US HS; under [RHS]eq_bigr => p _ do rewrite /coef mulr_suml.
rewrite (exchange_big_dep xpredT) //= big_seq [RHS]big_seq; apply: eq_bigr => t Ht.
rewrite [RHS]big_mkcond (bigD1_seq t.2) ?HS //= eqxx big1 ?addr0 // => p.
by rewrite eq_sym => /negbTE ->.
Qed.

Lemma coef_sum l l' F : (forall p, coef l p = coef l' p) ->
  \sum_(t <- l) t.1 * F t.2 = \sum_(t <- l') t.1 * F t.2.
Proof.
move=> H; pose S := undup [seq t.2 | t <- l ++ l'].
have HS k t : t \in k -> {subset k <= l ++ l'} -> t.2 \in S.
  by move=> Ht Sub; rewrite mem_undup; apply: map_f; apply: Sub.
rewrite (@sum_coef l F S) ?undup_uniq ?(@sum_coef l' F S) ?undup_uniq //.
- by apply: eq_bigr => p _; rewrite H.
- by move=> t /HS; apply=> s; rewrite mem_cat => ->; rewrite orbT.
- by move=> t /HS; apply=> s; rewrite mem_cat => ->.
Qed.
Lemma coef_nil p : coef [::] p = 0 :> R. Proof. exact: big_nil. Qed.

Variable W : space R.
Variable D : nat -> (point R -> R) -> point R -> R.
Variables (G : pid -> point R -> rv W) (eps : mid -> nat -> rv W).
Notation V := (rv W).
Notation denotes := (denotes D G eps).
Implicit Types (w : world R) (u v : seq V) (bs : seq (seq V)).

Lemma same_rvE u v : same_rv u v <-> aseqs u v.
Proof. by rewrite aseqs_nth. Qed.

(* The values of an affine combination, from those of its processes. *)
Definition lin l bs (f : V -> R) i : R := \sum_(z <- zip l bs) z.1.1 * f (vget z.2 i).
Definition terms m h x n l bs := Forall2 (fun t b => denotes m h t.2 x b /\ size b = n) l bs.

Lemma lin_cat l l' bs bs' f i : size l = size bs -> lin (l ++ l') (bs ++ bs') f i = lin l bs f i + lin l' bs' f i.
Proof. by move=> e; rewrite /lin zip_cat // big_cat. Qed.

Lemma affine_den w m r l c x u : winv w -> (m < w_nm w)%N -> affine w m r l c ->
  denotes m (w_log w m) r x u ->
  exists2 bs, terms m (w_log w m) x (size u) l bs &
    forall i, (i < size u)%N -> Ex (vget u i) = lin l bs (@Ex _ W) i + c /\ forall g, cov (vget u i) g = lin l bs (fun a => cov a g) i.
Proof.
move=> I lt A; have Wf := l_wf (v_log I.1) lt.
elim: A u => {r l c} [p|r p l c [_ M] _ IH|r p l c a [_ M] _ IH|r p l c a [_ M] _ IH|r p q l c l' c' [_ M] _ IH _ IH'] u Hu.
- exists [:: u]; first by constructor.
  by move=> i li; split=> [|g]; rewrite /lin /= big_seq1 mul1r ?addr0.
- have [a [b [Ha _ sz S]]] := den_lin Wf M erefl Hu; have [su H] := proj1 (aseqs_nth _ _) S.
  have [bs T K] := IH _ Ha; rewrite size_zipw // in su; rewrite -su in T K; exists bs => // i li.
  have := H i li; rewrite {2}/vget (nth_zipw _ (rone W) (rone W) _ sz) -?su // => -[-> e2].
  by have [-> e4] := K i li; split=> // g; rewrite e2 e4.
- have [a' [b [Ha _ sz S]]] := den_lin Wf M erefl Hu; have [su H] := proj1 (aseqs_nth _ _) S.
  have [bs T K] := IH _ Ha; rewrite size_zipw // in su; rewrite -su in T K; exists bs => // i li.
  have := H i li; rewrite {2}/vget (nth_zipw _ (rone W) (rone W) _ sz) -?su // => -[-> e2].
  have [e3 e4] := K i li; split=> [|g]; first by rewrite ExD Ex_const e3 addrA.
  by rewrite e2 covD cov_const addr0 e4.
- have [a' [b [Ha _ sz S]]] := den_lin Wf M erefl Hu; have [su H] := proj1 (aseqs_nth _ _) S.
  have [bs T K] := IH _ Ha; rewrite size_zipw // in su; rewrite -su in T K; exists bs.
    by elim: T {IH K} => [|t b' l' bs' Hb _ IHT]; constructor.
  have L f i : lin [seq (a * t.1, t.2) | t <- l] bs f i = a * lin l bs f i.
    rewrite /lin big_distrr /=; elim: (l) (bs) => [|t l' IHl] [|b' bs'] //=; rewrite ?big_nil // !big_cons.
    by rewrite IHl mulrA.
  move=> i li; have := H i li; rewrite {2}/vget (nth_zipw _ (rone W) (rone W) _ sz) -?su // => -[-> e2].
  have [e3 e4] := K i li; split=> [|g]; first by rewrite ExZ e3 L mulrDr.
  by rewrite e2 covZ L e4.
have [a [b [Ha Hb sz S]]] := den_lin Wf M erefl Hu; have [su H] := proj1 (aseqs_nth _ _) S.
have [bs T K] := IH _ Ha; have [bs' T' K'] := IH' _ Hb; rewrite size_zipw // in su.
rewrite -sz -su in T' K'; rewrite -su in T K; exists (bs ++ bs'); first exact: Forall2_app.
move=> i li; have := H i li; rewrite {2}/vget (nth_zipw _ (rone W) (rone W) _ sz) -?su // => -[-> e2].
have [e3 e4] := K i li; have [e5 e6] := K' i li; have sl := Forall2_size T.
split=> [|g]; first by rewrite ExD e3 e5 lin_cat // addrACA.
by rewrite e2 covD e4 e6 lin_cat.
Qed.

(* A value for every process of two lists of terms. *)
Lemma choose m h x n l bs i (f : V -> R) : (forall a b, aseq a b -> f a = f b) -> (i < n)%N ->
  terms m h x n l bs -> exists F, forall b r, denotes m h r x b -> size b = n -> r \in [seq t.2 | t <- l] -> F r = f (vget b i).
Proof.
move=> Hf li; elim=> [|t b0 l' bs' [Hb sb] _ [F HF]]; first by exists (fun=> 0).
exists (fun r => if r == t.2 then f (vget b0 i) else F r) => b r Hr sz; rewrite inE.
case: eqP => [e _|_ /= Hin]; last exact: HF.
apply: Hf; rewrite e in Hr; have [_ S] := proj1 (aseqs_nth _ _) (denotes_same Hb Hr).
by apply: S; rewrite sb.
Qed.
Lemma lin_choose m h x n l bs i f F : terms m h x n l bs ->
  (forall b r, denotes m h r x b -> size b = n -> r \in [seq t.2 | t <- l] -> F r = f (vget b i)) ->
  lin l bs f i = \sum_(t <- l) t.1 * F t.2.
Proof.
rewrite /lin; elim=> [|t b l' bs' [Hb sb] _ IH] HF; first by rewrite !big_nil.
rewrite /= !big_cons /= -(HF b t.2) ?inE ?eqxx // IH // => b' r Hr sz Hin; apply: HF => //.
by rewrite inE Hin orbT.
Qed.

Lemma lin_same m h x n l l' bs bs' i (f : V -> R) : (forall a b, aseq a b -> f a = f b) -> (i < n)%N ->
  (forall p, coef l p = coef l' p) -> terms m h x n l bs -> terms m h x n l' bs' ->
  lin l bs f i = lin l' bs' f i.
Proof.
move=> Hf li C T T'; have TT : terms m h x n (l ++ l') (bs ++ bs') by apply: Forall2_app.
have [F HF] := choose Hf li TT.
rewrite (lin_choose (F := F) T) ?(lin_choose (F := F) T'); first exact: coef_sum.
  by move=> b r Hr sz Hin; apply: HF => //; rewrite map_cat mem_cat Hin orbT.
by move=> b r Hr sz Hin; apply: HF => //; rewrite map_cat mem_cat Hin.
Qed.

Lemma affine_same w m p q l l' c x u v : winv w -> affine w m p l c -> affine w m q l' c ->
  (forall r, coef l r = coef l' r) -> is_at D G eps w m p x u -> is_at D G eps w m q x v ->
  size u = size v -> same_rv u v.
Proof.
move=> I A A' C [lt Hu] [_ Hv] sz; split=> // i li.
have [bs T K] := affine_den I lt A Hu; have [bs' T' K'] := affine_den I lt A' Hv.
rewrite -sz in T' K'; have [-> e2] := K i li; have [-> e4] := K' i li; split=> [|g].
  by congr (_ + _); apply: (lin_same _ li C T T') => a b [].
by rewrite e2 e4; apply: (lin_same _ li C T T') => a b [].
Qed.

Lemma affine_zero w m p l c x u i : winv w -> affine w m p l c ->
  (forall r, coef l r = 0) -> is_at D G eps w m p x u -> (i < size u)%N ->
  Ex (vget u i) = c /\ forall g, cov (vget u i) g = 0.
Proof.
move=> I A C [lt Hu] li; have [bs T K] := affine_den I lt A Hu.
have L f : (forall a b, aseq a b -> f a = f b) -> lin l bs f i = 0.
  move=> Hf; have C' r : coef l r = coef [::] r by rewrite C coef_nil.
  have T' : terms m (w_log w m) x (size u) [::] [::] by constructor.
  by rewrite (lin_same Hf li C' T T') /lin big_nil.
have [-> e] := K i li; split=> [|g]; first by rewrite L ?add0r // => a b [].
by rewrite e L // => a b [].
Qed.
End Affine.

(* What the theorems about numbers use of a model.  [CV] are the covariance matrices that
   the model accounts for. *)
Definition sound (R : fieldType) (W : space R) (D : nat -> (point R -> R) -> point R -> R)
  (G : pid -> point R -> rv W) (eps : mid -> nat -> rv W) (w : world R) (P : mid -> pid -> Prop)
  (CV : mid -> pid -> pid -> input R -> input R -> dmat R -> Prop) : Prop :=
  valid D G eps w P /\
  [/\ forall m p q x y M u v, P m p -> P m q -> is_at D G eps w m p x u -> is_at D G eps w m q y v ->
        CV m p q x y M -> covmat M u v,
      forall m p x e u, P m p -> is_at D G eps w m p x u -> mean_is D w m p x e -> e = map (@Ex _ W) u &
      forall m p x M u, P m p -> is_at D G eps w m p x u -> cov_is D w m p p x x M -> CV m p p x x M].

(* From random variables to numbers. *)
Section Numbers.
Variables (R : fieldType) (W : space R).
Variable D : nat -> (point R -> R) -> point R -> R.
Variables (G : pid -> point R -> rv W) (eps : mid -> nat -> rv W).
Notation V := (rv W).
Variables (ops : seq (op R)) (P : mid -> pid -> Prop).
Let w := run_ops ops.
Hypothesis Mo : model D G eps w P.
Notation is_at := (is_at D G eps w).

Lemma model_k n m p q x y M u v : P m p -> P m q -> is_at m p x u -> is_at m q y v ->
  kernel_at D n w m p q x y = Some M -> covmat M u v.
Proof.
case: Mo => Va Lay Pp Pq [lt Hu] [_ Hv] E.
exact: (sound_k (winv_run ops) (winvid_run ops) Va Lay lt Pp Pq E Hu Hv).
Qed.
Lemma model_m n m p x e u : P m p -> is_at m p x u -> mean_at D n w m p x = Some e -> e = map (@Ex _ W) u.
Proof.
case: Mo => Va Lay Pp [lt Hu] E.
exact: (sound_m (winv_run ops) (winvid_run ops) Va Lay lt Pp E Hu).
Qed.

Lemma model_sound : sound D G eps w P (cov_is D w).
Proof.
split; first exact: Mo.1.
by split=> // [m p q x y M u v Pp Pq Hu Hv [n E]|m p x e u Pp Hu [n E]];
  [apply: (model_k Pp Pq Hu Hv E) | apply: (model_m Pp Hu E)].
Qed.

Lemma covmat_same M M' (u u' v v' : seq V) : covmat M u v -> covmat M' u' v' -> same_rv u u' -> same_rv v v' ->
  same_matrix M M'.
Proof.
move=> [a1 a2 a3] [b1 b2 b3] [su Hu] [sv Hv]; split; rewrite ?a1 ?b1 ?a2 ?b2 // => i j li lj.
rewrite a3 // b3 -?su -?sv //; have [_ ->] := Hu i li; rewrite covC (covC _ (vget v' j)).
by have [_ ->] := Hv j lj.
Qed.
Lemma same_Ex (u v : seq V) : same_rv u v -> map (@Ex _ W) u = map (@Ex _ W) v.
Proof. by move/same_rvE/aseqs_Ex. Qed.
End Numbers.
Lemma sound_at (R : fieldType) (W : space R) D (G : pid -> point R -> rv W) eps w ops P :
  w = run_ops ops -> model D G eps w P -> sound D G eps w P (cov_is D w).
Proof. by move=> ->; apply: model_sound. Qed.
