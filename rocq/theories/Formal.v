(* A space of random variables for every model: formal linear combinations of the values of
   the independently constructed processes and of the observation noise.  It shows that the
   hypotheses of the soundness theorems can be met, and it turns them into statements about
   kernels alone. *)
From Coq Require Import List.
From mathcomp Require Import all_ssreflect all_algebra.
From mathcomp Require Import zify.
From Verif Require Import Graph Machine Refine Worlds Eval GraphSpec GraphProofs RV RVProofs Sound Typing ModelSpec.
Set Implicit Arguments. Unset Strict Implicit. Unset Printing Implicit Defensive.
Import GRing.Theory Num.Theory.
Local Open Scope ring_scope.

Section Space.
Variables (R : fieldType) (A : Type) (mean : A -> R) (kap : A -> A -> R).
Hypothesis kap_sym : forall a b, kap a b = kap b a.

Definition fv : Type := (R * seq (R * A))%type.
Definition f_add (u v : fv) : fv := (u.1 + v.1, u.2 ++ v.2).
Definition f_scale (c : R) (u : fv) : fv := (c * u.1, [seq (c * a.1, a.2) | a <- u.2]).
Definition f_one : fv := (1, [::]).
Definition f_atom (a : A) : fv := (0, [:: (1, a)]).
Definition f_Ex (u : fv) : R := u.1 + \sum_(a <- u.2) a.1 * mean a.2.
Definition f_cov (u v : fv) : R := \sum_(a <- u.2) \sum_(b <- v.2) a.1 * b.1 * kap a.2 b.2.

Lemma f_ExD u v : f_Ex (f_add u v) = f_Ex u + f_Ex v.
Proof. by rewrite /f_Ex /= big_cat addrACA. Qed.
Lemma f_ExZ c u : f_Ex (f_scale c u) = c * f_Ex u.
Proof.
rewrite /f_Ex /= mulrDr big_map big_distrr /=; congr (_ + _).
by apply: eq_bigr => a _; rewrite mulrA.
Qed.
Lemma f_Ex1 : f_Ex f_one = 1. Proof. by rewrite /f_Ex big_nil addr0. Qed.
Lemma f_covC u v : f_cov u v = f_cov v u.
Proof.
rewrite /f_cov exchange_big; apply: eq_bigr => a _; apply: eq_bigr => b _.
by rewrite kap_sym (mulrC a.1).
Qed.
Lemma f_covD u v w : f_cov (f_add u v) w = f_cov u w + f_cov v w.
Proof. by rewrite /f_cov /= big_cat. Qed.
Lemma f_covZ c u v : f_cov (f_scale c u) v = c * f_cov u v.
Proof.
rewrite /f_cov /= big_map big_distrr /=; apply: eq_bigr => a _.
by rewrite big_distrr /=; apply: eq_bigr => b _; rewrite !mulrA.
Qed.
Lemma f_cov1 v : f_cov f_one v = 0. Proof. by rewrite /f_cov big_nil. Qed.

Definition formal : space R := Space f_ExD f_ExZ f_Ex1 f_covC f_covD f_covZ f_cov1.

Lemma f_atom_cov a b : f_cov (f_atom a) (f_atom b) = kap a b.
Proof. by rewrite /f_cov !big_seq1 !mul1r. Qed.
Lemma f_atom_Ex a : f_Ex (f_atom a) = mean a.
Proof. by rewrite /f_Ex big_seq1 mul1r add0r. Qed.
End Space.

(* Non-negative quadratic forms. *)
Section Psd.
Variables (R : realFieldType) (A : Type) (L : eqType) (lab : A -> L) (kap : A -> A -> R).
Hypothesis kap_lab : forall a b, lab a != lab b -> kap a b = 0.
Hypothesis kap_psd : forall p l, all (fun a : R * A => lab a.2 == p) l -> 0 <= quad kap l.

Lemma quad_split (p : L) (l : seq (R * A)) :
  quad kap l = quad kap [seq a <- l | lab a.2 == p] + quad kap [seq a <- l | lab a.2 != p].
Proof.
rewrite /quad (bigID (fun a : R * A => lab a.2 == p)) /= !big_filter; congr (_ + _).
  apply: eq_bigr => a /eqP ea; rewrite (bigID (fun b : R * A => lab b.2 == p)) /= big_filter.
  rewrite [X in _ + X]big1 ?addr0 // => b nb; rewrite kap_lab ?mulr0 // ea eq_sym.
  by [].
apply: eq_bigr => a na; rewrite (bigID (fun b : R * A => lab b.2 == p)) /= big_filter.
rewrite [X in X + _]big1 ?add0r // => b /eqP eb; rewrite kap_lab ?mulr0 // eb.
by [].
Qed.
Lemma quad_ge0 l : 0 <= quad kap l.
Proof.
have [n] := ubnP (size l); elim: n l => // n IH [|a l] lt; first by rewrite /quad big_nil.
rewrite (quad_split (lab a.2)) addr_ge0 //; first by apply: (kap_psd (p := lab a.2)); rewrite filter_all.
apply: IH; apply: leq_trans (_ : size (a :: l) <= n)%N; last by [].
by rewrite /= eqxx /= ltnS size_filter count_size.
Qed.
Lemma formal_psd mean (s : forall a b, kap a b = kap b a) (v : rv (formal mean s)) : 0 <= cov v v.
Proof. exact: quad_ge0. Qed.
End Psd.

Section Noise.
Variable R : fieldType.
Lemma full_sym (o : obs R) : square_sym (o_noise o) -> square_sym (full_noise o).
Proof.
case=> sq H; split=> // i j li lj /=; rewrite (andbC (j < _)%N) (eq_sym j).
case: ifP => [/andP [l1 l2]|_]; first exact: H.
by case: eqP => [->|].
Qed.
End Noise.
Lemma full_psd (R : realFieldType) (o : obs R) : psd_matrix (o_noise o) ->
  (forall d, o_data o = Some d -> all (fun a => 0 <= a) (d_noise d)) -> psd_matrix (full_noise o).
Proof.
move=> H1 H2; set N := nr (o_noise o).
have H2' i : 0 <= nth 0 (data_noise o) i.
  rewrite /data_noise; case E: (o_data o) => [d|]; last by rewrite nth_nil.
  case: (ltnP i (size (d_noise d))) => li; last by rewrite nth_default.
  by move/(all_nthP 0): (H2 _ E) => /(_ _ li).
move=> l _; pose lab (i : nat) := if (i < N)%N then 0%N else i.+1.
apply: (quad_ge0 (lab := lab)) => [a b|p l0 /allP Hl].
  rewrite /lab /= -/N; case: ifP => la; case: ifP => lb //=.
  - by case: eqP => // e; move: lb; rewrite -e la.
  - by case: eqP => // e; move: la; rewrite e lb.
  - by rewrite eqSS => /negbTE ->.
case: p Hl => [|i] Hl.
  have := H1 l0; have al : all (fun a : R * nat => (a.2 < nr (o_noise o))%N) l0.
    by apply/allP => a /Hl; rewrite /lab -/N; case: ifP.
  move=> /(_ al); congr (_ <= _); rewrite /quad; apply: eq_big_seq => a Ha; apply: eq_big_seq => b Hb.
  by move/allP: al => al; rewrite /= (al a) // (al b).
have e a : a \in l0 -> a.2 = i /\ (N <= i)%N.
  move=> /Hl; rewrite /lab; case: ltnP => // le; by rewrite eqSS => /eqP <-.
have -> : quad (ent (full_noise o)) l0 = (\sum_(a <- l0) a.1) ^+ 2 * nth 0 (data_noise o) (i - N)%N.
  rewrite /quad expr2 mulr_suml mulr_suml; apply: eq_big_seq => a Ha.
  rewrite mulr_sumr mulr_suml; apply: eq_big_seq => b Hb.
  have [-> le] := e _ Ha; have [-> _] := e _ Hb.
  by rewrite /= -/N ltnNge le /= eqxx.
by rewrite mulr_ge0 // sqr_ge0.
Qed.

Section World.
Variable R : fieldType.
Notation point := (point R). Notation input := (input R). Notation hist := (hist R).
Variable D : nat -> (point -> R) -> point -> R.

Lemma valid_full (W : space R) (G : pid -> point -> rv W) (eps : mid -> nat -> rv W) (w : world R) P m pm par o i j :
  valid D G eps w P -> (m < w_nm w)%N -> base (w_log w m) = Some (pm, par, o) -> square_sym (o_noise o) ->
  (i < nr (full_noise o))%N -> (j < nr (full_noise o))%N ->
  [/\ Ex (eps m i) = 0, cov (eps m i) (eps m j) = ent (full_noise o) i j,
      forall p t, cov (eps m i) (G p t) = 0 & forall m' i', m <> m' -> cov (eps m i) (eps m' i') = 0].
Proof.
move=> V lt E [sq _] li lj; have [e1 e2] := vd_noise V lt E; split=> //; last 2 first.
- by move=> p t; apply: (vd_ind_eps V).
- by move=> m' i'; apply: (vd_eps_eps V).
move: li lj; rewrite /= /data_noise; case Eo: (o_data o) => [d|]; last by rewrite addn0 => li lj; rewrite li lj e2 // -sq.
have [f1 f2] := vd_pseudo V lt E Eo; set N := nr _ => li lj.
case: (ltnP i N) => lti; case: (ltnP j N) => ltj /=.
- by rewrite e2 // -sq.
- rewrite -(subnKC ltj) f1 // [i == _](_ : _ = false) //; apply/eqP => e; move: lti; rewrite e; lia.
- rewrite covC -(subnKC lti) f1 // [_ == j](_ : _ = false) //; apply/eqP => e; move: ltj; rewrite -e; lia.
- rewrite -{1}(subnKC lti) -{1}(subnKC ltj) f2; try lia.
  rewrite andbT; have -> : (i - N == j - N)%N = (i == j) by apply/eqP/eqP => [|->] //; lia.
  by [].
Qed.

Inductive atom_ := AG of pid & point | AE of mid & nat.
Definition alab (a : atom_) : nat + nat := match a with AG p _ => inl p | AE m _ => inr m end.

(* Models whose independently constructed processes [p] have kernel [ka p] and mean [mu p]
   pointwise and whose noise matrices are symmetric. *)
Record regular (w : world R) (P : mid -> pid -> Prop) (mu : pid -> point -> R) (ka : pid -> point -> point -> R) : Prop := Regular {
  rg_needs : forall m p d rest q, (m < w_nm w)%N -> ext (HAdd p d rest) (w_log w m) ->
    P m p -> q \in needs d -> P m q;
  rg_base : forall m pm par o p, (m < w_nm w)%N -> base (w_log w m) = Some (pm, par, o) ->
    P m p -> p \in pids par -> P pm p /\ forall a, a \in o_pids o -> P pm a;
  rg_user : forall m p mu k lr rest, (m < w_nm w)%N ->
    ext (HAdd p (DUser mu k lr) rest) (w_log w m) -> ~ P m p;
  rg_sym : forall p s t, ka p s t = ka p t s;
  rg_cov : forall m p mu k rest n xs ys M, (m < w_nm w)%N -> ext (HAdd p (DInd mu k) rest) (w_log w m) -> P m p ->
    evk (see_k w) (see_m w) D n k (Num xs) (Num ys) = Some M ->
    [/\ nr M = size xs, nc M = size ys & forall i j, (i < size xs)%N -> (j < size ys)%N ->
        ent M i j = ka p (nth [::] xs i) (nth [::] ys j)];
  rg_mean : forall m p mu' k rest n x xs v, (m < w_nm w)%N -> ext (HAdd p (DInd mu' k) rest) (w_log w m) -> P m p ->
    points x = Some xs -> evm (see_k w) (see_m w) D n mu' x = Some v -> v = map (mu p) xs;
  rg_noise : forall m pm par o, (m < w_nm w)%N -> base (w_log w m) = Some (pm, par, o) -> square_sym (o_noise o);
  rg_zero : forall d t, D d (fun=> 0) t = 0 }.

Variables (w : world R) (P : mid -> pid -> Prop) (mu : pid -> point -> R) (ka : pid -> point -> point -> R).
Hypothesis I : winv w.
Hypothesis Rg : regular w P mu ka.

Definition nz (m : mid) (i j : nat) : R :=
  if base (w_log w m) is Some (_, _, o) then
    let F := full_noise o in
    if [&& (m < w_nm w)%N, (i < nr F)%N & (j < nr F)%N] then ent F i j else 0
  else 0.
Definition wkap (a b : atom_) : R :=
  match a, b with
  | AG p s, AG q t => if p == q then ka p s t else 0
  | AE m i, AE m' j => if m == m' then nz m i j else 0
  | _, _ => 0
  end.
Definition wmean (a : atom_) : R := if a is AG p s then mu p s else 0.

Lemma nz_sym m i j : nz m i j = nz m j i.
Proof.
rewrite /nz; case e: (base _) => [[[pm par] o]|] //; rewrite (andbC (j < _)%N).
by case: and3P => // -[lt li lj]; have [_ H] := full_sym (rg_noise Rg lt e); apply: H.
Qed.
Lemma wkap_sym a b : wkap a b = wkap b a.
Proof.
case: a b => [p s|m i] [q t|m' j] //=; rewrite eq_sym; case: eqP => // ->; first by rewrite (rg_sym Rg).
exact: nz_sym.
Qed.
Lemma wkap_lab a b : alab a != alab b -> wkap a b = 0.
Proof. by case: a b => [p s|m i] [q t|m' j] //= H; case: (_ =P _) => // e; move: H; rewrite e eqxx. Qed.

Definition W : space R := formal wmean wkap_sym.
Definition G (p : pid) (t : point) : rv W := f_atom R (AG p t).
Definition eps (m : mid) (i : nat) : rv W := f_atom R (AE m i).

Lemma wcov a b : @cov R W (f_atom R a) (f_atom R b) = wkap a b. Proof. exact: f_atom_cov. Qed.
Lemma wEx a : @Ex R W (f_atom R a) = wmean a. Proof. exact: f_atom_Ex. Qed.

Lemma ind_points m p mu0 k rest x u : denotes D G eps m (HAdd p (DInd mu0 k) rest) p x u ->
  exists2 xs, points x = Some xs & u = map (G p) xs.
Proof.
elim=> [xs v|q y v||y xs v v' _ [ys e1 ->] _ [ys' e2 ->]] /=; rewrite ?eqxx.
- by case=> ys [->] ->; exists ys.
- by case.
- by exists [::].
exists (ys ++ ys'); last by rewrite map_cat.
by move: e2; rewrite /= e1 => ->.
Qed.

Theorem formal_valid : valid D G eps w P.
Proof.
split; try (by case: Rg).
- move=> m p mu0 k rest n xs ys M lt E Pp Ev; have [e1 e2 e3] := rg_cov Rg lt E Pp Ev.
  split=> [||i j]; rewrite ?size_map // => li lj.
  by rewrite /vget !(nth_map [::]) // e3 // wcov /= eqxx.
- move=> m p mu0 k rest n x u v lt E Pp Du Ev.
  have Hp : p \in pids (HAdd p (DInd mu0 k) rest) by rewrite inE eqxx.
  move: Du; rewrite (full D G eps I lt E Hp) => /ind_points [xs Hx ->].
  rewrite (rg_mean Rg lt E Pp Hx Ev) -map_comp; apply: eq_map => t.
  by apply: (esym (wEx (AG p t))).
- by move=> m p mu0 k lr rest n xs ys M lt E /(rg_user Rg lt E).
- by move=> m p mu0 k lr rest n x u v lt E /(rg_user Rg lt E).
- by move=> m p mu0 k lr rest q kq n xs y v M lt E /(rg_user Rg lt E).
- by move=> p q s t /eqP ne _ _; rewrite wcov /= (negbTE ne).
- move=> m p mu0 k rest q s t lt E Hq; rewrite wcov /=; case: eqP => // e; subst q.
  by have /and3P [/negP H _ _] := wfe I lt E; case: H.
- by move=> m i p t; rewrite wcov.
- by move=> m m' i j /eqP ne; rewrite wcov /= (negbTE ne).
- move=> m pm par o lt e; split=> [i|i j li lj]; first by rewrite wEx.
  have [sq _] := rg_noise Rg lt e; rewrite -sq in lj.
  by rewrite wcov [wkap _ _]/= eqxx /nz e lt /= !ltn_addr // li lj.
- move=> m pm par o d lt e Eo; split=> [i j li|i j li lj]; rewrite wcov [wkap _ _]/= eqxx /nz e lt [andb _ _]/=.
    case: ifP => // /andP [_ lj] /=.
    rewrite (_ : (nr (o_noise o) + j < nr (o_noise o))%N = false); last by lia.
    by rewrite andbF; case: eqP => // ei; lia.
  rewrite /= /data_noise Eo !ltn_add2l li lj.
  rewrite (_ : (nr (o_noise o) + i < nr (o_noise o))%N = false); last by lia.
  by rewrite /= eqn_add2l leq_addr andbT addKn.
Qed.

(* Multi-output processes were constructed after the independent ones. *)
Definition crosslast (w : world R) (P : mid -> pid -> Prop) : Prop :=
  forall m p mu k rest q, (m < w_nm w)%N -> ext (HAdd p (DInd mu k) rest) (w_log w m) -> P m p ->
    P m q -> crossfree rest q.
Lemma crosslast_ordered (W' : space R) (G' : pid -> point -> rv W') eps' : crosslast w P -> ordered D G' eps' w P.
Proof.
move=> C m p mu0 k rest q y v lt E Pp Pq Hq.
by have [ys -> ->] := crossfree_ne (C _ _ _ _ _ _ lt E Pp Pq) Hq.
Qed.
End World.
