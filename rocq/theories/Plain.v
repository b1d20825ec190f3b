(* Plain models have random variables: the hypotheses of the theorems about meaning are met. *)
From Coq Require Import List.
From mathcomp Require Import all_ssreflect all_algebra.
From mathcomp Require Import zify.
From Verif Require Import Graph Machine Refine Worlds Eval GraphSpec GraphProofs GraphOps RV RVProofs Sound Typing ModelSpec Formal ModelFacts.
Set Implicit Arguments. Unset Strict Implicit. Unset Printing Implicit Defensive.
Import GRing.Theory Num.Theory.
Local Open Scope ring_scope.

(* Properties of all logs that every operation keeps. *)
Section Keep.
Variable R : fieldType.
Implicit Types (w : world R) (h : hist R).
Variables (H : hist R -> Prop) (Q : pid -> pdef R -> Prop) (N : obs R -> Prop).
Hypotheses (H0 : H HRoot) (HA : forall p d h, Q p d -> H h -> H (HAdd p d h))
           (HP : forall m h o, N o -> H h -> H (HPost m h o)).
Definition walls w : Prop := forall m, H (w_log w m).
Definition wkeep A (c : act R A) : Prop := forall w, walls w -> walls (c w).1.

Lemma wkeep_bind A B (c : act R A) (f : A -> act R B) : wkeep c -> (forall a, wkeep (f a)) -> wkeep (abind c f).
Proof. move=> H1 H2 w /H1; rewrite /abind; case: (c w) => w1 [a| |] //= Hw; exact: H2. Qed.
Lemma wkeep_reads A (c : prog R A) : wkeep (reads c).
Proof. by move=> w Hl; rewrite /reads; case: (run _ _ _ _). Qed.
Lemma wkeep_define m p d : Q p d -> wkeep (@define R m p d).
Proof.
move=> Hd; apply: wkeep_bind => [|mu]; first exact: wkeep_reads.
apply: wkeep_bind => [|k w Hl m']; first exact: wkeep_reads.
by rewrite /= /log_set; case: eqP => [_|_]; [apply: HA => //; exact: Hl | exact: Hl].
Qed.
Lemma wkeep_iter A (f : A -> act R unit) ms : (forall a, wkeep (f a)) -> wkeep (aiter f ms).
Proof. by move=> Hf; elim: ms => [|a ms IH] //=; apply: wkeep_bind. Qed.
Lemma wkeep_unary p d w : Q (w_np w) d -> walls w -> walls (@unary R p d w).1.
Proof.
move=> Hd Hw; rewrite /unary /abind /=.
have := @wkeep_iter _ (fun m => define m (w_np w) d) (w_gm w p) (fun m => @wkeep_define m _ _ Hd).
move=> /(_ (World (w_heap w) (w_nm w) (w_np w).+1 (w_gm w) (w_log w)) Hw).
by case: (aiter _ _ _) => w1 [].
Qed.
Lemma wkeep_nary ps ord f w : (forall m, wkeep (f m (w_np w))) -> walls w -> walls (@nary R ps ord f w).1.
Proof.
move=> Hf Hw; rewrite /nary /abind /=; case: ifP => // _.
set w1 := World _ _ _ _ _.
have := @wkeep_iter _ (fun m => f m (w_np w)) (order ord (group w1 ps)) Hf w1 Hw.
by case: (aiter _ _ _) => w2 [].
Qed.

Definition hall_op w (o : op R) : Prop :=
  match o with
  | OMul _ _ _ => False
  | OCond _ ob => N ob
  | _ => forall d, law o = Some d -> Q (w_np w) d
  end.
Lemma wkeep_step o w : hall_op w o -> walls w -> walls (step w o).1.
Proof.
move=> Ho Hw; rewrite /step; case: ifP => // _.
have B m d : Q (w_np w) d ->
    walls (abind (@new_gp R) (fun p => abind (define m p d) (fun=> aret (RPid R p))) w).1.
  move=> Hd; rewrite /abind /=.
  have := @wkeep_define m _ _ Hd (World (w_heap w) (w_nm w) (w_np w).+1 (w_gm w) (w_log w)) Hw.
  by case: (define _ _ _ _) => w1 [].
have RD A (c : prog R A) (f : A -> result R) : walls (abind (reads c) (fun k => aret (f k)) w).1.
  by have := wkeep_reads c Hw; rewrite /abind; case: (reads c w) => w1 [].
case: o Ho => [|m mu k|m mu k lr rr|m p|p c|p f|p c|p f|p c|p s|p dims|p f|p d|p q ord|p q ord|ps ord|m o|m p q|m p] //=; rewrite /exec => Ho;
  try by [apply: B; apply: Ho | apply: wkeep_unary => //; apply: Ho | apply: RD].
- by move=> m; rewrite /= /log_set; case: eqP => // _; exact: Hw.
- exact: (B m (DInd mu k) (Ho _ erefl)).
- exact: (B m (DUser mu k lr) (Ho _ erefl)).
- by apply: (@wkeep_nary _ _ (fun m res => define m res (DSum p q))) => // m; apply: wkeep_define; apply: Ho.
- by apply: (@wkeep_nary _ _ (fun m res => define m res (DCross ps))) => // m; apply: wkeep_define; apply: Ho.
- move=> m'; rewrite /= /log_set; case: ifP => [_ /=|_]; last by case: ifP => // _; exact: Hw.
  by apply: HP => //; case: ifP => // _; exact: Hw.
Qed.
End Keep.

Section Hall.
Variable R : fieldType.
Variables (Q : pid -> pdef R -> Prop) (N : obs R -> Prop).
Implicit Types (w : world R) (h : hist R).

(* A property of all definitions and of all observations of a history. *)
Fixpoint hall h : Prop :=
  match h with
  | HRoot => True
  | HPost _ par o => N o /\ hall par
  | HAdd p d rest => Q p d /\ hall rest
  end.
Lemma hall_ext p d rest h : ext (HAdd p d rest) h -> hall h -> Q p d.
Proof. by elim=> [[]//|p' d' h' _ IH []]. Qed.
Lemma hall_base h pm par o : base h = Some (pm, par, o) -> hall h -> N o.
Proof. by elim: h => //= [pm' par' _ o' [_ _ <-] []|p d h IH /IH H []]. Qed.
Lemma hall_step o w : hall_op Q N w o -> walls hall w -> walls hall (step w o).1.
Proof. by apply: wkeep_step. Qed.
End Hall.

Section Plain.
Variable R : fieldType.
Variable D : nat -> (point R -> R) -> point R -> R.
Variables (mu : pid -> point R -> R) (ka : pid -> point R -> point R -> R).
Hypothesis D0 : forall d t, D d (fun=> 0) t = 0.
Hypothesis ka_sym : forall p s t, ka p s t = ka p t s.
Definition everywhere (m : mid) (p : pid) : Prop := True.

Definition plainQ (p : pid) (d : pdef R) : Prop :=
  match d with
  | DInd mu' k => is_mean D mu' (mu p) /\ is_kernel D k (ka p)
  | DUser _ _ _ => False
  | _ => True
  end.
Lemma plain_walls ops w : plain D mu ka w ops -> walls (hall plainQ (fun o => square_sym (o_noise o))) w ->
  walls (hall plainQ (fun o => square_sym (o_noise o))) (run_from w ops).
Proof.
elim: ops w => [|o ops IH] w //= [Ho Hops] Hw; apply: IH => //; apply: hall_step Hw.
by case: o Ho {Hops} => //= [m mu' k [H1 H2] d [<-]|m p|p c|p f|p c|p f|p c|p s|p dims|p f|p d|p q ord|ps ord] //= _ d' [<-].
Qed.
Lemma plain_regular ops : plain D mu ka world0 ops -> regular D (run_ops ops) everywhere mu ka.
Proof.
move=> /plain_walls H; have {}H : walls (hall plainQ (fun o => square_sym (o_noise o))) (run_ops ops) by apply: H.
split=> //.
- by move=> m p mu' k lr rest _ /hall_ext /(_ (H m)).
- by move=> m p mu' k rest n xs ys M _ /hall_ext /(_ (H m)) [_ Hk] _; apply: Hk.
- by move=> m p mu' k rest n x xs v _ /hall_ext /(_ (H m)) [Hm _] _; apply: Hm.
- by move=> m pm par o _ /hall_base /(_ (H m)).
Qed.

(* Order. *)
Fixpoint nocross (h : hist R) : Prop :=
  match h with
  | HRoot => True
  | HPost _ par _ => nocross par
  | HAdd _ d rest => (if d is DCross _ then False else True) /\ nocross rest
  end.
Fixpoint indfirst (h : hist R) : Prop :=
  match h with
  | HRoot => True
  | HPost _ par _ => indfirst par
  | HAdd _ d rest => (if d is DInd _ _ then nocross rest else True) /\ indfirst rest
  end.
Lemma nocross_free h q : nocross h -> crossfree h q.
Proof.
elim: h q => [|pm par IH o|r d rest IH] q //=; first exact: IH.
case=> Hd Hr; case: eqP => _; last exact: IH.
apply/andP; split; first by case: d Hd.
by apply/allP => a _; exact: IH.
Qed.
Lemma indfirst_ext p mu0 k rest h : ext (HAdd p (DInd mu0 k) rest) h -> indfirst h -> nocross rest.
Proof. by elim=> [[]//|p' d' h' _ IH []]. Qed.
Lemma indfirst_from ops w : ~~ has (@is_gp R) ops -> walls indfirst w -> walls indfirst (run_from w ops).
Proof.
elim: ops w => [|o ops IH] w //=; rewrite negb_or => /andP [Ho Hops] Hw; apply: IH => //.
apply: (@wkeep_step R indfirst (fun _ d => if d is DInd _ _ then False else True) (fun=> True)) => //.
- by move=> p d h; case: d.
- by case: o Ho => //= *; match goal with E : Some _ = Some _ |- _ => by case: E => <- end.
Qed.
Lemma gp_first_from ops w : plain D mu ka w ops -> gp_first ops ->
  walls nocross w -> walls indfirst w -> walls indfirst (run_from w ops).
Proof.
elim: ops w => [|o ops IH] w //= [Po Pops] Ho Hn Hw.
case Ec: (if o is OCross _ _ then true else false).
  apply: (@indfirst_from (o :: ops)) => //=; case: o Ec Ho {Po Pops} => //= ps ord _.
have K : walls (fun h => nocross h /\ indfirst h) (step w o).1.
  apply: (@wkeep_step R _ (fun _ d => if d is DCross _ then False else True) (fun=> True)) => //.
  - by move=> p d h Hd [H1 H2] /=; split; split=> //; case: (d).
  - by case: o Ec Po {Ho Pops} => //= *; match goal with E : Some _ = Some _ |- _ => by case: E => <- end.
apply: IH => //; try by move=> m; case: (K m).
by case: o Ec Ho {Po Pops K}.
Qed.
Lemma gp_first_last ops : plain D mu ka world0 ops -> gp_first ops -> crosslast (run_ops ops) everywhere.
Proof.
move=> Hp Hg m p mu0 k rest q lt E _ _; apply: nocross_free; apply: indfirst_ext E _.
exact: (gp_first_from Hp Hg).
Qed.
End Plain.

(* The random variables of a plain model. *)
Section Exists.
Variable R : fieldType.
Variable D : nat -> (point R -> R) -> point R -> R.
Variables (mu : pid -> point R -> R) (ka : pid -> point R -> point R -> R).
Hypothesis D0 : forall d t, D d (fun=> 0) t = 0.
Hypothesis ka_sym : forall p s t, ka p s t = ka p t s.
Variable ops : seq (op R).
Hypothesis Hp : plain D mu ka world0 ops.
Hypothesis Hg : gp_first ops.
Let Rg := plain_regular D0 ka_sym Hp.
Definition pW := Formal.W Rg.
Definition pG : pid -> point R -> rv pW := Formal.G Rg.
Definition peps : mid -> nat -> rv pW := Formal.eps Rg.

Lemma plain_model : model D pG peps (run_ops ops) everywhere.
Proof.
split; first exact: (formal_valid (winv_run ops) Rg).
by apply: crosslast_ordered; apply: gp_first_last Hp Hg.
Qed.
Lemma plain_at m p x k : (m < w_nm (run_ops ops))%N -> widths false (w_log (run_ops ops) m) p x = Some k ->
  exists2 u, is_at D pG peps (run_ops ops) m p x u & size u = k.
Proof.
move=> lt Hw; have der_ok : false -> forall d F, derivative D d F ((fun _ _ _ => rone pW) d F) by [].
have [u Hu su] := denotes_exists (W := pW) pG peps der_ok (winvid_run ops m) Hw.
by exists u.
Qed.
End Exists.

Section PlainPsd.
Variable R : realFieldType.
Variable D : nat -> (point R -> R) -> point R -> R.
Variables (mu : pid -> point R -> R) (ka : pid -> point R -> point R -> R).
Hypothesis D0 : forall d t, D d (fun=> 0) t = 0.
Hypothesis ka_sym : forall p s t, ka p s t = ka p t s.
Hypothesis ka_psd : forall p, psd_fun (ka p).
Variable ops : seq (op R).
Hypothesis Hp : plain D mu ka world0 ops.
Hypothesis Hn : psd_noise ops.

Lemma noise_walls os w : plain D mu ka w os -> psd_noise os ->
  walls (hall (fun _ _ => True) (fun o => psd_matrix (full_noise o))) w ->
  walls (hall (fun _ _ => True) (fun o => psd_matrix (full_noise o))) (run_from w os).
Proof.
elim: os w => [|o os IH] w //= [Po Pos] Hno Hw; apply: IH => //; first by move=> m o' Hin; apply: (Hno m); right.
apply: hall_step Hw; case: o Po Hno {Pos} => //= m o' _ Hno; have [|H1 H2] := Hno m o'; [by left|exact: full_psd].
Qed.

Lemma plain_psd (v : rv (pW D0 ka_sym Hp)) : 0 <= cov v v.
Proof.
suff H : forall l, 0 <= quad (wkap (run_ops ops) ka) l by exact: (H v.2).
apply: (quad_ge0 (wkap_lab (run_ops ops) ka)).
case=> [p|m] l /all_filterP <-.
  have := ka_psd p [seq (a.1, if a.2 is AG _ t then t else [::]) | a <- l & alab a.2 == inl p].
  rewrite /quad big_map !big_filter; congr (_ <= _); apply: eq_bigr => -[c [q s|//]] /eqP [->].
  rewrite big_map !big_filter; apply: eq_bigr => -[c' [q' t|//]] /eqP [->] /=.
  by rewrite eqxx.
have W0 : walls (hall (fun _ _ => True) (fun o => psd_matrix (full_noise o))) (@world0 R) by [].
have Wn := noise_walls Hp Hn W0 m.
set l' := filter _ l.
have -> : quad (wkap (run_ops ops) ka) l' = quad (nz (run_ops ops) m) [seq (a.1, if a.2 is AE _ i then i else 0%N) | a <- l'].
  rewrite /quad big_map /l' !big_filter; apply: eq_bigr => -[c [//|m1 i]] /eqP [->].
  rewrite big_map !big_filter; apply: eq_bigr => -[c' [//|m2 j]] /eqP [->] /=.
  by rewrite eqxx.
move: [seq _ | _ <- l'] => {l l'} l; rewrite /nz.
case E: (base _) => [[[pm par] o]|]; last first.
  by rewrite /quad big1 // => a _; rewrite big1 // => b _; rewrite mulr0.
case: ltnP => lt /=; last by rewrite /quad big1 // => a _; rewrite big1 // => b _; rewrite mulr0.
have := hall_base E Wn [seq a <- l | (a.2 < nr (full_noise o))%N] (filter_all _ _).
rewrite /quad big_filter big_mkcond /=; congr (_ <= _); apply: eq_bigr => a _; case: ifP => li; last first.
  by rewrite big1 // => b _; rewrite mulr0.
by rewrite big_filter big_mkcond /=; apply: eq_bigr => b _; case: ifP => lj; rewrite ?mulr0.
Qed.
End PlainPsd.
