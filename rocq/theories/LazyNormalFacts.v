(* Proofs about the lazy accessors. *)
From mathcomp Require Import all_ssreflect all_algebra.
From Verif Require Import NormalSpec NormalLazy.
Set Implicit Arguments. Unset Strict Implicit. Unset Printing Implicit Defensive.
Import Order.TTheory GRing.Theory Num.Theory.
Local Open Scope ring_scope.

Arguments resolve_var : simpl never.
Arguments get_var : simpl never.
Arguments resolve_mean : simpl never.
Arguments get_mean : simpl never.
Arguments resolve_var_diag : simpl never.
Arguments get_var_diag : simpl never.
Arguments mean_is_zero : simpl never.

Section Facts.
Variables (R : realFieldType) (n : nat) (m : 'cV[R]_n) (V : 'M[R]_n).
Notation vec := ('I_n -> R).

(* [is_mean x]: [x] is a representation of the mean. *)
Variable is_mean : mval R n -> Prop.
Hypothesis mean_col : forall x, is_mean x -> column x = m.
Hypothesis mean_zeros : is_mean MScalar0 -> is_mean (MVec 0).
Definition is_diag (d : vec) : Prop := forall i, d i = V i i.
Definition o_all A (P : A -> Prop) (o : option A) : Prop := if o is Some a then P a else True.

Record consistent (c : ctor R n) (s : attrs R n) : Prop := Consistent {
  k_mean : o_all is_mean (c_mean c);
  k_var : o_all (eq V) (c_var c);
  k_diag : o_all is_diag (c_var_diag c);
  k_mean_var : o_all (fun r => is_mean r.1 /\ V = r.2) (c_mean_var c);
  k_mean_diag : o_all (fun r => is_mean r.1 /\ is_diag r.2) (c_mean_var_diag c);
  k_smean : o_all is_mean (a_mean s);
  k_szero : o_all (fun b : bool => b -> m = 0) (a_zero s);
  k_svar : o_all (eq V) (a_var s);
  k_sdiag : o_all is_diag (a_diag s);
  k_have_mean : c_mean c || a_mean s;
  k_have_var : c_var c || a_var s }.

Lemma resolve_varP c s : consistent c s -> exists s', [/\ resolve_var c s = Some (tt, s'), consistent c s' &
  [/\ a_var s' = Some V, a_mean s' = a_mean s, a_zero s' = a_zero s & a_diag s' = a_diag s]].
Proof.
case: s => sm sz sv sd [] /= k1 k2 k3 k4 k5 k6 k7 k8 k9 h1 h2; rewrite /resolve_var /bind /get /=.
case: sv k8 h2 => [v <- _|_]; first by exists (Attrs sm sz (Some V) sd); split=> //; split=> //; rewrite orbT.
rewrite orbF; case E: (c_var c) k2 => [v|] //= k2 _; rewrite /attr E -k2.
by exists (Attrs sm sz (Some V) sd); split=> //; split=> //; rewrite ?orbT // E.
Qed.
Lemma get_varP c s : consistent c s -> exists s', [/\ get_var c s = Some (V, s'), consistent c s' &
  [/\ a_var s' = Some V, a_mean s' = a_mean s, a_zero s' = a_zero s & a_diag s' = a_diag s]].
Proof.
move=> C; have [s' [E C' [v k]]] := resolve_varP C; exists s'; split=> //.
by rewrite /get_var /bind E /need v.
Qed.
Lemma looks_zeroP x : is_mean x -> looks_zero x -> m = 0.
Proof. by move=> /mean_col <-; case: x. Qed.

(* The part of [resolve_mean] before the zeros. *)
Definition resolve_mean_1 : M R n unit :=
  bind (get (@a_mean R n)) (fun x => bind (if x is None then bind (attr (@c_mean R n)) (fun x => set (put_mean x)) else ret tt)
  (fun _ => bind (get (@a_zero R n)) (fun z => if z is None then bind (need (@a_mean R n)) (fun x => set (put_zero (looks_zero x))) else ret tt))).
Lemma resolve_mean_1P c s : consistent c s -> exists s' x, [/\ resolve_mean_1 c s = Some (tt, s'), consistent c s' &
  [/\ a_mean s' = Some x, isSome (a_zero s'), a_var s' = a_var s & a_diag s' = a_diag s]].
Proof.
case: s => sm sz sv sd C; rewrite /resolve_mean_1 /bind /get /=.
have [x [E Hx]] : exists x, (if sm is Some x then Some x else c_mean c) = Some x /\ is_mean x.
  case: C => /= k1 _ _ _ _ k6 _ _ _; case: sm k6 => [x|] k6; first by exists x.
  by rewrite orbF; case E: (c_mean c) k1 => [x|] //= k1 _; exists x.
exists (Attrs (Some x) (Some (if sz is Some b then b else looks_zero x)) sv sd), x; split=> //.
  by case: sm E {C} => [y [->]|E]; rewrite /attr ?E /= /need; case: sz.
case: C => /= k1 k2 k3 k4 k5 k6 k7 k8 k9 h1 h2; split=> //=; last by rewrite orbT.
by case: sz k7 => // _; apply: looks_zeroP.
Qed.
Lemma resolve_meanE b c s s' x : resolve_mean_1 c s = Some (tt, s') -> a_mean s' = Some x ->
  resolve_mean b c s = (if scalar0 x && b then bind (@get_var R n) (fun=> set (put_mean (MVec 0))) else ret tt) c s'.
Proof.
rewrite /resolve_mean /resolve_mean_1 /bind /get /need /=.
case: (if a_mean s is None then _ else _) => [[[] s1]|] //=.
case: (a_zero s1) => [z|] /=.
  by rewrite /ret => -[<-] ->; case: (scalar0 x && b).
case: (a_mean s1) => [y|] // [<-] /= ->; by case: (scalar0 x && b).
Qed.
Lemma resolve_meanP b c s : consistent c s -> exists s' x, [/\ resolve_mean b c s = Some (tt, s'), consistent c s' &
  [/\ a_mean s' = Some x, is_mean x, isSome (a_zero s') & b -> ~~ scalar0 x]].
Proof.
move=> /resolve_mean_1P [s1 [x [E C [mx zx vx dx]]]]; rewrite (resolve_meanE b E mx).
have Hx : is_mean x by have := k_smean C; rewrite mx.
case: ifPn => [/andP[s0 _]|sc]; last by exists s1, x; do 2!split=> //; move=> bt; move: sc; rewrite bt andbT.
have [s2 [E2 C2 [v2 m2' z2 d2]]] := get_varP C; rewrite /bind E2 /set.
have H0 : is_mean (MVec 0) by case: (x) Hx s0 => // /mean_zeros.
exists (put_mean (MVec 0) s2), (MVec 0); split=> //; last by rewrite /= z2.
by case: C2 => *; split=> //=; rewrite orbT.
Qed.
Lemma get_meanP c s : consistent c s -> exists s' x, [/\ get_mean c s = Some (x, s'), consistent c s', is_mean x & ~~ scalar0 x].
Proof.
move=> /(resolve_meanP true) [s' [x [E C [mx Hx _ d]]]]; exists s', x; split=> //; last exact: d.
by rewrite /get_mean /bind E /need mx.
Qed.
Lemma mean_is_zeroP c s : consistent c s -> exists s' b, [/\ mean_is_zero c s = Some (b, s'), consistent c s' & b -> m = 0].
Proof.
move=> /(resolve_meanP false) [s' [x [E C [mx Hx zx d]]]]; rewrite /mean_is_zero /bind E /need.
by have := k_szero C; case: (a_zero s') zx => //= b _ h; exists s', b.
Qed.
Lemma get_var_diagP c s : consistent c s -> exists s' d, [/\ get_var_diag c s = Some (d, s'), consistent c s' & is_diag d].
Proof.
move=> C; rewrite /get_var_diag /resolve_var_diag /bind /get /=.
case E: (a_diag s) => [d|]; first by exists s, d; have := k_sdiag C; rewrite /need /= E => h; split.
rewrite /conf /=; case Ec: (c_var_diag c) => [d|].
  have dd : is_diag d by have := k_diag C; rewrite Ec.
  by exists (put_diag d s), d; split=> //; case: C => *; split.
have [s' [-> C' [v' m' z' d']]] := get_varP C; have dd : is_diag (fun i => V i i) by [].
by exists (put_diag (fun i => V i i) s'), (fun i => V i i); split=> //; case: C' => *; split.
Qed.

Lemma mean_varP c s : consistent c s -> exists s' x, [/\ mean_var c s = Some ((x, V), s'), consistent c s' & is_mean x].
Proof.
move=> C; rewrite /mean_var {1}/bind /get {1}/bind.
case Em: (a_mean s) => [x|]; case Ev: (a_var s) => [v|].
- by exists s, x; have := k_smean C; have := k_svar C; rewrite Em Ev => /= <-.
- have [s' [E C' _]] := get_varP C; exists s', x; rewrite /bind E; split=> //.
  by have := k_smean C; rewrite Em.
- have [s' [x [E C' Hx _]]] := get_meanP C; exists s', x; rewrite /bind E; split=> //.
  by have := k_svar C; rewrite Ev => /= <-.
rewrite /bind /conf; have := k_mean_var C; case: (c_mean_var c) => [[x v]|] /= => [[Hx vV]|_].
  have C1 : consistent c (put_var v (put_mean x s)) by case: C => *; split=> //=; rewrite ?orbT.
  have [s2 [x2 [-> C2 _]]] := resolve_meanP true C1.
  have [s3 [-> C3 _]] := resolve_varP C2; have [s4 [x4 [-> C4 H4 _]]] := get_meanP C3.
  by have [s5 [-> C5 _]] := get_varP C4; exists s5, x4.
have [s4 [x4 [-> C4 H4 _]]] := get_meanP C.
by have [s5 [-> C5 _]] := get_varP C4; exists s5, x4.
Qed.
Lemma m2P c s : consistent c s -> exists s', m2 c s = Some (V + m *m m^T, s') /\ consistent c s'.
Proof.
move=> /get_varP [s1 [E1 /get_meanP [s2 [x [E2 C2 /mean_col <- _]]] _]].
by exists s2; rewrite /m2 /bind E1 E2.
Qed.
Lemma marginalsP c s : consistent c s -> exists s' x d, [/\ marginals c s = Some ((x, d), s'), consistent c s', is_mean x &
  forall i, d i = Num.max (V i i) 0].
Proof.
move=> C; have fin s1 (x : mval R n) d : is_diag d -> consistent c s1 -> is_mean x ->
    exists s' x' d', [/\ Some (x, fun i => Num.max (d i) 0, s1) = Some ((x', d'), s'), consistent c s', is_mean x' &
      forall i, d' i = Num.max (V i i) 0].
  by move=> hd C1 hx; exists s1, x, (fun i => Num.max (d i) 0); split=> // i; rewrite hd.
rewrite /marginals {1}/bind /get {1}/bind {1}/bind.
case Em: (a_mean s) => [x|]; case Ev: (a_diag s) => [d|].
- by apply: fin => //; [have := k_sdiag C; rewrite Ev | have := k_smean C; rewrite Em].
- have [s' [d [E C' hd]]] := get_var_diagP C; rewrite /bind E; apply: fin => //.
  by have := k_smean C; rewrite Em.
- have [s' [x [E C' Hx _]]] := get_meanP C; rewrite /bind E; apply: fin => //.
  by have := k_sdiag C; rewrite Ev.
rewrite /bind /conf; have := k_mean_diag C; case: (c_mean_var_diag c) => [[x d]|] /= => [[Hx hd]|_].
  have C1 : consistent c (put_diag d (put_mean x s)) by case: C => *; split=> //=; rewrite ?orbT.
  have [s2 [x2 [-> C2 _]]] := resolve_meanP true C1.
  have [s4 [x4 [-> C4 H4 _]]] := get_meanP C2; have [s5 [d5 [-> C5 h5]]] := get_var_diagP C4.
  exact: fin.
have [s4 [x4 [-> C4 H4 _]]] := get_meanP C; have [s5 [d5 [-> C5 h5]]] := get_var_diagP C4.
exact: fin.
Qed.
Lemma diagonaliseP c s : consistent c s -> exists s' x d, [/\ diagonalise c s = Some ((x, d), s'), consistent c s', is_mean x,
  ~~ scalar0 x & is_diag d].
Proof.
move=> /get_meanP [s1 [x [E1 C1 Hx s0]]]; have [s2 [d [E2 C2 hd]]] := get_var_diagP C1.
by exists s2, x, d; rewrite /diagonalise /bind E1 E2.
Qed.

Definition answer_ok (a : access) (r : answer R n) : Prop :=
  match a, r with
  | AMean, RMean x => is_mean x /\ ~~ scalar0 x
  | AZero, RZero b => b -> m = 0
  | AVar, RVar v => v = V
  | ADiag, RDiag d => is_diag d
  | AMeanVar, RMeanVar x v => is_mean x /\ v = V
  | AM2, RM2 v => v = V + m *m m^T
  | AMarginals, RMarginals x d => is_mean x /\ forall i, d i = Num.max (V i i) 0
  | ADiagonalise, RDiagonalise x d => [/\ is_mean x, ~~ scalar0 x & is_diag d]
  | _, _ => False
  end.
Lemma run_accessP a c s : consistent c s -> exists r s', [/\ run_access a c s = Some (r, s'), consistent c s' & answer_ok a r].
Proof.
move=> C; case: a; rewrite /run_access {1}/bind.
- by have [s' [x [-> C' Hx s0]]] := get_meanP C; exists (RMean x), s'.
- by have [s' [b [-> C' h]]] := mean_is_zeroP C; exists (RZero R n b), s'.
- by have [s' [-> C' _]] := get_varP C; exists (RVar V), s'.
- by have [s' [d [-> C' h]]] := get_var_diagP C; exists (RDiag d), s'.
- by have [s' [x [-> C' h]]] := mean_varP C; exists (RMeanVar x V), s'.
- by have [s' [-> C']] := m2P C; exists (RM2 (V + m *m m^T)), s'.
- by have [s' [x [d [-> C' hx hd]]]] := marginalsP C; exists (RMarginals x d), s'.
- by have [s' [x [d [-> C' hx s0 hd]]]] := diagonaliseP C; exists (RDiagonalise x d), s'.
Qed.
Lemma answersP l c s : consistent c s -> exists rs, answers c s l = Some rs /\ List.Forall2 answer_ok l rs.
Proof.
elim: l s => [|a l IH] s C /=; first by exists [::].
have [r [s' [-> C' h]]] := run_accessP a C; have [rs [-> H]] := IH _ C'.
by exists (r :: rs); split=> //; constructor.
Qed.
End Facts.
