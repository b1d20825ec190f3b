(* Proofs about mean_is_zero: it tells how the mean was given, in every order of accesses. *)
From mathcomp Require Import all_ssreflect all_algebra.
From Verif Require Import NormalLazy LazyNormalFacts LazyNormalSpec.
Set Implicit Arguments. Unset Strict Implicit. Unset Printing Implicit Defensive.
Import Order.TTheory GRing.Theory Num.Theory.
Local Open Scope ring_scope.

Section Zero.
Variables (R : realFieldType) (n : nat) (P : mval R n -> Prop) (z : bool).
Hypothesis PE : forall x, P x -> looks_zero x = z.
Notation M := (M R n). Notation ctor := (ctor R n). Notation attrs := (attrs R n).

Definition given (c : ctor) : Prop :=
  [/\ o_all P (c_mean c), o_all (fun r => P r.1) (c_mean_var c) & o_all (fun r => P r.1) (c_mean_var_diag c)].
Definition inv (s : attrs) : Prop :=
  if a_zero s is Some b then b = z else o_all P (a_mean s).
Record safe A (m : M A) (Q : A -> Prop) : Prop := Safe {
  safeP : forall c s a s', given c -> inv s -> m c s = Some (a, s') -> inv s' /\ Q a }.

Lemma safe_bind A B (m : M A) (f : A -> M B) Q Q' : safe m Q -> (forall a, Q a -> safe (f a) Q') -> safe (bind m f) Q'.
Proof.
move=> H1 H2; split=> c s b s' g i; rewrite /bind; case E: (m c s) => [[a s1]|] // E2.
have [i1 q] := safeP H1 g i E; exact: (safeP (H2 _ q) g i1 E2).
Qed.
Lemma safe_ret A (a : A) (Q : A -> Prop) : Q a -> safe (ret a) Q.
Proof. by move=> q; split=> c s b s' _ i [<- <-]. Qed.
Lemma safe_get A (f : attrs -> A) : safe (get f) (fun=> True).
Proof. by split=> c s a s' _ i [_ <-]. Qed.
Lemma safe_need A (f : attrs -> option A) : safe (need f) (fun=> True).
Proof. by split=> c s a s' _ i; rewrite /need; case: (f s) => // b [_ <-]. Qed.
Lemma safe_attr A (f : ctor -> option A) : safe (attr f) (fun=> True).
Proof. by split=> c s a s' _ i; rewrite /attr; case: (f c) => // b [_ <-]. Qed.
Lemma safe_conf A (f : ctor -> A) (Q : A -> Prop) : (forall c, given c -> Q (f c)) -> safe (conf f) Q.
Proof. by move=> H; split=> c s a s' g i [<- <-]; split=> //; apply: H. Qed.
Lemma safe_put_mean x : P x -> safe (set (put_mean x)) (fun=> True).
Proof. by move=> px; split=> c s a s' _ i [_ <-]; split=> //; move: i; rewrite /inv /=; case: (a_zero s). Qed.
Lemma safe_put_var v : safe (set (@put_var R n v)) (fun=> True).
Proof. by split=> c s a s' _ i [_ <-]. Qed.
Lemma safe_put_diag v : safe (set (@put_diag R n v)) (fun=> True).
Proof. by split=> c s a s' _ i [_ <-]. Qed.
Lemma safe_weak A (m : M A) (Q Q' : A -> Prop) : safe m Q -> (forall a, Q a -> Q' a) -> safe m Q'.
Proof. by move=> H h; split=> c s a s' g i /(safeP H g i) [? /h]. Qed.

Lemma safe_resolve_var : safe (@resolve_var R n) (fun=> True).
Proof.
refine (safe_bind (safe_get _) _) => -[v|] _; first exact: safe_ret.
refine (safe_bind (safe_attr _) _) => v _; exact: safe_put_var.
Qed.
Lemma safe_get_var : safe (@get_var R n) (fun=> True).
Proof. by refine (safe_bind safe_resolve_var _) => _ _; apply: safe_need. Qed.

(* After [resolve_mean] the flag is set. *)
Lemma resolve_mean_flag b c s s' : given c -> inv s -> @resolve_mean R n b c s = Some (tt, s') -> a_zero s' = Some z.
Proof.
move=> g i; rewrite /resolve_mean {1}/bind /get {1}/bind.
have H : forall s1, inv s1 -> (if a_mean s1 is Some _ then True else False) ->
  (bind (get (@a_zero R n)) (fun z0 => bind (if z0 is None then bind (need (@a_mean R n)) (fun m => set (put_zero (looks_zero m))) else ret tt)
   (fun=> bind (need (@a_mean R n)) (fun m => if scalar0 m && b then bind (@get_var R n) (fun=> set (put_mean (MVec 0))) else ret tt)))) c s1 = Some (tt, s') ->
   a_zero s' = Some z.
  move=> s1 i1 hm; rewrite {1}/bind /get.
  have K : forall s2, a_zero s2 = Some z -> bind (need (@a_mean R n)) (fun m => if scalar0 m && b then bind (@get_var R n) (fun=> set (put_mean (MVec 0))) else ret tt) c s2 = Some (tt, s') -> a_zero s' = Some z.
    move=> s2 h2; rewrite {1}/bind /need; case: (a_mean s2) => // x; case: ifP => _; last by case=> <-.
    rewrite /bind; case E: (get_var c s2) => [[v s3]|] // [<-] /=.
    move: E; rewrite /get_var /resolve_var /bind /get; case: (a_var s2) => [v2|].
      by rewrite /ret /need; case: (a_var s2) => // ? [_ <-].
    by rewrite /attr /set /need; case: (c_var c) => // ? [_ <-].
  move: i1; rewrite /inv; case E0: (a_zero s1) => [b0|] i1; rewrite {1}/bind.
    by apply: K; rewrite E0 i1.
  case Em: (a_mean s1) hm i1 => [x|] // _ px; rewrite {1}/bind /need Em; apply: K => /=.
  by rewrite (PE px).
move: i; case Em: (a_mean s) => [x|] i; first by apply: H => //; rewrite Em.
rewrite /bind /attr; case Ec: (c_mean c) => [x|] //; apply: H => //.
move: i; rewrite /inv /=; case: (a_zero s) => // _; case: g; by rewrite Ec.
Qed.
Lemma safe_resolve_mean b : safe (@resolve_mean R n b) (fun=> True).
Proof.
by split=> c s [] s' g i /(resolve_mean_flag g i) E; rewrite /inv E.
Qed.
Lemma safe_get_mean : safe (@get_mean R n) (fun=> True).
Proof. by refine (safe_bind (safe_resolve_mean _) _) => _ _; apply: safe_need. Qed.
Lemma safe_mean_is_zero : safe (@mean_is_zero R n) (fun b => b = z).
Proof.
split=> c s b s' g i; rewrite /mean_is_zero /bind; case E: (resolve_mean false c s) => [[[] s1]|] //.
by have E1 := resolve_mean_flag g i E; rewrite /need E1 => -[<- <-]; rewrite /inv E1.
Qed.
Lemma safe_get_var_diag : safe (@get_var_diag R n) (fun=> True).
Proof.
refine (safe_bind (Q:=fun=> True) _ _) => [|_ _]; last exact: safe_need.
refine (safe_bind (safe_get _) _) => -[v|] _; first exact: safe_ret.
refine (safe_bind (safe_conf (Q:=(fun=> True)) _) _) => // -[v|] _; first exact: safe_put_diag.
refine (safe_bind safe_get_var _) => v _; exact: safe_put_diag.
Qed.
Lemma safe_mean_var : safe (@mean_var R n) (fun=> True).
Proof.
refine (safe_bind (safe_get _) _) => m _; refine (safe_bind (safe_get _) _) => v _.
case: m v => [m|] [v|].
- exact: safe_ret.
- by refine (safe_bind safe_get_var _) => w _; apply: safe_ret.
- by refine (safe_bind safe_get_mean _) => w _; apply: safe_ret.
refine (safe_bind (safe_conf (Q:=o_all (fun r => P r.1)) _) _) => [c []|] // f pf.
refine (safe_bind (Q:=fun=> True) _ _) => [|_ _].
  case: f pf => [[m v]|] /= pf; last exact: safe_ret.
  refine (safe_bind (safe_put_mean pf) _) => _ _; refine (safe_bind (safe_put_var _) _) => _ _.
  by refine (safe_bind (safe_resolve_mean _) _) => _ _; apply: safe_resolve_var.
refine (safe_bind safe_get_mean _) => m _; refine (safe_bind safe_get_var _) => v _; exact: safe_ret.
Qed.
Lemma safe_marginals : safe (@marginals R n) (fun=> True).
Proof.
refine (safe_bind (safe_get _) _) => m _; refine (safe_bind (safe_get _) _) => v _.
refine (safe_bind (Q:=fun=> True) _ _) => [|r _]; last exact: safe_ret.
case: m v => [m|] [v|].
- exact: safe_ret.
- by refine (safe_bind safe_get_var_diag _) => w _; apply: safe_ret.
- by refine (safe_bind safe_get_mean _) => w _; apply: safe_ret.
refine (safe_bind (safe_conf (Q:=o_all (fun r => P r.1)) _) _) => [c []|] // f pf.
refine (safe_bind (Q:=fun=> True) _ _) => [|_ _].
  case: f pf => [[m v]|] /= pf; last exact: safe_ret.
  refine (safe_bind (safe_put_mean pf) _) => _ _; refine (safe_bind (safe_put_diag _) _) => _ _.
  exact: safe_resolve_mean.
refine (safe_bind safe_get_mean _) => m _; refine (safe_bind safe_get_var_diag _) => v _; exact: safe_ret.
Qed.

Definition flag_ok (r : answer R n) : Prop := if r is RZero b then b = z else True.
Lemma safe_access a : safe (@run_access R n a) flag_ok.
Proof.
case: a => /=.
- by refine (safe_bind safe_get_mean _) => ? _; apply: safe_ret.
- by refine (safe_bind safe_mean_is_zero _) => b e; apply: safe_ret.
- by refine (safe_bind safe_get_var _) => ? _; apply: safe_ret.
- by refine (safe_bind safe_get_var_diag _) => ? _; apply: safe_ret.
- by refine (safe_bind safe_mean_var _) => ? _; apply: safe_ret.
- refine (safe_bind (Q:=fun=> True) _ _) => [|? _]; last exact: safe_ret.
  by refine (safe_bind safe_get_var _) => ? _; refine (safe_bind safe_get_mean _) => ? _; apply: safe_ret.
- by refine (safe_bind safe_marginals _) => ? _; apply: safe_ret.
- refine (safe_bind (Q:=fun=> True) _ _) => [|? _]; last exact: safe_ret.
  by refine (safe_bind safe_get_mean _) => ? _; refine (safe_bind safe_get_var_diag _) => ? _; apply: safe_ret.
Qed.
Lemma flags c s l rs : given c -> inv s -> answers c s l = Some rs -> List.Forall flag_ok rs.
Proof.
move=> g; elim: l s rs => [|a l IH] s rs i /=; first by case=> <-; constructor.
case E: (run_access a c s) => [[r s']|] //; have [i' q] := safeP (safe_access a) g i E.
by case E2: (answers c s' l) => [rs'|] //= -[<-]; constructor=> //; apply: IH E2.
Qed.
End Zero.

Section Thms.
Variables (R : realFieldType) (n : nat).
Lemma zero_direct (x : mval R n) V l rs : ask (normal_direct x V) l = Some rs ->
  List.Forall (flag_is (zero_given x)) rs.
Proof.
have PE y : y = x -> looks_zero y = zero_given x by move=> ->; case: x.
by apply: (flags PE) => //; split.
Qed.
Lemma zero_fdd (x : mval R n) k d e l rs : ask (fdd x k d e) l = Some rs ->
  List.Forall (flag_is (zero_given x)) rs.
Proof.
have PE y : y = x -> looks_zero y = zero_given x by move=> ->; case: x.
by apply: (flags PE) => //; split.
Qed.
Lemma zero_lazy (x : mval R n) V d mv md l rs b :
  zero_given x = b -> (forall y v, mv = Some (y, v) -> zero_given y = b) ->
  (forall y f, md = Some (y, f) -> zero_given y = b) ->
  ask (normal_lazy x V d mv md) l = Some rs -> List.Forall (flag_is b) rs.
Proof.
move=> hx hv hd; have PE (y : mval R n) : zero_given y = b -> looks_zero y = b by move=> <-; case: y.
apply: (flags PE); split=> //=.
  by case: mv hv => //= -[y v] /(_ _ _ erefl).
by case: md hd => //= -[y v] /(_ _ _ erefl).
Qed.
Lemma zero_ex : exists (o : obj R n) V, distribution o 0 V /\
  ask o [:: AZero; AMean; AZero] = Some [:: RZero R n true; RMean (MVec 0); RZero R n true] /\
  exists (o' : obj R n), distribution o' 0 V /\ ask o' [:: AZero] = Some [:: RZero R n false].
Proof.
exists (normal_direct MScalar0 0), 0; split; first exact: (by_values (x:=MScalar0)).
by split=> //; exists (normal_direct (MVec 0) 0); split=> //; apply: (by_values (x:=MVec 0)).
Qed.
End Thms.
