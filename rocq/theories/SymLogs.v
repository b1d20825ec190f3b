(* What the kernels of independently constructed processes are, in all models. *)
From Coq Require Import List.
From mathcomp Require Import all_ssreflect all_algebra.
From mathcomp Require Import zify.
From Verif Require Import Graph Machine Refine Worlds Eval GraphSpec GraphProofs GraphOps.
Set Implicit Arguments. Unset Strict Implicit. Unset Printing Implicit Defensive.
Import GRing.Theory.
Local Open Scope ring_scope.

Section SymLogs.
Variable R : fieldType.
Variable U : kexp R -> Prop.     (* kernels of the user *)
Variable N : obs R -> Prop.      (* observations *)
Variable F : pid -> nat -> Prop.  (* derivatives *)
Notation aworld := (aworld R).
Implicit Types (s : aworld) (h : hist R).

Definition prodk_of (m : mid) (rest : hist R) (k : kexp R) : Prop :=
  exists f g k1 k2 k3 k4, [/\ KA m rest f f = Some k1, KA m rest g g = Some k2, KA m rest f g = Some k3,
    KA m rest g f = Some k4 & k = mulk k1 k2 k3 k4].
Definition udef (m : mid) (rest : hist R) (d : pdef R) : Prop :=
  match d with
  | DInd _ k => U k \/ prodk_of m rest k
  | DUser _ k _ => U k
  | DDiff p d => F p d
  | _ => True
  end.
Fixpoint ugood (m : mid) h : Prop :=
  match h with
  | HRoot => True
  | HPost pm par o => N o /\ ugood pm par
  | HAdd p d rest => udef m rest d /\ ugood m rest
  end.
Definition uall s : Prop := forall m, ugood m (a_log s m).
Definition ukeeps A (a : lact R A) : Prop := forall s, uall s -> uall (a s).1.

Lemma ukeeps_bind A B (a : lact R A) (f : A -> lact R B) : ukeeps a -> (forall v, ukeeps (f v)) -> ukeeps (lbind a f).
Proof. by move=> H1 H2 s /H1; rewrite /lbind; case: (a s) => s1 [v| |] //= Hs; apply: H2. Qed.
Lemma ukeeps_new : ukeeps (@lnew_gp R). Proof. by []. Qed.
Lemma ukeeps_reads A (c : prog R A) : ukeeps (lreads c).
Proof. by move=> s; rewrite /lreads; case: (pint _ _ _). Qed.
Lemma uall_define m p d s : uall s -> udef m (a_log s m) d -> uall (ldefine m p d s).1.
Proof.
move=> Us Hd; case: ldefineP => [mu k _ _|] //= m'; rewrite /= /log_set; case: eqP => [->|_]; last exact: Us.
by split=> //; exact: Us.
Qed.
Lemma ukeeps_define m p d : (forall h, udef m h d) -> ukeeps (ldefine m p d).
Proof. by move=> H s Us; apply: uall_define. Qed.
Lemma ukeeps_iter A (f : A -> lact R unit) ms : (forall a, ukeeps (f a)) -> ukeeps (liter f ms).
Proof. by move=> H; elim: ms => [|a ms IH] //=; apply: ukeeps_bind. Qed.
Lemma ukeeps_mul m res p q : ukeeps (ldefine_mul m res p q).
Proof.
apply: ukeeps_bind => [|t1]; first exact: ukeeps_new.
apply: ukeeps_bind => [|_]; first exact: ukeeps_define.
apply: ukeeps_bind => [|t2]; first exact: ukeeps_new.
apply: ukeeps_bind => [|_]; first exact: ukeeps_define.
apply: ukeeps_bind => [|t3]; first exact: ukeeps_new.
apply: ukeeps_bind => [|_]; first exact: ukeeps_define.
apply: ukeeps_bind => [|mu]; first exact: ukeeps_reads.
move=> s Us; rewrite /lbind /lreads /=.
case E1: (sk s m p p) => [k1|] //=; case E2: (sk s m q q) => [k2|] //=.
case E3: (sk s m p q) => [k3|] //=; case E4: (sk s m q p) => [k4|] //=.
apply: ukeeps_define => // m' /=; rewrite /log_set; case: eqP => [->|_]; last exact: Us.
by split; [right; exists p, q, k1, k2, k3, k4 | exact: Us].
Qed.
Lemma ukeeps_unary p d : (forall m h, udef m h d) -> ukeeps (lunary p d).
Proof.
move=> H; apply: ukeeps_bind => [|r]; first exact: ukeeps_new.
move=> s Us; have := @ukeeps_iter _ (fun m => ldefine m r d) (a_gm s p) (fun m => @ukeeps_define m r d (H m)) s Us.
by rewrite /lbind; case: (liter _ _ _) => s1 [].
Qed.
Lemma ukeeps_nary ps ord f : (forall m res, ukeeps (f m res)) -> ukeeps (lnary ps ord f).
Proof.
move=> Hf s Us; rewrite /lnary /lbind /=; case: ifP => // _.
set s1 := AW _ _ _ _; have U1 : uall s1 by exact: Us.
have := @ukeeps_iter _ (fun m => f m (a_np s)) (order ord (lgroup s1 ps)) (fun m => Hf m (a_np s)) s1 U1.
by case: (liter _ _ _) => s2 [].
Qed.
Lemma ukeeps_step w o : winv w ->
  match o with OGP _ _ k | OUser _ _ k _ _ => U k | OCond _ ob => N ob | ODiff p d => F p d | _ => True end ->
  uall (abs w) -> uall (abs (step w o).1).
Proof.
move=> I Ho Us; have [_ +] := matches_step o I; move=> /(congr1 fst) /= <-; rewrite /lstep; case: ifP => _ //.
have GP m d : (forall h, udef m h d) -> uall (lbind (@lnew_gp R) (fun p => lbind (ldefine m p d) (fun _ => lret (RPid R p))) (abs w)).1.
  move=> Hd; have L : ukeeps (lbind (@lnew_gp R) (fun p => lbind (ldefine m p d) (fun _ => lret (RPid R p)))).
    apply: ukeeps_bind => [|p]; first exact: ukeeps_new.
    by apply: ukeeps_bind => [|v]; first exact: ukeeps_define.
  exact: L.
case: o Ho => [|m mu' k|m mu' k lr rr|m p|p c0|p f|p c0|p f|p c0|p s|p dims|p f|p d|p q ord|p q ord|ps ord|m o|m p q|m p] //= Ho;
  try by [apply: ukeeps_unary | apply: GP].
- by move=> m /=; rewrite /log_set; case: eqP => // _; exact: Us.
- by apply: (GP m (DInd mu' k)) => h; left.
- by apply: (GP m (DUser mu' k lr)).
- by apply: (@ukeeps_nary [:: p; q] ord (fun m res => ldefine m res (DSum p q))) => // m res; apply: ukeeps_define.
- by apply: (@ukeeps_nary [:: p; q] ord (fun m res => ldefine_mul m res p q)) => // m res; apply: ukeeps_mul.
- by apply: (@ukeeps_nary ps ord (fun m res => ldefine m res (DCross ps))) => // m res; apply: ukeeps_define.
- move=> m' /=; rewrite /log_set; case: (m' == w_nm w); last exact: Us.
  by split=> //; case: (m == w_nm w) => //; exact: Us.
- by rewrite /lbind /lreads /=; case: (expect _).
- by rewrite /lbind /lreads /=; case: (expect _).
Qed.
Lemma uall_run ops : (forall m mu k, In (OGP m mu k) ops -> U k) -> (forall m mu k l r, In (OUser m mu k l r) ops -> U k) ->
  (forall m o, In (OCond m o) ops -> N o) -> (forall p d, In (ODiff p d) ops -> F p d) -> uall (abs (run_ops ops)).
Proof.
move=> H1 H2 H3 H4; rewrite /run_ops.
suff S : forall w, winv w -> uall (abs w) -> uall (abs (foldl (fun w o => (step w o).1) w ops)) by apply: S; [exact: winv0|].
elim: ops H1 H2 H3 H4 => [|o ops IH] H1 H2 H3 H4 w I Us //=; have [I1 _] := matches_step o I; apply: IH => //.
- by move=> m mu k H; apply: (H1 m mu); right.
- by move=> m mu k l r H; apply: (H2 m mu k l r); right.
- by move=> m ob H; apply: (H3 m); right.
- by move=> p d H; apply: (H4 p d); right.
apply: ukeeps_step => //; case: o H1 H2 H3 H4 {I1} => //= [m mu k H _ _ _|m mu k l r _ H _ _|p d _ _ _ H|m ob _ _ H _].
- by apply: (H m mu); left.
- by apply: (H m mu k l r); left.
- by apply: H; left.
- by apply: (H m); left.
Qed.
End SymLogs.
