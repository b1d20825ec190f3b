(* A model with pseudo-observations, for the examples in P_PseudoGraph.v. *)
From Coq Require Import List.
From mathcomp Require Import all_ssreflect all_algebra.
From mathcomp Require Import ring.
From Verif Require Import Graph Machine Refine Worlds Eval GraphSpec GraphProofs GraphOps GraphFacts RV RVProofs Sound Typing ModelSpec Formal ModelFacts Plain Cond CondFacts CrossFacts Combine ModelThms PlainThms PostDefined ExModel TotalEx.
From Verif Require Import MatrixFacts NormalSpec Normal NormalFacts LogPdf ExLogPdf Infer InferSpec ExInfer SymSpec SymThms.
From Verif Require Import PseudoSpec PseudoGraph PseudoMain Pseudo PseudoFacts Elbo.
Set Implicit Arguments. Unset Strict Implicit. Unset Printing Implicit Defensive.
Import Order.TTheory GRing.Theory Num.Theory.
Local Open Scope ring_scope.

(* Matrices. *)
Section Mx.
Variable R : rcfType.
Lemma pd1 (A : 'M[R]_1) : 0 < A 0 0 -> pd A.
Proof.
move=> p; split=> [|v nz]; first by apply/matrixP => i j; rewrite mxE !ord1.
rewrite /qf !mxE big_ord1 !mxE big_ord1 !mxE mulrAC -expr2 mulr_gt0 // exprn_even_gt0 //=.
by apply: contraNneq nz => z; apply/eqP/matrixP => i j; rewrite !ord1 mxE.
Qed.
Lemma nystrom_psd k n (S : 'M[R]_k) (C : 'M[R]_(k, n)) : pd S -> psd (nystrom S C C).
Proof. by move=> P; rewrite /nystrom -iqfE //; apply: psd_gram. Qed.
Lemma model_var_pd k n (S : 'M[R]_k) (C : 'M[R]_(k, n)) d : pd S -> (forall i, 0 < d i) -> pd (model_var S C d).
Proof. by move=> P H; apply: pd_add; [apply: nystrom_psd | apply: pd_diag_mx]. Qed.
Lemma nystrom1 n (S : 'M[R]_1) (C : 'M[R]_(1, n)) i : nystrom S C C i i = C 0 i ^+ 2 / S 0 0.
Proof. by rewrite /nystrom [S]mx11_scalar invmx_scalar !mxE big_ord1 !mxE big_ord1 !mxE /= !mulr1n mulrAC -expr2. Qed.
Lemma nystrom_id n (K : 'M[R]_n) : pd K -> nystrom K K K = K.
Proof. by move=> P; rewrite /nystrom P.1 mulmxV ?mul1mx // pd_unit. Qed.
Lemma noise_pos n (S : 'M[R]_1) (C : 'M[R]_(1, n)) me noise kxd (i : 'I_n) : 0 < noise i -> 1 <= S 0 0 ->
  C 0 i ^+ 2 <= 1 -> 1 <= kxd i -> 0 < model_noise S C me noise kxd i.
Proof.
move=> h1 h2 h3 h4; rewrite /model_noise; case: me => //; rewrite nystrom1 ltr_paddr // subr_ge0.
have S0 : 0 < S 0 0 by apply: lt_le_trans h2; exact: ltr01.
by rewrite ler_pdivr_mulr // (le_trans h3) // -[1]mul1r ler_pmul.
Qed.
Lemma noise_at n (K : 'M[R]_n) me noise i : 0 < noise i -> pd K -> 0 < model_noise K K me noise (fun i => K i i) i.
Proof. by move=> h P; rewrite /model_noise nystrom_id // subrr addr0; case: me. Qed.
End Mx.

Section Approx.
Variables (R : fieldType) (D : nat -> (point R -> R) -> point R -> R) (w : world R) (ops : seq (op R)).
Hypothesis E : w = run_ops ops.
Variables (m' m : mid) (o : Machine.obs R) (d : pdata R) (ps : seq pid) (Kz Kzx Kx : dmat R) (k n : nat).
Hypothesis (C : approximated w m' m o d ps) (Ho : o_p o \in ps) (Hd : d_p d \in ps).
Hypotheses (HKz : cov_is D w m (o_p o) (o_p o) (o_x o) (o_x o) Kz) (HKzx : cov_is D w m (o_p o) (d_p d) (o_x o) (d_x d) Kzx).
Hypotheses (HKx : cov_is D w m (d_p d) (d_p d) (d_x d) (d_x d) Kx) (ek : nr Kz = k) (en : size (d_noise d) = n).
Let S : 'M[R]_k := mx_at Kz k k + mx_at (o_noise o) k k.
Let Cx : 'M[R]_(k, n) := mx_at Kzx k n.
Let dn : 'I_n -> R := model_noise S Cx (d_method d) (fun i => nth 0 (d_noise d) i) (fun i => ent Kx i i).
Hypotheses (c1 : nc Kz = k) (c2 : nr (o_noise o) = k) (c3 : nc (o_noise o) = k) (c4 : nr Kzx = k) (c5 : nc Kzx = n)
  (c6 : nr Kx = n) (c7 : nc Kx = n).
Hypotheses (US : S \in unitmx) (Ud : forall i, dn i != 0) (UV : model_var S Cx dn \in unitmx).
Lemma acd p q x y K A B : p \in ps -> q \in ps -> atom x -> atom y ->
  cov_is D w m p q x y K -> cov_is D w m (o_p o) p (o_x o) x A -> cov_is D w m (o_p o) q (o_x o) y B ->
  nr A = k -> nr B = k -> nr K = nc A -> nc K = nc B -> exists M, cov_is D w m' p q x y M.
Proof. by subst w k n; apply: (approx_cov_defined C Ho Hd HKz HKzx HKx). Qed.
Lemma amd p x e ez ex A : p \in ps ->
  mean_is D w m p x e -> mean_is D w m (o_p o) (o_x o) ez -> mean_is D w m (d_p d) (d_x d) ex -> cov_is D w m (o_p o) p (o_x o) x A ->
  nr A = k -> nc A = size e -> size ez = k -> size ex = n -> size (d_y d) = n -> exists e', mean_is D w m' p x e'.
Proof. by subst w k n; apply: (approx_mean_defined C Ho Hd HKz HKzx HKx). Qed.
End Approx.

Lemma lt4 m : (m < 4)%N -> m = 0%N \/ m = 1%N \/ m = 2%N \/ m = 3%N.
Proof. case: m => [|[|[|[|m]]]] // _; [by left | by right; left | by right; right; left | by right; right; right]. Qed.

Section Ex.
Variables (R : rcfType) (me : method).
Notation X0 := (X0 R). Notation X1 := (X1 R). Notation X01 := (X01 R).
Notation xD := (@xD R). Notation xmu := (@xmu R).

(* 0: f, 1: e, 2: f + e, 3: a copy of f + e.  Data of f + e at 0 and 1, with an inducing point of f
   at 0, with noise (measure 1), with the data as inducing points (2), and exactly (3). *)
Definition qd : pdata R := PData 2 X01 [:: 1; 1] [:: 1; 2%:R] me.
Definition qo : Machine.obs R := MkObs 0 X0 (one1 R) [::] (Some qd).
Definition qo2 : Machine.obs R := MkObs 2 X01 (dzero R 2 2) [::] (Some qd).
Definition qo3 : Machine.obs R := Obs 2 X01 (ddiag [:: 1; 1]) [:: 1; 2%:R].
Definition qops : seq (op R) :=
  [:: OMeasure; OGP 0 (MElem (xmu 0)) (KElem (@klin R)); OGP 0 (MElem (xmu 1)) (KElem (@klin R)); OSum 0 1 [:: 0%N];
      OCopy 0 2; OCond 0 qo; OCond 0 qo2; OCond 0 qo3].
Definition qw := run_ops qops.
Lemma qwE : qw = run_ops qops. Proof. by []. Qed.

Lemma qsym2 (N : dmat R) : nr N = 2%N -> nc N = 2%N -> ent N 0 1 = ent N 1 0 -> square_sym N.
Proof. by move=> a b c; split; rewrite ?a ?b // => [[|[|i]]] [|[|j]] // _ _; rewrite c. Qed.
Lemma qnoise : [/\ square_sym (o_noise qo), square_sym (o_noise qo2) & square_sym (o_noise qo3)].
Proof. by split; [split=> // [[|i]] [|j] | apply: qsym2 | apply: qsym2]. Qed.
Lemma qplain : plain xD xmu (@xka R) world0 qops.
Proof.
split=> //; split; first by split; [exact: elem_mean | exact: elem_kernel].
split; first by split; [exact: elem_mean | exact: elem_kernel].
by have [a b c] := qnoise; do 2 (split=> //); do 3 (split; first by assumption).
Qed.
Lemma qgp_first : gp_first qops. Proof. by []. Qed.
Lemma qpsd_noise : psd_noise qops.
Proof.
have P1 : psd_matrix (one1 R) by apply: (@ExModel.gram_psd _ _ (fun=> 1) (fun=> 0)) => i j _ _ /=; rewrite mulr1 mulr0 addr0.
have P2 : psd_matrix (dzero R 2 2) by apply: (@ExModel.gram_psd _ _ (fun=> 0) (fun=> 0)) => i j _ _ /=; rewrite mulr0 addr0.
have P3 : psd_matrix (ddiag [:: 1; 1 : R]).
  apply: (@ExModel.gram_psd _ _ (fun i => (i == 0%N)%:R) (fun i => (i == 1%N)%:R)) => [[|[|i]] [|[|j]]] //= _ _.
  - by rewrite mulr1 mulr0 addr0.
  - by rewrite mulr0 mul0r addr0.
  - by rewrite mulr0 mul0r addr0.
  - by rewrite mulr0 mulr1 add0r.
have A : all (fun a : R => 0 <= a) [:: 1; 1] by rewrite /= ler01.
move=> m o; rewrite /qops /=; do 5 (case=> //); case; [case=> _ <- | case; [case=> _ <- | case=> //; case=> _ <-]]; split=> // d [<-] //.
Qed.
Lemma qmodel : exists (W : space R) (G : pid -> point R -> rv W) (eps : mid -> nat -> rv W),
  [/\ nonneg W, model xD G eps qw everywhere &
  forall m p x k, (m < w_nm qw)%N -> widths false (w_log qw m) p x = Some k -> meant xD G eps qw everywhere m p x].
Proof.
have [W [G [eps [NN M H]]]] := plain_all (@xD0 R) (@xka_sym R) (@xka_psd R) qplain qgp_first qpsd_noise.
by exists W, G, eps.
Qed.
Lemma q_kernels k : given_kernel qops k -> k = KElem (@klin R).
Proof.
case=> [[m [mu H]]|[m [mu [l [r H]]]]]; move: H; rewrite /qops /=; intuition; try discriminate;
  match goal with E : _ = _ |- _ => by case: E => _ _ <- end.
Qed.
Lemma q_sym k : given_kernel qops k -> symmetric_kernel xD qw k.
Proof. move=> /q_kernels ->; apply: elem_symmetric => s t; exact: (@xka_sym R 0). Qed.
Lemma q_noise m o : In (OCond m o) qops -> square_sym (o_noise o).
Proof.
have [a b c] := qnoise; rewrite /qops /=; intuition; try discriminate;
  match goal with E : OCond _ _ = OCond _ _ |- _ => by case: E => _ <- end.
Qed.
Lemma q_partials : mixed_partials xD qops. Proof. by []. Qed.
Local Opaque qw.
Definition qlog : hist R :=
  HAdd 3 (DCopy 2) (HAdd 2 (DSum 0 1) (HAdd 1 (DInd (MElem (xmu 1)) (KElem (@klin R)))
    (HAdd 0 (DInd (MElem (xmu 0)) (KElem (@klin R))) HRoot))).
Definition qps : seq pid := [:: 3; 2; 1; 0]%N.
Lemma qnm : w_nm qw = 4%N. Proof. vm_compute; reflexivity. Qed.
Lemma qlog0 : w_log qw 0 = qlog. Proof. vm_compute; reflexivity. Qed.
Lemma qlog1 : w_log qw 1 = HPost 0 qlog qo. Proof. vm_compute; reflexivity. Qed.
Lemma qlog2 : w_log qw 2 = HPost 0 qlog qo2. Proof. vm_compute; reflexivity. Qed.
Lemma qlog3 : w_log qw 3 = HPost 0 qlog qo3. Proof. vm_compute; reflexivity. Qed.
Lemma qapprox1 : approximated qw 1 0 qo qd qps.
Proof. by split; [rewrite qnm | | exists qlog; [rewrite qlog1 | ]]. Qed.
Lemma qapprox2 : approximated qw 2 0 qo2 qd qps.
Proof. by split; [rewrite qnm | | exists qlog; [rewrite qlog2 | ]]. Qed.
Lemma qcond3 : conditioned qw 3 0 qo3 qps.
Proof. by split; [rewrite qnm | | exists qlog; [rewrite qlog3 | ]]. Qed.
Lemma qdef : defined qw 0 3 (DCopy 2). Proof. by split; [rewrite qnm | rewrite qlog0 /=; left]. Qed.
Lemma qbasic_log p (d : pdef R) : made qlog p d -> basic_def d.
Proof.
by rewrite /qlog /=; do ![case=> [[_ <- //]|]].
Qed.
Lemma qbasic m p (d : pdef R) : defined qw m p d -> basic_def d.
Proof.
case=> lt M; rewrite qnm in lt.
case: (lt4 lt) => [|[|[|]]] e; rewrite e in M.
- rewrite qlog0 in M; exact (qbasic_log M).
- rewrite qlog1 in M; exact (@qbasic_log p d M).
- rewrite qlog2 in M; exact (@qbasic_log p d M).
- rewrite qlog3 in M; exact (@qbasic_log p d M).
Qed.

(* Values. *)
Definition qK p q x y : dmat R := if kernel_at xD 10 qw 0 p q x y is Some M then M else dzero R 0 0.
Definition qM p x : seq R := if mean_at xD 10 qw 0 p x is Some M then M else [::].
Lemma qcov p q x y : isSome (kernel_at xD 10 qw 0 p q x y) -> cov_is xD qw 0 p q x y (qK p q x y).
Proof. by rewrite /qK => H; exists 10%N; move: H; case: (kernel_at _ _ _ _ _ _ _ _). Qed.
Lemma qmean p x : isSome (mean_at xD 10 qw 0 p x) -> mean_is xD qw 0 p x (qM p x).
Proof. by rewrite /qM => H; exists 10%N; move: H; case: (mean_at _ _ _ _ _ _). Qed.
Lemma qk00 : isSome (kernel_at xD 10 qw 0 0 0 X0 X0). Proof. vm_compute; reflexivity. Qed.
Lemma qk02 : isSome (kernel_at xD 10 qw 0 0 2 X0 X01). Proof. vm_compute; reflexivity. Qed.
Lemma qk22 : isSome (kernel_at xD 10 qw 0 2 2 X01 X01). Proof. vm_compute; reflexivity. Qed.
Lemma qk33 : isSome (kernel_at xD 10 qw 0 3 3 X01 X01). Proof. vm_compute; reflexivity. Qed.
Lemma qm0 : isSome (mean_at xD 10 qw 0 0 X0). Proof. vm_compute; reflexivity. Qed.
Lemma qm2 : isSome (mean_at xD 10 qw 0 2 X01). Proof. vm_compute; reflexivity. Qed.
Lemma qm3 : isSome (mean_at xD 10 qw 0 3 X01). Proof. vm_compute; reflexivity. Qed.
Notation Kz := (qK 0 0 X0 X0). Notation Kzx := (qK 0 2 X0 X01). Notation Kx := (qK 2 2 X01 X01).
Definition qe : seq R := odflt [::] (elv xD 20 qw 0 2 X01).
Lemma qel : elwise_is xD qw 0 2 2 X01 X01 qe. Proof. refine (elv_is _); vm_compute; reflexivity. Qed.
Lemma qes : size qe = 2%N. Proof. vm_compute; reflexivity. Qed.
Lemma qwd0 : widths false (w_log qw 0) 0 X0 = Some 1%N. Proof. rewrite qlog0; vm_compute; reflexivity. Qed.
Lemma qwd2 : widths false (w_log qw 0) 2 X01 = Some 2%N. Proof. rewrite qlog0; vm_compute; reflexivity. Qed.
Lemma qwd3 : widths false (w_log qw 0) 3 X01 = Some 2%N. Proof. rewrite qlog0; vm_compute; reflexivity. Qed.

Lemma qKz : ent Kz 0 0 = 1 + 0 * 0. Proof. vm_compute; reflexivity. Qed.
Lemma qKzx0 : ent Kzx 0 0 = 1 + 0 * 0 + 0. Proof. vm_compute; reflexivity. Qed.
Lemma qKzx1 : ent Kzx 0 1 = 1 + 1 * 0 + 0. Proof. vm_compute; reflexivity. Qed.
Lemma qKx00 : ent Kx 0 0 = 1 + 0 * 0 + (1 + 0 * 0) + 0 + 0. Proof. vm_compute; reflexivity. Qed.
Lemma qKx01 : ent Kx 0 1 = 1 + 0 * 1 + (1 + 0 * 1) + 0 + 0. Proof. vm_compute; reflexivity. Qed.
Lemma qKx10 : ent Kx 1 0 = 1 + 1 * 0 + (1 + 1 * 0) + 0 + 0. Proof. vm_compute; reflexivity. Qed.
Lemma qKx11 : ent Kx 1 1 = 1 + 1 * 1 + (1 + 1 * 1) + 0 + 0. Proof. vm_compute; reflexivity. Qed.

(* The same facts, with numbers that are not computed. *)
Section Abs.
Variables (kz kzx kx : dmat R).
Hypotheses (sz : nr kz = 1%N) (ez : ent kz 0 0 = 1 + 0 * 0) (e0 : ent kzx 0 0 = 1 + 0 * 0 + 0) (e1 : ent kzx 0 1 = 1 + 1 * 0 + 0).
Hypotheses (x00 : ent kx 0 0 = 1 + 0 * 0 + (1 + 0 * 0) + 0 + 0) (x01 : ent kx 0 1 = 1 + 0 * 1 + (1 + 0 * 1) + 0 + 0)
  (x10 : ent kx 1 0 = 1 + 1 * 0 + (1 + 1 * 0) + 0 + 0) (x11 : ent kx 1 1 = 1 + 1 * 1 + (1 + 1 * 1) + 0 + 0).
Lemma abs_S : pd (mx_at kz 1 1 + mx_at (one1 R) 1 1).
Proof. by apply: pd1; rewrite !mxE ez /= mul0r addr0 -[1 + 1]/(2%:R) ltr0n. Qed.
Lemma O2 (i : 'I_2) : i = 0%N :> nat \/ i = 1%N :> nat. Proof. by case: i => [[|[|i]] //= _]; [left | right]. Qed.
Lemma abs_d (i : 'I_2) : 0 < model_noise (mx_at kz 1 1 + mx_at (one1 R) 1 1) (mx_at kzx 1 2) me (fun i => nth 0 [:: 1; 1] i) (fun i => ent kx i i) i.
Proof.
apply: noise_pos => //.
- by case: (O2 i) => ->; rewrite ltr01.
- by rewrite !mxE ez /= mul0r addr0 ler_addl ler01.
- by rewrite !mxE; case: (O2 i) => ->; rewrite ?e0 ?e1 !(mul0r, mulr0, addr0) expr1n.
- by case: (O2 i) => ->; rewrite ?x00 ?x11 ?mul0r ?mul1r !addr0 -?[1 + 1]/(2%:R) -?natrD ler1n.
Qed.
Lemma abs_K : pd (mx_at kx 2 2).
Proof.
apply: pd2; rewrite !mxE /= ?x00 ?x01 ?x10 ?x11; first by ring.
  by rewrite (_ : _ + 0 = 2%:R) ?ltr0n //; ring.
by rewrite (_ : _ - _ = 4%:R) ?ltr0n //; ring.
Qed.
Lemma abs_K0 : mx_at kx 2 2 + mx_at (dzero R 2 2) 2 2 = mx_at kx 2 2.
Proof. by apply/matrixP => i j; rewrite !mxE addr0. Qed.
Lemma abs_dK (i : 'I_2) : 0 < model_noise (mx_at kx 2 2 + mx_at (dzero R 2 2) 2 2) (mx_at kx 2 2) me (fun i => nth 0 [:: 1; 1] i) (fun i => ent kx i i) i.
Proof.
rewrite abs_K0; have := @noise_at R 2 (mx_at kx 2 2) me (fun i => nth 0 [:: 1; 1] i) i _ abs_K.
rewrite /model_noise !mxE; apply; by case: (O2 i) => ->; rewrite ltr01.
Qed.
Lemma abs_exact : pd (mx_at kx 2 2 + mx_at (ddiag [:: 1; 1 : R]) 2 2).
Proof.
rewrite addrC; apply: pd_add; last exact: abs_K.
have -> : mx_at (ddiag [:: 1; 1 : R]) 2 2 = 1%:M.
  by apply/matrixP => i j; rewrite !mxE /= -[in RHS]val_eqE /=; case: (O2 i) => ->; case: (O2 j) => ->.
by apply: pd_psd; have := pd_gram (@unitmx1 R 2); rewrite trmx1 mulmx1.
Qed.
End Abs.


Lemma qz1 : nr Kz = 1%N. Proof. vm_compute; reflexivity. Qed.
Lemma qz2 : nc Kz = 1%N. Proof. vm_compute; reflexivity. Qed.
Lemma qz3 : nr Kzx = 1%N. Proof. vm_compute; reflexivity. Qed.
Lemma qz4 : nc Kzx = 2%N. Proof. vm_compute; reflexivity. Qed.
Lemma qx1 : nr Kx = 2%N. Proof. vm_compute; reflexivity. Qed.
Lemma qx2 : nc Kx = 2%N. Proof. vm_compute; reflexivity. Qed.
Lemma qy1 : size (qM 0 X0) = 1%N. Proof. vm_compute; reflexivity. Qed.
Lemma qy2 : size (qM 2 X01) = 2%N. Proof. vm_compute; reflexivity. Qed.
Lemma qy3 : size (qM 3 X01) = 2%N. Proof. vm_compute; reflexivity. Qed.
Lemma elbo_some (ln : R -> R) pi D w m (o : Machine.obs R) (d : pdata R) (kz kzx : dmat R) kx ez ex k n :
  cov_is D w m (o_p o) (o_p o) (o_x o) (o_x o) kz -> cov_is D w m (o_p o) (d_p d) (o_x o) (d_x d) kzx ->
  elwise_is D w m (d_p d) (d_p d) (d_x d) (d_x d) kx -> mean_is D w m (o_p o) (o_x o) ez -> mean_is D w m (d_p d) (d_x d) ex ->
  size (d_noise d) = n -> size kx = n -> nr kz = k -> nc kz = k -> nr (o_noise o) = k -> nc (o_noise o) = k -> size ez = k ->
  nr kzx = k -> nc kzx = n -> size ex = n -> size (d_y d) = n -> exists v, elbo_is ln pi D w m o d v.
Proof.
move=> a b c e f en h1 h2 h3 h4 h5 h6 h7 h8 h9 h10; eexists; exists kz, kzx, kx, ez, ex; rewrite en.
split; [exact a | exact b | move=> _; split; [exact c | exact h1] | split; [exact e | exact f] | ].
split; [by rewrite h2 h3 h4 h5 h6 !eqxx | by rewrite h2 h7 h8 h9 h10 !eqxx | reflexivity].
Qed.
Lemma logpdf_value (ln : R -> R) pi D w m r x (N : dmat R) y e K : mean_is D w m r x e -> cov_is D w m r r x x K ->
  size e = size y -> nr N = size y -> nc N = size y -> exists l, logpdf_is ln pi D w m r x N (map Some y) l.
Proof.
move=> hm hk h1 h2 h3; have [l El] := @logpdf_some R ln pi (size y) (fdd_normal (size y) e K N) y erefl.
exists l, (size y), e, K; split; [exact: hm | exact: hk | | exact El].
split; [exact h1 | exact h2 | exact h3 | exact: size_map].
Qed.
Lemma neq_pos (a : R) : 0 < a -> a != 0. Proof. by move=> p; rewrite gt_eqF. Qed.
Lemma qsq3 (K : dmat R) : nr K = 2%N -> nc K = 2%N ->
  [&& nc K == nr K, nr (ddiag [:: 1; 1 : R]) == nr K, nc (ddiag [:: 1; 1 : R]) == nr K, nr K == nr K & nr K == nr K].
Proof. by move=> -> ->. Qed.
Lemma qsq3' (K : dmat R) (e : seq R) : nr K = 2%N -> nc K = 2%N -> size e = 2%N ->
  [&& nc K == nr K, nr (ddiag [:: 1; 1 : R]) == nr K, nc (ddiag [:: 1; 1 : R]) == nr K, nr K == nr K & size e == nr K].
Proof. by move=> -> -> ->. Qed.
Lemma qunit3 (K : dmat R) : nr K = 2%N -> mx_at K 2 2 + mx_at (ddiag [:: 1; 1 : R]) 2 2 \in unitmx ->
  mx_at K (nr K) (nr K) + mx_at (ddiag [:: 1; 1 : R]) (nr K) (nr K) \in unitmx.
Proof. by move=> ->. Qed.
Lemma abs_unit (K : dmat R) : pd (mx_at K 2 2) -> mx_at K 2 2 + mx_at (dzero R 2 2) 2 2 \in unitmx. Proof. rewrite abs_K0; exact: pd_unit. Qed.
Lemma abs_pd0 (K : dmat R) : pd (mx_at K 2 2) -> pd (mx_at K 2 2 + mx_at (dzero R 2 2) 2 2). Proof. by rewrite abs_K0. Qed.
Lemma qne3 : ne (o_x qo3) <> 0%N. Proof. by []. Qed.
Local Opaque qK qM.
Definition qpdS := abs_S qKz.
Definition qd0 := abs_d qKz qKzx0 qKzx1 qKx00 qKx11.
Definition qpdK := abs_K qKx00 qKx01 qKx10 qKx11.
Definition qdK := abs_dK qKx00 qKx01 qKx10 qKx11.
Definition qpdE := abs_exact qKx00 qKx01 qKx10 qKx11.
Lemma qcov1 : exists M, cov_is xD qw 1 2 2 X01 X01 M.
Proof.
have ho : (0 \in qps)%N := erefl; have hd : (2 \in qps)%N := erefl.
have V := model_var_pd (mx_at Kzx 1 2) qpdS qd0.
exact (@acd _ xD qw qops qwE 1 0 qo qd qps Kz Kzx Kx 1 2 qapprox1 ho hd (qcov qk00) (qcov qk02) (qcov qk22) qz1 erefl qz2 erefl erefl
  qz3 qz4 qx1 qx2 (pd_unit qpdS) (fun i => neq_pos (qd0 i)) (pd_unit V) 2%N 2%N X01 X01 Kx Kzx Kzx hd hd erefl erefl (qcov qk22) (qcov qk02) (qcov qk02) qz3 qz3
  (etrans qx1 (esym qz4)) (etrans qx2 (esym qz4))).
Qed.
Lemma qmean1 : exists e, mean_is xD qw 1 2 X01 e.
Proof.
have ho : (0 \in qps)%N := erefl; have hd : (2 \in qps)%N := erefl.
have V := model_var_pd (mx_at Kzx 1 2) qpdS qd0.
exact (@amd _ xD qw qops qwE 1 0 qo qd qps Kz Kzx Kx 1 2 qapprox1 ho hd (qcov qk00) (qcov qk02) (qcov qk22) qz1 erefl qz2 erefl erefl
  qz3 qz4 qx1 qx2 (pd_unit qpdS) (fun i => neq_pos (qd0 i)) (pd_unit V) 2%N X01 (qM 2 X01) (qM 0 X0) (qM 2 X01) Kzx hd (qmean qm2) (qmean qm0) (qmean qm2)
  (qcov qk02) qz3 (etrans qz4 (esym qy2)) qy1 qy2 erefl).
Qed.
Lemma qunitK : mx_at Kx 2 2 + mx_at (dzero R 2 2) 2 2 \in unitmx. Proof. exact (abs_unit qpdK). Qed.
Lemma qpdK0 : pd (mx_at Kx 2 2 + mx_at (dzero R 2 2) 2 2). Proof. exact (abs_pd0 qpdK). Qed.
Lemma qcov2 : exists M, cov_is xD qw 2 2 2 X01 X01 M.
Proof.
have hd : (2 \in qps)%N := erefl.
have V := model_var_pd (mx_at Kx 2 2) qpdK0 qdK.
exact (@acd _ xD qw qops qwE 2 0 qo2 qd qps Kx Kx Kx 2 2 qapprox2 hd hd (qcov qk22) (qcov qk22) (qcov qk22) qx1 erefl qx2 erefl erefl
  qx1 qx2 qx1 qx2 qunitK (fun i => neq_pos (qdK i)) (pd_unit V) 2%N 2%N X01 X01 Kx Kx Kx hd hd erefl erefl (qcov qk22) (qcov qk22) (qcov qk22) qx1 qx1
  (etrans qx1 (esym qx2)) erefl).
Qed.
Lemma qmean2 : exists e, mean_is xD qw 2 2 X01 e.
Proof.
have hd : (2 \in qps)%N := erefl.
have V := model_var_pd (mx_at Kx 2 2) qpdK0 qdK.
exact (@amd _ xD qw qops qwE 2 0 qo2 qd qps Kx Kx Kx 2 2 qapprox2 hd hd (qcov qk22) (qcov qk22) (qcov qk22) qx1 erefl qx2 erefl erefl
  qx1 qx2 qx1 qx2 qunitK (fun i => neq_pos (qdK i)) (pd_unit V) 2%N X01 (qM 2 X01) (qM 2 X01) (qM 2 X01) Kx hd (qmean qm2) (qmean qm2) (qmean qm2)
  (qcov qk22) qx1 (etrans qx2 (esym qy2)) qy2 qy2 erefl).
Qed.
Lemma qcov3 : exists M, cov_is xD qw 3 2 2 X01 X01 M.
Proof.
have hd : (2 \in qps)%N := erefl.
exact (@pcd _ xD qw qops qwE 3 0 qo3 qps qcond3 hd 2%N 2%N X01 X01 Kx Kx Kx Kx hd hd qne3 erefl erefl (qcov qk22) (qcov qk22) (qcov qk22) (qcov qk22)
  (qsq3 qx1 qx2) (etrans qx1 (esym qx2)) erefl (qunit3 qx1 (pd_unit qpdE))).
Qed.
Lemma qmean3 : exists e, mean_is xD qw 3 2 X01 e.
Proof.
have hd : (2 \in qps)%N := erefl.
exact (@pmd _ xD qw qops qwE 3 0 qo3 qps qcond3 hd 2%N X01 (qM 2 X01) (qM 2 X01) Kx Kx hd qne3 erefl (qmean qm2) (qmean qm2) (qcov qk22) (qcov qk22)
  (qsq3' qx1 qx2 qy2) (esym qx1) (etrans qy2 (esym qx2)) (qunit3 qx1 (pd_unit qpdE))).
Qed.

Lemma qlt0 : (0 < w_nm qw)%N. Proof. rewrite qnm; reflexivity. Qed.
Lemma q_in_model : exists (W : space R) (G : pid -> point R -> rv W) (eps : mid -> nat -> rv W),
  [/\ nonneg W, model xD G eps qw everywhere, meant xD G eps qw everywhere 0 0 X0, meant xD G eps qw everywhere 0 2 X01 &
      meant xD G eps qw everywhere 0 3 X01].
Proof.
have [W [G [eps [NN M H]]]] := qmodel; exists W, G, eps.
split; [exact NN | exact M | exact (H _ _ _ _ qlt0 qwd0) | exact (H _ _ _ _ qlt0 qwd2) | exact (H _ _ _ _ qlt0 qwd3)].
Qed.

Variables (ln : R -> R) (pi : R).
Lemma qelbo : exists v, elbo_is ln pi xD qw 0 qo qd v.
Proof.
exact (@elbo_some ln pi xD qw 0 qo qd Kz Kzx qe (qM 0 X0) (qM 2 X01) 1 2 (qcov qk00) (qcov qk02) qel (qmean qm0) (qmean qm2)
  erefl qes qz1 qz2 erefl erefl qy1 qz3 qz4 qy2 erefl).
Qed.
Lemma qelbo2 : exists v, elbo_is ln pi xD qw 0 qo2 qd v.
Proof.
exact (@elbo_some ln pi xD qw 0 qo2 qd Kx Kx qe (qM 2 X01) (qM 2 X01) 2 2 (qcov qk22) (qcov qk22) qel (qmean qm2) (qmean qm2)
  erefl qes qx1 qx2 erefl erefl qy2 qx1 qx2 qy2 erefl).
Qed.
Lemma qlogpdf : exists l, logpdf_is ln pi xD qw 0 3 X01 (ddiag [:: 1; 1]) (map Some [:: 1; 2%:R]) l.
Proof. exact (@logpdf_value ln pi xD qw 0 3 X01 (ddiag [:: 1; 1]) [:: 1; 2%:R] (qM 3 X01) (qK 3 3 X01 X01) (qmean qm3) (qcov qk33) qy3 erefl erefl). Qed.
End Ex.
