(* A model with copies of processes, for the examples in P_LogPdf.v. *)
From Coq Require Import List.
From mathcomp Require Import all_ssreflect all_algebra.
From mathcomp Require Import ring.
From Verif Require Import Graph Machine Refine Worlds Eval GraphSpec GraphProofs GraphOps GraphFacts RV RVProofs Sound Typing ModelSpec Formal ModelFacts Plain Cond CondFacts CrossFacts Combine ModelThms PlainThms PostDefined ExModel.
From Verif Require Import MatrixFacts NormalSpec Normal NormalFacts LogPdf.
Set Implicit Arguments. Unset Strict Implicit. Unset Printing Implicit Defensive.
Import Order.TTheory GRing.Theory Num.Theory.
Local Open Scope ring_scope.

(* Values without gaps have a log-density. *)
Lemma logpdf_some (R : rcfType) (ln : R -> R) pi n (d : normal R n) (y : seq R) : size y = n ->
  exists l, logpdf ln pi d (\col_(i < n) nth None (map Some y) i) = One (Some l).
Proof.
move=> sy; rewrite /logpdf.
have A : [forall i : 'I_n, isSome ((\col_(i < n) nth None (map Some y) i) i 0)].
  by apply/forallP => i; rewrite mxE (nth_map 0) // sy.
rewrite A /logpdf_cols /= enum_ordS enum_ord0 /= /logpdf_col A; by eexists.
Qed.

Lemma pd2 (R : realFieldType) (A : 'M[R]_2) : A 0 1 = A 1 0 -> 0 < A 0 0 -> 0 < A 0 0 * A 1 1 - A 0 1 ^+ 2 -> pd A.
Proof.
move=> s p0 pd; have O (i : 'I_2) : i = 0 \/ i = 1.
  by case: i => [[|[|//]] ?]; [left | right]; apply/val_inj.
split=> [|v nz]; first by apply/matrixP => i j; rewrite mxE; case: (O i) => ->; case: (O j) => ->.
have E : qf A v = A 0 0 * v 0 0 ^+ 2 + 2%:R * A 0 1 * v 0 0 * v 1 0 + A 1 1 * v 1 0 ^+ 2.
  rewrite /qf !mxE !big_ord_recl big_ord0 !mxE !big_ord_recl !big_ord0 !mxE.
  have -> : fintype.lift ord0 ord0 = 1 :> 'I_2 by apply/val_inj.
  have -> : ord0 = 0 :> 'I_2 by [].
  rewrite s; move: (v 0 0) (v 1 0) (A 0 0) (A 1 0) (A 1 1) => a b c d e; ring.
have nz' : (v 0 0 != 0) || (v 1 0 != 0).
  apply: contraNT nz; rewrite negb_or !negbK => /andP [/eqP a /eqP b]; apply/eqP/matrixP => i j.
  by rewrite (ord1 j) mxE; case: (O i) => ->.
rewrite -(pmulr_rgt0 _ p0).
have -> : A 0 0 * qf A v = (A 0 0 * v 0 0 + A 0 1 * v 1 0) ^+ 2 + (A 0 0 * A 1 1 - A 0 1 ^+ 2) * v 1 0 ^+ 2.
  by rewrite E; move: (v 0 0) (v 1 0) (A 0 0) (A 0 1) (A 1 1) => a b c d e; ring.
have [z|z] := eqVneq (v 1 0) 0.
  by move: nz'; rewrite z eqxx orbF mulr0 addr0 expr0n mulr0 addr0 => n0; rewrite exprn_even_gt0 //= mulf_neq0 // gt_eqF.
by apply: ltr_paddl; [exact: sqr_ge0 | apply: mulr_gt0 => //; rewrite exprn_even_gt0].
Qed.

(* The size of a mean. *)
Lemma plain_size (R : fieldType) D (mu : pid -> point R -> R) ka ops :
  (forall d t, D d (fun=> 0) t = 0) -> (forall p s t, ka p s t = ka p t s) -> plain D mu ka world0 ops -> gp_first ops ->
  forall m p x k e, (m < w_nm (run_ops ops))%N -> widths false (w_log (run_ops ops) m) p x = Some k ->
  mean_is D (run_ops ops) m p x e -> size e = k.
Proof.
move=> D0 ks Hp Hg m p x k e lt Hw Ee; have [W [G [eps [_ _ Mo H]]]] := plain_law D0 ks Hp Hg.
by have [u Hu <-] := H _ _ _ _ lt Hw; rewrite (is_m (model_sound Mo) I Hu Ee) size_map.
Qed.

Section Ex.
Variable R : rcfType.
Notation X0 := (X0 R). Notation X1 := (X1 R). Notation X01 := (X01 R). Notation X10 := (X10 R).
Notation fdd1 := (fdd1 R). Notation fdd2 := (fdd2 R). Notation ob1 := (ob1 R).
Notation xD := (@xD R). Notation xmu := (@xmu R).

(* 0: f, 1: e, 2: f + e, 3: cross(f, f + e), 4: cross(f + e, f); copies: 5 of 3, 6 of 4, 7 of f
   and 8 of f, all under the prior, and 9 of f + e given a value of f. *)
Definition lops : seq (op R) :=
  [:: OMeasure; OGP 0 (MElem (xmu 0)) (KElem (@klin R)); OGP 0 (MElem (xmu 1)) (KElem (@klin R)); OSum 0 1 [:: 0%N];
      OCross [:: 0; 2]%N [:: 0%N]; OCross [:: 2; 0]%N [:: 0%N]; OCond 0 ob1;
      OCopy 0 3; OCopy 0 4; OCopy 0 0; OCopy 0 0; OCopy 1 2].
Definition lw := run_ops lops.
Lemma lwE : lw = run_ops lops. Proof. by []. Qed.

Lemma lplain : plain xD xmu (@xka R) world0 lops.
Proof.
split=> //; split; first by split; [exact: elem_mean | exact: elem_kernel].
split; first by split; [exact: elem_mean | exact: elem_kernel].
by do ![split=> //]; move=> [|i] [|j].
Qed.
Lemma lgp_first : gp_first lops. Proof. by []. Qed.
Lemma lpsd_noise : psd_noise lops.
Proof.
have P3 : psd_matrix (one1 R) by apply: (@gram_psd _ _ (fun=> 1) (fun=> 0)) => i j _ _ /=; rewrite mulr1 mulr0 addr0.
move=> m o; rewrite /lops /=; do 6 (case=> //).
by case; [case=> _ <- | do 6 (case=> //)].
Qed.
Lemma lmodel : exists (W : space R) (G : pid -> point R -> rv W) (eps : mid -> nat -> rv W),
  model xD G eps lw everywhere /\
  forall m p x k, (m < w_nm lw)%N -> widths false (w_log lw m) p x = Some k -> meant xD G eps lw everywhere m p x.
Proof.
have [W [G [eps [_ M H]]]] := plain_all (@xD0 R) (@xka_sym R) (@xka_psd R) lplain lgp_first lpsd_noise.
by exists W, G, eps.
Qed.
Lemma lsize m p x k e : (m < w_nm lw)%N -> widths false (w_log lw m) p x = Some k -> mean_is xD lw m p x e -> size e = k.
Proof. exact (plain_size (@xD0 R) (@xka_sym R) lplain lgp_first (m:=m) (p:=p) (x:=x) (k:=k) (e:=e)). Qed.
Local Opaque lw.
Definition llog : hist R :=
  HAdd 4 (DCross [:: 2; 0]%N) (HAdd 3 (DCross [:: 0; 2]%N) (HAdd 2 (DSum 0 1) (HAdd 1 (DInd (MElem (xmu 1)) (KElem (@klin R)))
    (HAdd 0 (DInd (MElem (xmu 0)) (KElem (@klin R))) HRoot)))).
Lemma lnm : w_nm lw = 2%N. Proof. by vm_compute. Qed.
Lemma llogs : w_log lw 0 = HAdd 8 (DCopy 0) (HAdd 7 (DCopy 0) (HAdd 6 (DCopy 4) (HAdd 5 (DCopy 3) llog))) /\
  w_log lw 1 = HAdd 9 (DCopy 2) (HPost 0 llog ob1).
Proof. by split; vm_compute. Qed.
Definition lps : seq pid := [:: 4; 3; 2; 1; 0]%N.
Lemma lcond : conditioned lw 1 0 ob1 lps.
Proof. by split; [rewrite lnm | | exists llog; [rewrite (proj2 llogs) | ]]. Qed.
Lemma lmade0 r d : made (HAdd 8 (DCopy 0) (HAdd 7 (DCopy 0) (HAdd 6 (DCopy 4) (HAdd 5 (DCopy 3) llog)))) r d -> defined lw 0 r d.
Proof. by move=> H; split; [rewrite lnm | rewrite (proj1 llogs)]. Qed.
Lemma lmade1 r d : made (HAdd 9 (DCopy 2) (HPost 0 llog ob1)) r d -> defined lw 1 r d.
Proof. by move=> H; split; [rewrite lnm | rewrite (proj2 llogs)]. Qed.
Lemma ldefs : [/\ defined lw 0 3 (DCross [:: 0; 2]%N), defined lw 0 4 (DCross [:: 2; 0]%N), defined lw 0 5 (DCopy 3) & defined lw 0 6 (DCopy 4)] /\
  [/\ defined lw 0 7 (DCopy 0), defined lw 0 8 (DCopy 0) & defined lw 1 9 (DCopy 2)].
Proof.
by split; split; [apply: lmade0 | apply: lmade0 | apply: lmade0 | apply: lmade0 | apply: lmade0 | apply: lmade0 | apply: lmade1] => /=; do ![by left | right].
Qed.
Lemma lsees : [/\ see_k lw 1 9 9 = see_k lw 1 2 2 & see_m lw 1 9 = see_m lw 1 2]. Proof. by split; vm_compute. Qed.

Definition lK p q x y : dmat R := if kernel_at xD 10 lw 0 p q x y is Some M then M else dzero R 0 0.
Definition lM p x : seq R := if mean_at xD 10 lw 0 p x is Some M then M else [::].
Lemma lcov p q x y : kernel_at xD 10 lw 0 p q x y -> cov_is xD lw 0 p q x y (lK p q x y).
Proof. by rewrite /lK => H; exists 10%N; move: H; case: (kernel_at _ _ _ _ _ _ _ _). Qed.
Lemma lmean p x : mean_at xD 10 lw 0 p x -> mean_is xD lw 0 p x (lM p x).
Proof. by rewrite /lM => H; exists 10%N; move: H; case: (mean_at _ _ _ _ _ _). Qed.

Variables (ln : R -> R) (pi : R).
Notation logpdf_is := (logpdf_is ln pi xD lw).
Lemma lprior r x (N : dmat R) y : kernel_at xD 10 lw 0 r r x x && mean_at xD 10 lw 0 r x ->
  [&& size (lM r x) == size y, nr N == size y & nc N == size y] -> exists l, logpdf_is 0 r x N (map Some y) l.
Proof.
move=> /andP [hk hm] /and3P [/eqP h1 /eqP h2 /eqP h3].
have [l El] := @logpdf_some R ln pi (size y) (fdd_normal (size y) (lM r x) (lK r r x x) N) y erefl.
exists l, (size y), (lM r x), (lK r r x x); split; [exact: lmean | exact: lcov | | exact El].
split; [exact h1 | exact h2 | exact h3 | exact: size_map].
Qed.
Lemma linv : mx_at (lK 0 0 X0 X0) 1 1 + mx_at (o_noise ob1) 1 1 \in unitmx.
Proof.
rewrite unitmxE det_mx11 !mxE unitfE; have -> : ent (lK 0 0 X0 X0) 0 0 = 1 + 0 * 0 by vm_compute.
by rewrite /= !(mul0r, addr0) -[1 + 1]/(2%:R) pnatr_eq0.
Qed.
Lemma lh : [&& kernel_at xD 10 lw 0 2 2 X1 X1, kernel_at xD 10 lw 0 0 2 X0 X1, kernel_at xD 10 lw 0 0 0 X0 X0, mean_at xD 10 lw 0 2 X1 & mean_at xD 10 lw 0 0 X0].
Proof. by vm_compute. Qed.
Lemma lshapes : [/\ nr (lK 0 0 X0 X0) = 1%N, nc (lK 0 0 X0 X0) = 1%N, nr (lK 0 2 X0 X1) = 1%N, nr (lK 2 2 X1 X1) = nc (lK 0 2 X0 X1) & nc (lK 2 2 X1 X1) = nc (lK 0 2 X0 X1)].
Proof. by split; vm_compute. Qed.
Lemma lsh1 : [&& nc (lK 0 0 X0 X0) == nr (lK 0 0 X0 X0), nr (o_noise ob1) == nr (lK 0 0 X0 X0), nc (o_noise ob1) == nr (lK 0 0 X0 X0), nr (lK 0 2 X0 X1) == nr (lK 0 0 X0 X0) & nr (lK 0 2 X0 X1) == nr (lK 0 0 X0 X0)].
Proof. by vm_compute. Qed.
Lemma lsh2 : [&& nc (lK 0 0 X0 X0) == nr (lK 0 0 X0 X0), nr (o_noise ob1) == nr (lK 0 0 X0 X0), nc (o_noise ob1) == nr (lK 0 0 X0 X0), nr (lK 0 2 X0 X1) == nr (lK 0 0 X0 X0) & size (lM 0 X0) == nr (lK 0 0 X0 X0)].
Proof. by vm_compute. Qed.
Lemma linv2 : mx_at (lK 0 0 X0 X0) (nr (lK 0 0 X0 X0)) (nr (lK 0 0 X0 X0)) + mx_at (o_noise ob1) (nr (lK 0 0 X0 X0)) (nr (lK 0 0 X0 X0)) \in unitmx.
Proof. have s1 : nr (lK 0 0 X0 X0) = 1%N by case: lshapes.
rewrite s1; exact linv. Qed.
Lemma lsize2 : [/\ size (lM 2 X1) = nc (lK 0 2 X0 X1), size (lM 0 X0) = 1%N & size (o_y ob1) = nr (lK 0 0 X0 X0)].
Proof. by split; vm_compute. Qed.
Lemma lcov1 : exists M, cov_is xD lw 1 2 2 X1 X1 M.
Proof.
have C := lcond; have i0 : (0 \in lps)%N by []. have i2 : (2 \in lps)%N by [].
have n0 : ne (o_x ob1) <> 0%N by []. have aX : atom X1 by [].
have [h1 h2 h3 h4 h5] := and5P lh; have [s1 s2 s3 s4 s5] := lshapes.
refine (pcd lwE C i0 i2 i2 n0 aX aX (lcov h1) (lcov h2) (lcov h2) (lcov h3) lsh1 s4 s5 linv2).
Qed.
Lemma lmean1 : exists e, mean_is xD lw 1 2 X1 e.
Proof.
have C := lcond; have i0 : (0 \in lps)%N by []. have i2 : (2 \in lps)%N by [].
have n0 : ne (o_x ob1) <> 0%N by []. have aX : atom X1 by [].
have [h1 h2 h3 h4 h5] := and5P lh; have [s1 s2 s3 s4 s5] := lshapes; have [t1 t2 t3] := lsize2.
refine (pmd lwE C i0 i2 n0 aX (lmean h4) (lmean h5) (lcov h2) (lcov h3) lsh2 t3 t1 linv2).
Qed.
Lemma lwidth1 : widths false (w_log lw 1) 2 X1 = Some 1%N. Proof. by vm_compute. Qed.
Lemma lpost : exists l, logpdf_is 1 9 X1 (one1 R) (map Some [:: 2%:R]) l.
Proof.
have [M EM] := lcov1; have [e Ee] := lmean1.
have lt : (1 < w_nm lw)%N by rewrite lnm.
have se := lsize lt lwidth1 Ee; have [E1 E2] := lsees.
have [l El] := @logpdf_some R ln pi 1 (fdd_normal 1 e M (one1 R)) [:: 2%:R] erefl.
exists l, 1%N, e, M; split; [ | | by split | exact El].
  by case: Ee => n; rewrite /mean_at -E2 => Ee'; exists n.
by case: EM => n; rewrite /kernel_at -E1 => Ee'; exists n.
Qed.

(* The joint variances. *)
Definition fd12 := combine_fdd 3 [:: fdd1; fdd2].
Definition fd21 := combine_fdd 4 [:: fdd2; fdd1].
Definition ljoint r (f : fdd R) : dmat R := lK r r (f_x f) (f_x f).
Lemma lpd r f : nr (ljoint r f) = 2%N ->
  ent (ljoint r f) 0 1 + ent (f_noise f) 0 1 = ent (ljoint r f) 1 0 + ent (f_noise f) 1 0 ->
  0 < ent (ljoint r f) 0 0 + ent (f_noise f) 0 0 ->
  0 < (ent (ljoint r f) 0 0 + ent (f_noise f) 0 0) * (ent (ljoint r f) 1 1 + ent (f_noise f) 1 1) - (ent (ljoint r f) 0 1 + ent (f_noise f) 0 1) ^+ 2 ->
  let K := ljoint r f in pd (mx_at K (nr K) (nr K) + mx_at (f_noise f) (nr K) (nr K)).
Proof. by move=> e h1 h2 h3 K; rewrite /K e; apply: pd2; rewrite !mxE. Qed.
Lemma lpd12 : let K := ljoint 5 fd12 in pd (mx_at K (nr K) (nr K) + mx_at (f_noise fd12) (nr K) (nr K)).
Proof.
have e1 : ent (ljoint 5 fd12) 0 0 = 1 + 0 * 0 by vm_compute.
have e2 : ent (ljoint 5 fd12) 0 1 = 1 + 1 * 0 + 0 by vm_compute.
have e3 : ent (ljoint 5 fd12) 1 0 = 1 + 1 * 0 + 0 by vm_compute.
have e4 : ent (ljoint 5 fd12) 1 1 = 1 + 1 * 1 + (1 + 1 * 1) + 0 + 0 by vm_compute.
have e0 : nr (ljoint 5 fd12) = 2%N by vm_compute.
have n1 : ent (f_noise fd12) 0 0 = 1 by vm_compute.
have n2 : ent (f_noise fd12) 0 1 = 0 by vm_compute.
have n3 : ent (f_noise fd12) 1 0 = 0 by vm_compute.
have n4 : ent (f_noise fd12) 1 1 = 1 by vm_compute.
refine (lpd e0 _ _ _); rewrite ?e1 ?e2 ?e3 ?e4 ?n1 ?n2 ?n3 ?n4 {e0 e1 e2 e3 e4 n1 n2 n3 n4}.
- by [].
- by rewrite !(mul0r, addr0) -[1 + 1]/(2%:R) ltr0n.
by rewrite (_ : _ - _ = 9%:R) ?ltr0n //; ring.
Qed.
Definition obA := obA R.
Definition fdA := MkFdd 0 (o_x obA) (o_noise obA).
Lemma lpdA : let K := ljoint 7 fdA in pd (mx_at K (nr K) (nr K) + mx_at (f_noise fdA) (nr K) (nr K)).
Proof.
have e1 : ent (ljoint 7 fdA) 0 0 = 1 + 0 * 0 by vm_compute.
have e2 : ent (ljoint 7 fdA) 0 1 = 1 + 0 * 1 by vm_compute.
have e3 : ent (ljoint 7 fdA) 1 0 = 1 + 1 * 0 by vm_compute.
have e4 : ent (ljoint 7 fdA) 1 1 = 1 + 1 * 1 by vm_compute.
have e0 : nr (ljoint 7 fdA) = 2%N by vm_compute.
have n1 : ent (f_noise fdA) 0 0 = 1 + 0 * 0 by vm_compute.
have n2 : ent (f_noise fdA) 0 1 = 1 + 0 * 1 by vm_compute.
have n3 : ent (f_noise fdA) 1 0 = 1 + 1 * 0 by vm_compute.
have n4 : ent (f_noise fdA) 1 1 = 1 + 1 * 1 by vm_compute.
refine (lpd e0 _ _ _); rewrite ?e1 ?e2 ?e3 ?e4 ?n1 ?n2 ?n3 ?n4 {e0 e1 e2 e3 e4 n1 n2 n3 n4}.
- by ring.
- by rewrite !(mul0r, addr0) -[1 + 1]/(2%:R) ltr0n.
by rewrite (_ : _ - _ = 4%:R) ?ltr0n //; ring.
Qed.
Lemma lvalues : [/\ exists l, logpdf_is 0 5 (f_x fd12) (f_noise fd12) (map Some ([:: 1] ++ [:: 2%:R])) l,
    exists l, logpdf_is 0 6 (f_x fd21) (f_noise fd21) (map Some ([:: 2%:R] ++ [:: 1])) l,
    exists l, logpdf_is 0 7 X0 (one1 R) (map Some [:: 1]) l,
    exists l, logpdf_is 0 7 X01 (kn R) (map Some [:: 1; 2%:R]) l &
    exists l, logpdf_is 0 8 X10 (kn' R) (map Some [:: 2%:R; 1]) l].
Proof. by split; refine (lprior _ _); vm_compute. Qed.
Lemma lmeant : exists (W : space R) (G : pid -> point R -> rv W) (eps : mid -> nat -> rv W),
  let meant := meant xD G eps lw everywhere in
  [/\ model xD G eps lw everywhere, meant 0%N 5%N (f_x fd12), meant 0%N 6%N (f_x fd21),
      [/\ meant 0%N 7%N X0, meant 1%N 9%N X1, meant 0%N 2%N X1 & meant 0%N 0%N X0] & [/\ meant 0%N 7%N X01 & meant 0%N 8%N X10]].
Proof.
have [W [G [eps [Mo H]]]] := lmodel; exists W, G, eps; move=> mt.
have l0 : (0 < w_nm lw)%N by rewrite lnm. have l1 : (1 < w_nm lw)%N by rewrite lnm.
split; [exact Mo | by refine (H _ _ _ 2%N l0 _); vm_compute | by refine (H _ _ _ 2%N l0 _); vm_compute | |].
- split; [by refine (H _ _ _ 1%N l0 _); vm_compute | by refine (H _ _ _ 1%N l1 _); vm_compute |
    by refine (H _ _ _ 1%N l0 _); vm_compute | by refine (H _ _ _ 1%N l0 _); vm_compute].
by split; refine (H _ _ _ 2%N l0 _); vm_compute.
Qed.
Lemma lcovs : cov_is xD lw 0 5 5 (f_x fd12) (f_x fd12) (ljoint 5 fd12) /\ cov_is xD lw 0 7 7 X01 X01 (ljoint 7 fdA).
Proof. by split; refine (lcov _); vm_compute. Qed.
End Ex.
