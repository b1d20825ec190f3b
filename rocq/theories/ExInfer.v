(* A model with Cartesian products and missing values, for the examples in P_Infer.v. *)
From Coq Require Import List.
From mathcomp Require Import all_ssreflect all_algebra.
From mathcomp Require Import ring.
From Verif Require Import Graph Machine Refine Worlds Eval GraphSpec GraphProofs GraphOps GraphFacts RV RVProofs Sound Typing ModelSpec Formal ModelFacts Plain Cond CondFacts CrossFacts Combine ModelThms PlainThms PostDefined ExModel.
From Verif Require Import MatrixFacts NormalSpec Normal NormalFacts LogPdf ExLogPdf Infer InferSpec.
Set Implicit Arguments. Unset Strict Implicit. Unset Printing Implicit Defensive.
Import Order.TTheory GRing.Theory Num.Theory.
Local Open Scope ring_scope.

Lemma ne64 : 6%N <> 4%N. Proof. by []. Qed.
Lemma lt2 m : (m < 2)%N -> m = 0%N \/ m = 1%N.
Proof. by case: m => [|[|m]] // _; [left | right]. Qed.

Definition elv (R : fieldType) D n (w : world R) m p x : option (seq R) :=
  obind (fun k => elk (see_k w) (see_m w) D n k x x) (see_k w m p p).
Lemma elv_is (R : fieldType) D n (w : world R) m p x : elv D n w m p x -> elwise_is D w m p p x x (odflt [::] (elv D n w m p x)).
Proof.
rewrite /elv; case Ek: (see_k w m p p) => [k|] //=; case Ev: (elk _ _ _ _ _ _ _) => [e|] //= _.
by exists k => //; exists n.
Qed.

Section Ex.
Variable R : rcfType.
Notation X0 := (X0 R). Notation X1 := (X1 R). Notation X01 := (X01 R).
Notation xD := (@xD R). Notation xmu := (@xmu R).

(* Four values of cross(f, f + e), two of which are missing. *)
Definition id4 : dmat R := DMat 4 4 (fun i j => (i == j)%:R).
Definition ifd : fdd R := MkFdd 3 X01 id4.
Definition iy : seq (option R) := [:: Some 1; None; None; Some 2%:R].
Definition imu : seq bool := [:: true; false; false; true].
Definition ix : input R := Tup [:: Fdd 0 X0; Fdd 2 X1].
Definition ino : dmat R := DMat 2 2 (fun i j => ent id4 (nth 0%N [:: 0; 3]%N i) (nth 0%N [:: 0; 3]%N j)).
Definition iob : obs R := Obs 3 ix ino [:: 1; 2%:R].

(* 0: f, 1: e, 2: f + e, 3: cross(f, f + e), 4: 2 cross(f, f + e), 5: cross(cross(f, f + e), f). *)
Definition iops : seq (op R) :=
  [:: OMeasure; OGP 0 (MElem (xmu 0)) (KElem (@klin R)); OGP 0 (MElem (xmu 1)) (KElem (@klin R)); OSum 0 1 [:: 0%N];
      OCross [:: 0; 2]%N [:: 0%N]; OScale 3 2%:R; OCross [:: 3; 0]%N [:: 0%N]; OCond 0 iob].
Definition iw := run_ops iops.
Lemma iwE : iw = run_ops iops. Proof. by []. Qed.

Lemma ino_sym i j : (i < 2)%N -> (j < 2)%N -> ent ino i j = ent ino j i.
Proof. by move: i j => [|[|i]] [|[|j]]. Qed.
Lemma iplain : plain xD xmu (@xka R) world0 iops.
Proof.
split=> //; split; first by split; [exact: elem_mean | exact: elem_kernel].
split; first by split; [exact: elem_mean | exact: elem_kernel].
do ![split=> //]; exact: ino_sym.
Qed.
Lemma igp_first : gp_first iops. Proof. by []. Qed.
Lemma ipsd_noise : psd_noise iops.
Proof.
have P3 : psd_matrix ino.
  apply: (@gram_psd _ _ (fun i => (i == 0%N)%:R) (fun i => (i == 1%N)%:R)) => [[|[|i]] [|[|j]]] //= _ _.
  - by rewrite mulr1 mulr0 addr0.
  - by rewrite mulr0 mul0r addr0.
  - by rewrite mulr0 mul0r addr0.
  - by rewrite mulr0 mulr1 add0r.
move=> m o; rewrite /iops /=; do 7 (case=> //).
by case; [case=> _ <- | ].
Qed.
Lemma imodel : exists (W : space R) (G : pid -> point R -> rv W) (eps : mid -> nat -> rv W),
  model xD G eps iw everywhere /\
  forall m p x k, (m < w_nm iw)%N -> widths false (w_log iw m) p x = Some k -> meant xD G eps iw everywhere m p x.
Proof.
have [W [G [eps [_ M H]]]] := plain_all (@xD0 R) (@xka_sym R) (@xka_psd R) iplain igp_first ipsd_noise.
by exists W, G, eps.
Qed.
Local Opaque iw.
Definition ilog : hist R :=
  HAdd 5 (DCross [:: 3; 0]%N) (HAdd 4 (DScale 3 2%:R) (HAdd 3 (DCross [:: 0; 2]%N) (HAdd 2 (DSum 0 1)
    (HAdd 1 (DInd (MElem (xmu 1)) (KElem (@klin R))) (HAdd 0 (DInd (MElem (xmu 0)) (KElem (@klin R))) HRoot))))).
Lemma inm : w_nm iw = 2%N. Proof. by vm_compute. Qed.
Lemma ilogs : w_log iw 0 = ilog /\ w_log iw 1 = HPost 0 ilog iob.
Proof. by split; vm_compute. Qed.
Definition ips : seq pid := [:: 5; 4; 3; 2; 1; 0]%N.
Lemma icond : conditioned iw 1 0 iob ips.
Proof. by split; [rewrite inm | | exists ilog; [rewrite (proj2 ilogs) | ]]. Qed.
Lemma ihomes : [/\ home iw 0 = Some 0%N, home iw 2 = Some 0%N, home iw 3 = Some 0%N & home iw 4 = Some 0%N].
Proof. by split; vm_compute. Qed.

(* The hypotheses about shapes. *)
Lemma iflat_of (Q : pid -> Prop) : Q 0%N -> Q 2%N -> flat Q ilog 3 /\ flat Q ilog 4.
Proof.
move=> q0 q2; have H : flat Q (HAdd 3 (DCross [:: 0; 2]%N) (HAdd 2 (DSum 0 1)
    (HAdd 1 (DInd (MElem (xmu 1)) (KElem (@klin R))) (HAdd 0 (DInd (MElem (xmu 0)) (KElem (@klin R))) HRoot)))) 3.
  split=> // a; rewrite !inE => /orP [] /eqP -> /=; split=> // q; by rewrite !inE => /orP [] /eqP ->.
by split=> //= q; rewrite !inE => /eqP ->.
Qed.
Lemma iflat0 Q : flat Q ilog 0 /\ flat Q ilog 2.
Proof. by split=> //= q; rewrite !inE => /orP [] /eqP ->. Qed.
Lemma isettled_of p : home iw p = Some 0%N -> flat (fun=> True) ilog p -> settled iw 0 p.
Proof. by move=> h f; exists 0%N; rewrite (proj1 ilogs) inm; split. Qed.
Lemma iwell p : settled iw 0 p -> flat (settled iw 0) ilog p -> well_settled iw 0 p.
Proof. by move=> s f; split; [exact s | rewrite (proj1 ilogs); exact f]. Qed.
Lemma isettled : well_settled iw 0 3 /\ well_settled iw 0 4.
Proof.
have [h0 h2 h3 h4] := ihomes; have [f0 f2] := iflat0 (fun=> True); have [f3 f4] := iflat_of (Q := fun=> True) I I.
have s0 := isettled_of h0 f0; have s2 := isettled_of h2 f2.
have [g3 g4] := iflat_of s0 s2.
by split; [exact (iwell (isettled_of h3 f3) g3) | exact (iwell (isettled_of h4 f4) g4)].
Qed.
Lemma iflat : flat (fun=> True) (w_log iw 0) 3 /\ flat (fun=> True) (w_log iw 0) 2.
Proof. rewrite (proj1 ilogs); split; [exact (proj1 (iflat_of (Q := fun=> True) I I)) | exact (proj2 (iflat0 _))]. Qed.
Lemma ibasic_log p (d : pdef R) : made ilog p d -> basic_def d.
Proof. by rewrite /ilog /=; do ![case=> [[_ <- //]|]]. Qed.
Lemma ibasic m p (d : pdef R) : defined iw m p d -> basic_def d.
Proof.
case=> lt M; have [e0 e1] := ilogs; rewrite inm in lt.
have [e|e] := lt2 lt; rewrite e ?e0 ?e1 in M; first exact (ibasic_log M).
exact (@ibasic_log p d M).
Qed.

(* Values. *)
Definition iK p q x y : dmat R := if kernel_at xD 20 iw 0 p q x y is Some M then M else dzero R 0 0.
Definition iM p x : seq R := if mean_at xD 20 iw 0 p x is Some M then M else [::].
Lemma icov p q x y : kernel_at xD 20 iw 0 p q x y -> cov_is xD iw 0 p q x y (iK p q x y).
Proof. by rewrite /iK => H; exists 20%N; move: H; case: (kernel_at _ _ _ _ _ _ _ _). Qed.
Lemma imean p x : mean_at xD 20 iw 0 p x -> mean_is xD iw 0 p x (iM p x).
Proof. by rewrite /iM => H; exists 20%N; move: H; case: (mean_at _ _ _ _ _ _). Qed.

Lemma iobserve : observe (own_kernel iw) 5 ifd iy = Some iob. Proof. by vm_compute. Qed.
Lemma itake : take_fdd (own_kernel iw) 5 ifd imu = Some (MkFdd 3 ix ino). Proof. by vm_compute. Qed.
Lemma isel : selected (map isSome iy) = [:: 0; 3]%N. Proof. by vm_compute. Qed.
Lemma ihas : [&& kernel_at xD 20 iw 0 3 3 X01 X01, kernel_at xD 20 iw 0 0 0 X1 X1, kernel_at xD 20 iw 0 0 3 X1 X01,
   mean_at xD 20 iw 0 3 X01 & mean_at xD 20 iw 0 0 X1].
Proof. by vm_compute. Qed.
Lemma ihas' : [&& kernel_at xD 20 iw 0 3 3 ix ix, kernel_at xD 20 iw 0 3 0 ix X1 & mean_at xD 20 iw 0 3 ix].
Proof. by vm_compute. Qed.
Lemma inr : [/\ nr (iK 3 3 X01 X01) = 4%N, nr (iK 3 3 ix ix) = 2%N & size (iM 3 X01) = 4%N].
Proof. by split; vm_compute. Qed.
Lemma imeant : exists (W : space R) (G : pid -> point R -> rv W) (eps : mid -> nat -> rv W),
  let meant := meant xD G eps iw everywhere in
  [/\ model xD G eps iw everywhere, meant 0%N 3%N X01, meant 0%N 0%N X1,
      meant 0%N 3%N ix & [/\ meant 0%N 2%N X01, meant 0%N 4%N X01, meant 0%N 5%N X01 & meant 1%N 0%N X1]].
Proof.
have [W [G [eps [Mo H]]]] := imodel; exists W, G, eps; move=> mt.
have l0 : (0 < w_nm iw)%N by rewrite inm. have l1 : (1 < w_nm iw)%N by rewrite inm.
split; [exact Mo | by refine (H _ _ _ 4%N l0 _); vm_compute | by refine (H _ _ _ 1%N l0 _); vm_compute
  | by refine (H _ _ _ 2%N l0 _); vm_compute |].
by split; [refine (H _ _ _ 2%N l0 _); vm_compute | refine (H _ _ _ 4%N l0 _); vm_compute
  | refine (H _ _ _ 6%N l0 _); vm_compute | refine (H _ _ _ 1%N l1 _); vm_compute].
Qed.

(* The observed values have an invertible variance. *)
Lemma ients : [/\ ent (iK 3 3 X01 X01) 0 0 = 1 + 0 * 0, ent (iK 3 3 X01 X01) 0 3 = 1 + 1 * 0 + 0,
  ent (iK 3 3 X01 X01) 3 0 = 1 + 1 * 0 + 0 & ent (iK 3 3 X01 X01) 3 3 = 1 + 1 * 1 + (1 + 1 * 1) + 0 + 0].
Proof. by split; vm_compute. Qed.
Lemma ients' : [/\ ent (iK 3 3 ix ix) 0 0 = 1 + 0 * 0, ent (iK 3 3 ix ix) 0 1 = 1 + 1 * 0 + 0,
  ent (iK 3 3 ix ix) 1 0 = 1 + 1 * 0 + 0 & ent (iK 3 3 ix ix) 1 1 = 1 + 1 * 1 + (1 + 1 * 1) + 0 + 0].
Proof. by split; vm_compute. Qed.
Lemma idet : (1 + 0 * 0 + 1) * (1 + 1 * 1 + (1 + 1 * 1) + 0 + 0 + 1) - (1 + 1 * 0 + 0 + 0) * (1 + 1 * 0 + 0 + 0) != 0 :> R.
Proof. by rewrite (_ : _ - _ = 9%:R) ?pnatr_eq0 //; ring. Qed.
Lemma iunit_of (A : 'M[R]_2) : A 0 0 = 1 + 0 * 0 + 1 -> A 0 1 = 1 + 1 * 0 + 0 + 0 -> A 1 0 = 1 + 1 * 0 + 0 + 0 ->
  A 1 1 = 1 + 1 * 1 + (1 + 1 * 1) + 0 + 0 + 1 -> A \in unitmx.
Proof. by move=> e1 e2 e3 e4; apply: unit2; rewrite e1 e2 e3 e4; exact: idet. Qed.
Lemma iblock : let s := [:: 0; 3]%N in block (iK 3 3 X01 X01) s + block id4 s \in unitmx.
Proof. by have [e1 e2 e3 e4] := ients; apply: iunit_of; rewrite !mxE /= ?e1 ?e2 ?e3 ?e4. Qed.
Lemma iinv : mx_at (iK 3 3 ix ix) 2 2 + mx_at ino 2 2 \in unitmx.
Proof. by have [e1 e2 e3 e4] := ients'; apply: iunit_of; rewrite !mxE /= ?e1 ?e2 ?e3 ?e4. Qed.

(* Posterior values. *)
Lemma ihas2 : [&& kernel_at xD 20 iw 0 3 3 ix ix, kernel_at xD 20 iw 0 3 0 ix X1, mean_at xD 20 iw 0 3 ix,
   kernel_at xD 20 iw 0 0 0 X1 X1 & mean_at xD 20 iw 0 0 X1].
Proof. by vm_compute. Qed.
Lemma ishapes : [/\ nr (iK 3 3 ix ix) = 2%N, nc (iK 3 3 ix ix) = 2%N, nr (iK 3 0 ix X1) = 2%N,
  nr (iK 0 0 X1 X1) = nc (iK 3 0 ix X1) & nc (iK 0 0 X1 X1) = nc (iK 3 0 ix X1)].
Proof. by split; vm_compute. Qed.
Lemma isizes : [/\ size (iM 3 ix) = 2%N, size (iM 0 X1) = nc (iK 3 0 ix X1) & size (o_y iob) = 2%N].
Proof. by split; vm_compute. Qed.
Lemma iinv2 : let n := nr (iK 3 3 ix ix) in mx_at (iK 3 3 ix ix) n n + mx_at (o_noise iob) n n \in unitmx.
Proof. by have [-> _ _ _ _] := ishapes; exact iinv. Qed.
Lemma isq1 : [&& nc (iK 3 3 ix ix) == nr (iK 3 3 ix ix), nr (o_noise iob) == nr (iK 3 3 ix ix), nc (o_noise iob) == nr (iK 3 3 ix ix),
  nr (iK 3 0 ix X1) == nr (iK 3 3 ix ix) & nr (iK 3 0 ix X1) == nr (iK 3 3 ix ix)].
Proof. by vm_compute. Qed.
Lemma isq2 : [&& nc (iK 3 3 ix ix) == nr (iK 3 3 ix ix), nr (o_noise iob) == nr (iK 3 3 ix ix), nc (o_noise iob) == nr (iK 3 3 ix ix),
  nr (iK 3 0 ix X1) == nr (iK 3 3 ix ix) & size (iM 3 ix) == nr (iK 3 3 ix ix)].
Proof. by vm_compute. Qed.
Lemma iy2 : size (o_y iob) = nr (iK 3 3 ix ix). Proof. by vm_compute. Qed.
Lemma ipost : (exists M, cov_is xD iw 1 0 0 X1 X1 M) /\ (exists e, mean_is xD iw 1 0 X1 e).
Proof.
have C := icond; have i3 : (o_p iob \in ips)%N by []. have i0 : (0 \in ips)%N by [].
have n0 : ne (o_x iob) <> 0%N by []. have aX : atom X1 by [].
have [h1 h2 h3 h4 h5] := and5P ihas2; have [_ _ _ s4 s5] := ishapes; have [_ t2 _] := isizes.
split.
  refine (pcd iwE C i3 i0 i0 n0 aX aX (icov h4) (icov h2) (icov h2) (icov h1) isq1 s4 s5 iinv2).
refine (pmd iwE C i3 i0 n0 aX (imean h5) (imean h3) (icov h2) (icov h1) isq2 iy2 t2 iinv2).
Qed.

(* [elwise]. *)
Definition ie p x : seq R := odflt [::] (elv xD 20 iw 0 p x).
Lemma ielwise3 : elwise_is xD iw 0 3 3 X01 X01 (ie 3 X01) /\ size (ie 3 X01) = 4%N.
Proof. by split; [refine (elv_is _); vm_compute | vm_compute]. Qed.
Lemma ivars : isSome (fdd_var xD 20 iw ifd) /\ isSome (fdd_var_diag xD 20 iw ifd).
Proof. by split; vm_compute. Qed.

(* Refutations: the nested product has three outputs, and a scaled product cannot be masked. *)
Lemma inested : isSome (kernel_at xD 20 iw 0 5 5 X01 X01) /\ nr (iK 5 5 X01 X01) = 6%N. Proof. by split; vm_compute. Qed.
Lemma inested_size : obind (fun k => infer_size k X01) (see_k iw 0 5 5) = Some 4%N. Proof. by vm_compute. Qed.
Lemma inested_k : exists2 k, see_k iw 0 5 5 = Some k & infer_size k X01 = Some 4%N.
Proof. by move: inested_size; generalize (see_k iw 0 5 5) => -[k|] //= E; exists k. Qed.
Lemma isize3 : obind (fun k => infer_size k X01) (see_k iw 0 3 3) = Some 4%N. Proof. by vm_compute. Qed.
Lemma in0 : nr (iK 0 0 X1 X1) = 1%N. Proof. by vm_compute. Qed.
Lemma isize : exists2 k, see_k iw 0 3 3 = Some k & infer_size k X01 = Some 4%N.
Proof. by move: isize3; generalize (see_k iw 0 3 3) => -[k|] //= E; exists k. Qed.
Lemma ivar_values : exists e M, fdd_var_diag xD 20 iw ifd = Some e /\ fdd_var xD 20 iw ifd = Some M.
Proof.
move: ivars; generalize (fdd_var xD 20 iw ifd) (fdd_var_diag xD 20 iw ifd) => -[M|] [e|] [] // _ _; by exists e, M.
Qed.
Lemma iflat00 : flat (fun=> True) (w_log iw 0) 0.
Proof. by rewrite (proj1 ilogs); exact (proj1 (iflat0 _)). Qed.
Lemma iouts : outputs (w_log iw 0) 0 = 1%N. Proof. by vm_compute. Qed.
Definition ifd4 : fdd R := MkFdd 4 X01 id4.
Lemma iscaled : isSome (kernel_at xD 20 iw 0 4 4 X01 X01) /\ nr (iK 4 4 X01 X01) = 4%N. Proof. by split; vm_compute. Qed.
Lemma iscaled_none n : take_fdd (own_kernel iw) n ifd4 imu = None.
Proof.
rewrite /take_fdd; have -> : own_kernel iw (f_p ifd4) = Some (KScale (2%:R * 2%:R) (KMok 0 [:: 0; 2]%N)) by vm_compute.
by case: n.
Qed.
End Ex.

(* Two values of f, one of which is missing, in the model of ExLogPdf.v. *)
Section Missing.
Variables (R : rcfType) (ln : R -> R) (pi : R).
Hypothesis LN : logarithm ln.
Notation xD := (@xD R). Notation lw := (lw R). Notation fdA := (fdA R).
Local Opaque ExLogPdf.lw.
Definition my : seq (option R) := [:: None; Some 2%:R].
Definition mno : dmat R := DMat 1 1 (fun i j => ent (kn R) (nth 0%N [:: 1]%N i) (nth 0%N [:: 1]%N j)).
Definition mob : obs R := Obs 0 (X1 R) mno [:: 2%:R].
Lemma mobserve : observe (own_kernel lw) 5 fdA my = Some mob. Proof. by vm_compute. Qed.
Lemma mhome : home lw 0 = Some 0%N. Proof. by vm_compute. Qed.
Lemma msettled : well_settled lw 0 0.
Proof.
have F Q : flat Q (w_log lw 0) 0 by rewrite (proj1 (llogs R)).
split; [exists 0%N; split; [exact mhome | by rewrite lnm | exact (F _) | reflexivity | reflexivity] | exact (F _)].
Qed.
Lemma mhas : kernel_at xD 10 lw 0 7 7 (X01 R) (X01 R) && mean_at xD 10 lw 0 7 (X01 R). Proof. by vm_compute. Qed.
Lemma msz : size (lM 7 (X01 R)) = 2%N /\ nr (ljoint 7 fdA) = 2%N. Proof. by split; vm_compute. Qed.
(* Every vector has a log-density. *)
Lemma col_some n (d : normal R n) (x : 'cV[option R]_n) : (forall i, isSome (x i 0)) ->
  exists l, logpdf_cols ln pi d x = One (Some l).
Proof.
move=> H; rewrite /logpdf_cols enum_ordS enum_ord0 /= /logpdf_col.
have -> : [forall i, isSome (x i ord0)] by apply/forallP => i; exact: H.
by eexists.
Qed.
Lemma missing_some n (d : normal R n) (x : 'cV[option R]_n) : exists l, logpdf ln pi d x = One (Some l).
Proof.
rewrite /logpdf; case: ifP => [/forallP|_]; first exact: col_some.
apply: col_some => i; rewrite mxE; set l := [seq _ <- _ | _].
have := mem_tnth i (in_tuple l); by rewrite mem_filter => /andP [].
Qed.
Lemma logpdf_of D (w : world R) m r x N y n e K : mean_is D w m r x e -> cov_is D w m r r x x K ->
  size e = n -> nr N = n -> nc N = n -> size y = n -> exists l, logpdf_is ln pi D w m r x N y l.
Proof.
move=> Em Ek h1 h2 h3 h4; have [l El] := missing_some (fdd_normal n e K N) (\col_(i < n) nth None y i).
by exists l, n, e, K.
Qed.
Lemma mvalue1 : exists l, logpdf_is ln pi xD lw 0 7 (X01 R) (kn R) my l.
Proof.
exact (logpdf_of (lmean (proj2 (andP mhas))) (lcov (proj1 (andP mhas))) (proj1 msz)
  (erefl : nr (kn R) = 2%N) (erefl : nc (kn R) = 2%N) (erefl : size my = 2%N)).
Qed.
Lemma mhas2 : kernel_at xD 10 lw 0 8 8 (X1 R) (X1 R) && mean_at xD 10 lw 0 8 (X1 R). Proof. by vm_compute. Qed.
Lemma msz2 : [&& size (lM 8 (X1 R)) == 1, nr mno == 1 & nc mno == 1]%N. Proof. by vm_compute. Qed.
Lemma mvalue2 : exists l, logpdf_is ln pi xD lw 0 8 (X1 R) mno [:: Some 2%:R] l.
Proof. exact (lprior ln pi (y := [:: 2%:R]) mhas2 msz2). Qed.
Lemma mmeant : exists (W : space R) (G : pid -> point R -> rv W) (eps : mid -> nat -> rv W),
  let meant := meant xD G eps lw everywhere in
  [/\ model xD G eps lw everywhere, meant 0%N 7%N (f_x fdA) & meant 0%N 8%N (o_x mob)].
Proof.
have [W [G [eps [Mo H]]]] := lmodel R; exists W, G, eps; move=> mt.
have l0 : (0 < w_nm lw)%N by rewrite lnm.
by split; [exact Mo | refine (H _ _ _ 2%N l0 _); vm_compute | refine (H _ _ _ 1%N l0 _); vm_compute].
Qed.
End Missing.

(* Refutations, for P_Infer.v. *)
Section Refute.
Local Opaque iw.
Lemma nested_refuted (R : rcfType) : exists (D : nat -> (point R -> R) -> point R -> R) (W : space R) (G : pid -> point R -> rv W)
  (eps : mid -> nat -> rv W) (ops : seq (op R)) (m : mid) (p : pid) (x : input R) k s M,
  let w := run_ops ops in
  [/\ model D G eps w everywhere, meant D G eps w everywhere m p x, see_k w m p p = Some k /\ infer_size k x = Some s,
      cov_is D w m p p x x M & nr M <> s].
Proof.
have [W [G [eps [Mo _ _ _ [_ _ m5 _]]]]] := imeant R; have [h n5] := inested R.
have [k Ek Ei] := inested_k R.
exists (@xD R), W, G, eps, (iops R), 0%N, 5%N, (X01 R), k, 4%N, (iK 5 5 (X01 R) (X01 R)).
cbv zeta; rewrite -(iwE R); split; [exact Mo | exact m5 | split; [exact Ek | exact Ei] | exact (icov h) | rewrite n5; exact ne64].
Qed.
Lemma scaled_refuted (R : rcfType) : exists (D : nat -> (point R -> R) -> point R -> R) (W : space R) (G : pid -> point R -> rv W)
  (eps : mid -> nat -> rv W) (ops : seq (op R)) (m : mid) (f : fdd R) (mu : seq bool) M,
  let w := run_ops ops in
  [/\ model D G eps w everywhere, meant D G eps w everywhere m (f_p f) (f_x f), cov_is D w m (f_p f) (f_p f) (f_x f) (f_x f) M,
      [/\ size mu = nr M, nr (f_noise f) = nr M & nc (f_noise f) = nr M] &
      forall n, take_fdd (own_kernel w) n f mu = None].
Proof.
have [W [G [eps [Mo _ _ _ [_ m4 _ _]]]]] := imeant R; have [h n4] := iscaled R.
exists (@xD R), W, G, eps, (iops R), 0%N, (ifd4 R), imu, (iK 4 4 (X01 R) (X01 R)).
cbv zeta; rewrite -(iwE R); split; [exact Mo | exact m4 | exact (icov h) | rewrite n4; split; reflexivity | exact (iscaled_none R)].
Qed.
Lemma scaled_missing_refuted (R : rcfType) : exists (D : nat -> (point R -> R) -> point R -> R) (W : space R) (G : pid -> point R -> rv W)
  (eps : mid -> nat -> rv W) (ops : seq (op R)) (m : mid) (f : fdd R) (y : seq (option R)) M,
  let w := run_ops ops in
  [/\ model D G eps w everywhere, meant D G eps w everywhere m (f_p f) (f_x f), cov_is D w m (f_p f) (f_p f) (f_x f) (f_x f) M,
      [/\ size y = nr M, nr (f_noise f) = nr M & nc (f_noise f) = nr M] &
      forall n, observe (own_kernel w) n f y = None].
Proof.
have [W [G [eps [Mo _ _ _ [_ m4 _ _]]]]] := imeant R; have [h n4] := iscaled R.
exists (@xD R), W, G, eps, (iops R), 0%N, (ifd4 R), (iy R), (iK 4 4 (X01 R) (X01 R)).
cbv zeta; rewrite -(iwE R); split; [exact Mo | exact m4 | exact (icov h) | rewrite n4; split; reflexivity |].
move=> n; rewrite /observe /=; by rewrite (iscaled_none R n).
Qed.
Lemma product_refuted (R : rcfType) : exists (D : nat -> (point R -> R) -> point R -> R) (W : space R) (G : pid -> point R -> rv W)
  (eps : mid -> nat -> rv W) (ops : seq (op R)) (m : mid) (fs : seq (fdd R)) (ns : seq nat),
  let w := run_ops ops in
  [/\ model D G eps w everywhere,
      Forall2 (fun f n => meant D G eps w everywhere m (f_p f) (f_x f) /\
        exists2 K, cov_is D w m (f_p f) (f_p f) (f_x f) (f_x f) K & nr K = n) fs ns &
      forall (T : Type) (s : seq T), size s = sumn ns -> unpack fs s <> reshape ns s].
Proof.
have [W [G [eps [Mo m3 m0 _ _]]]] := imeant R; have [h3 h0 _ _ _] := and5P (ihas R); have [n3 _ _] := inr R.
have n0 := in0 R.
exists (@xD R), W, G, eps, (iops R), 0%N, [:: ifd R; MkFdd 0 (X1 R) (one1 R)], [:: 4; 1]%N.
cbv zeta; rewrite -(iwE R); split; [exact Mo | | ].
  apply: Forall2_cons; [split; [exact m3 | exists (iK 3 3 (X01 R) (X01 R)); [exact (icov h3) | exact n3]] |].
  apply: Forall2_cons; [split; [exact m0 | exists (iK 0 0 (X1 R) (X1 R)); [exact (icov h0) | exact n0]] |].
  exact: Forall2_nil.
by move=> T [|a [|b [|c [|d [|e [|f s]]]]]].
Qed.
End Refute.
