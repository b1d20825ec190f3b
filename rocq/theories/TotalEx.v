(* Models for the statements about which evaluations succeed (P_Total.v). *)
From Coq Require Import List.
From mathcomp Require Import all_ssreflect all_algebra.
From mathcomp Require Import zify.
From Verif Require Import Graph Machine Refine Worlds Eval GraphSpec GraphProofs GraphOps RV RVProofs Sound Typing ModelSpec Plain PlainThms ExModel TotalSpec Total TotalThms.
Set Implicit Arguments. Unset Strict Implicit. Unset Printing Implicit Defensive.
Import GRing.Theory Num.Theory.
Local Open Scope ring_scope.

Section Elem.
Variables (R : fieldType) (D : nat -> (point R -> R) -> point R -> R).
Lemma elem_total f : total_kernel D (KElem f).
Proof. by move=> rdk rdm xs ys _ _; exists 1%N; eexists; split; [reflexivity | ..]. Qed.
Lemma elem_total_mean f : total_mean D (MElem f).
Proof. by move=> rdk rdm xs _; exists 1%N, (map f xs); rewrite size_map. Qed.
Lemma zero_total_mean : total_mean D (@MZero R).
Proof. by move=> rdk rdm xs _; exists 1%N, (nseq (size xs) 0); rewrite size_nseq. Qed.
End Elem.

(* Where evaluation fails. *)
Section Fail.
Variable R : fieldType.
Notation D0 := (fun (_ : nat) (_ : point R -> R) (_ : point R) => (0 : R)).
Definition ek : kexp R := KElem (fun s t => nth 0 s 0 * nth 0 t 0).
Definition two : input R := Num [:: [:: 0]; [:: 1]].
(* 0: f, 1: cross(f, f), 2: f * g *)
Definition fmul_ops : seq (op R) :=
  [:: OMeasure; OGP 0 (@MZero R) ek; OCross [:: 0; 0]%N [:: 0%N]; OMulF 0 (fun t => nth 0 t 0)].
(* 0: f, 1: cross(f, f), 2: f.shift(1) *)
Definition fshift_ops : seq (op R) :=
  [:: OMeasure; OGP 0 (@MZero R) ek; OCross [:: 0; 0]%N [:: 0%N]; OShift 0 (fun=> 1)].
(* 0: f, 1: cross(f, f), 2: cross(f, f) + 1 *)
Definition fadd_ops : seq (op R) :=
  [:: OMeasure; OGP 0 (@MZero R) ek; OCross [:: 0; 0]%N [:: 0%N]; OAddC 1 1].

Lemma fmul_log : w_nm (run_ops fmul_ops) = 1%N /\ w_log (run_ops fmul_ops) 0 =
  HAdd 2 (DFun 0 (FUser (fun t => nth 0 t 0))) (HAdd 1 (DCross [:: 0; 0]%N) (HAdd 0 (DInd (@MZero R) ek) HRoot)).
Proof. by vm_compute. Qed.
Lemma fshift_log : w_nm (run_ops fshift_ops) = 1%N /\ w_log (run_ops fshift_ops) 0 =
  HAdd 2 (DShift 0 (fun=> 1)) (HAdd 1 (DCross [:: 0; 0]%N) (HAdd 0 (DInd (@MZero R) ek) HRoot)).
Proof. by vm_compute. Qed.
Lemma fadd_log : w_nm (run_ops fadd_ops) = 1%N /\ w_log (run_ops fadd_ops) 0 =
  HAdd 2 (DAddC 1 1) (HAdd 1 (DCross [:: 0; 0]%N) (HAdd 0 (DInd (@MZero R) ek) HRoot)).
Proof. by vm_compute. Qed.
Lemma f_total o : In o fmul_ops \/ In o fshift_ops \/ In o fadd_ops -> total_op D0 o.
Proof.
have H : total_mean D0 (@MZero R) /\ total_kernel D0 ek.
  by split; [exact: zero_total_mean | exact: elem_total].
by rewrite /fmul_ops /fshift_ops /fadd_ops /=; intuition; subst o.
Qed.
Lemma uncond (w : world R) m' m o ps : w_nm w = 1%N -> base (w_log w 0) = None -> ~ conditioned w m' m o ps.
Proof. by move=> en eb [lt _ [par e _]]; move: lt e; rewrite en; case: m' => // _; rewrite eb. Qed.

(* Enough fuel: if there is a value then there is one with more fuel. *)
Lemma fail_cov (w : world R) m p q x y N : (forall n, kernel_at D0 (N + n) w m p q x y = None) ->
  forall M, ~ cov_is D0 w m p q x y M.
Proof.
move=> H M [n]; move: (H n); rewrite /kernel_at; case: (see_k w m p q) => //= k E1 E2.
by have := evk_fuel (leq_addl N n) E2; rewrite E1.
Qed.
Lemma fail_mean (w : world R) m p x N : (forall n, mean_at D0 (N + n) w m p x = None) ->
  forall e, ~ mean_is D0 w m p x e.
Proof.
move=> H e [n]; move: (H n); rewrite /mean_at; case: (see_m w m p) => //= k E1 E2.
by have := evm_fuel (leq_addl N n) E2; rewrite E1.
Qed.
Lemma fmul_fails M : ~ cov_is D0 (run_ops fmul_ops) 0 2 1 two two M.
Proof. by apply: (@fail_cov _ _ _ _ _ _ 10) => n; vm_compute. Qed.
Lemma fshift_fails M : ~ cov_is D0 (run_ops fshift_ops) 0 2 1 two (Fdd 0 two) M.
Proof. by apply: (@fail_cov _ _ _ _ _ _ 10) => n; vm_compute. Qed.
Lemma fadd_fails e : ~ mean_is D0 (run_ops fadd_ops) 0 2 two e.
Proof. by apply: (@fail_mean _ _ _ _ 10) => n; vm_compute. Qed.
End Fail.

(* A model that the positive theorems apply to.
   0: f, 1: e, 2: f + e, 3: f * (x -> x), 4: f.shift(1), 5: f.diff(), 6: cross(f, f + e). *)
Section Works.
Variable R : realFieldType.
Definition idm (n : nat) : dmat R := DMat n n (fun i j => if i == j then 1 else 0).
Definition ob1t : obs R := Obs 0 (X01 R) (idm 2) [:: 1; 2%:R].
Definition ob2t : obs R := Obs 6 (Tup [:: Fdd 0 (X0 R); Fdd 2 (X1 R)]) (idm 2) [:: 1; 2%:R].
Definition tops : seq (op R) :=
  [:: OMeasure; OGP 0 (MElem (xmu 0)) (KElem (@klin R)); OGP 0 (MElem (xmu 1)) (KElem (@klin R)); OSum 0 1 [:: 0%N];
      OMulF 0 (fun t => nth 0 t 0); OShift 0 (fun=> 1); ODiff 0 0; OCross [:: 0; 2]%N [:: 0%N];
      OCond 0 ob1t; OCond 1 ob2t].
Definition tw := run_ops tops.
Definition tlog0 : hist R :=
  HAdd 6 (DCross [:: 0; 2]%N) (HAdd 5 (DDiff 0 0) (HAdd 4 (DShift 0 (fun=> 1))
    (HAdd 3 (DFun 0 (FUser (fun t => nth 0 t 0))) (HAdd 2 (DSum 0 1) (HAdd 1 (DInd (MElem (xmu 1)) (KElem (@klin R)))
      (HAdd 0 (DInd (MElem (xmu 0)) (KElem (@klin R))) HRoot)))))).
Definition tlog1 := HPost 0 tlog0 ob1t.
Definition tlog2 := HPost 1 tlog1 ob2t.
Lemma tw_nm : w_nm tw = 3%N. Proof. by vm_compute. Qed.
Lemma tw_log0 : w_log tw 0 = tlog0. Proof. by vm_compute. Qed.
Lemma tw_log1 : w_log tw 1 = tlog1. Proof. by vm_compute. Qed.
Lemma tw_log2 : w_log tw 2 = tlog2. Proof. by vm_compute. Qed.
Lemma t_total o : In o tops -> total_call (@xD R) o.
Proof.
have H p : total_mean (@xD R) (MElem (xmu p)) /\ total_kernel (@xD R) (KElem (@klin R)).
  by split; [exact: elem_total_mean | exact: elem_total].
rewrite /tops /=; intuition; subst o; try exact: Logic.I; try reflexivity; exact: H.
Qed.
Lemma idm_sym n : square_sym (idm n).
Proof. by split=> // i j _ _ /=; rewrite eq_sym. Qed.
Lemma t_plain : plain (@xD R) (@xmu R) (@xka R) world0 tops.
Proof.
split=> //; split; first by split; [exact: elem_mean | exact: elem_kernel].
split; first by split; [exact: elem_mean | exact: elem_kernel].
by do 5 (split=> //); split; [exact: idm_sym | split; [exact: idm_sym |]].
Qed.
Lemma idm_pd n : pd_matrix (idm n).
Proof.
split=> // c [i li nz] /=; rewrite [X in 0 < X](_ : _ = \sum_(i < n) c i ^+ 2); last first.
  apply: eq_bigr => a _; rewrite (bigD1 a) //= eqxx mulr1 big1 ?addr0 ?expr2 // => b ne.
  by rewrite eq_sym (inj_eq val_inj) (negbTE ne) mulr0.
rewrite (bigD1 (Ordinal li)) //= ltr_paddr ?sumr_ge0 // => [*|]; first exact: sqr_ge0.
by rewrite Order.POrderTheory.lt_def sqr_ge0 sqrf_eq0 nz.
Qed.
Lemma t_pd : pd_noise tops.
Proof.
move=> m o Hin; suff [-> ->] : o_noise o = idm 2 /\ o_data o = None by split=> //; exact: idm_pd.
move: Hin; rewrite /tops /=; intuition; try discriminate;
  by match goal with E : OCond _ _ = OCond _ _ |- _ => case: E => _ <- end.
Qed.
Lemma t_fits1 : fits false tw 0 ob1t 2.
Proof. by split=> //; rewrite tw_log0; vm_compute. Qed.
Lemma t_fits2 : fits false tw 1 ob2t 2.
Proof. by split=> //; rewrite tw_log1; vm_compute. Qed.
Lemma t_fits : sizes_fit false tw.
Proof.
split=> m m' o; last first.
  move=> d ps [lt eo [par eb _]]; move: lt eb eo; rewrite tw_nm.
  case: m' => [|[|[|m' lt]]]; last discriminate lt.
  - move=> _; rewrite tw_log0 => eb; discriminate eb.
  - move=> _; rewrite tw_log1 => -[_ _ <-] eo; discriminate eo.
  - move=> _; rewrite tw_log2 => -[_ _ <-] eo; discriminate eo.
move=> ps [lt _ [par eb _]]; right; exists 2%N; move: lt eb; rewrite tw_nm.
case: m' => [|[|[|m' lt]]]; last discriminate lt.
- move=> _; rewrite tw_log0 => eb; discriminate eb.
- move=> _; rewrite tw_log1 => -[<- _ <-]; exact t_fits1.
- move=> _; rewrite tw_log2 => -[<- _ <-]; exact t_fits2.
Qed.
Lemma t_last : cross_last tops. Proof. by []. Qed.
Lemma t_widths : [/\ widths true (w_log tw 2) 5 (X01 R) = Some 2%N, widths true (w_log tw 2) 6 (X01 R) = Some 4%N &
  widths false (w_log tw 2) 3 (X01 R) = Some 2%N].
Proof. by rewrite tw_log2; vm_compute. Qed.
Lemma t_width5 : widths true (w_log tw 2) 5 (X01 R) = Some 2%N. Proof. by case: t_widths. Qed.
Lemma t_width6 : widths true (w_log tw 2) 6 (X01 R) = Some 4%N. Proof. by case: t_widths. Qed.
Lemma t_lt : (2 < w_nm tw)%N. Proof. by rewrite tw_nm. Qed.
Lemma t_filled : filled (X01 R). Proof. by []. Qed.
Lemma tw_run : tw = run_ops tops. Proof. reflexivity. Qed.
Lemma t_exists : exists M, cov_is (@xD R) tw 2 5 6 (X01 R) (X01 R) M.
Proof.
have := conj t_fits (conj t_lt (conj t_width5 t_width6)).
move: t_plain t_total t_last t_pd tw_run; move: tw tops => w ops h1 h2 h3 h4 e; subst w => -[h5 [h6 [h7 h8]]].
have [M HM _] := plain_pd_kernels (@xD0 R) (@xka_sym R) (@xka_psd R) h1 h2 h3 h4 h5 h6 t_filled t_filled h7 h8.
exists M; exact HM.
Qed.
End Works.
