(* Models for the statements about which FDDs can be constructed (P_Size.v). *)
From Coq Require Import List.
From mathcomp Require Import all_ssreflect all_algebra.
From Verif Require Import Graph Machine Refine Worlds Eval GraphSpec GraphProofs GraphOps RV RVProofs Sound Typing ModelSpec Plain PlainThms ExModel TotalSpec Total TotalThms TotalEx Infer SizeSpec.
Set Implicit Arguments. Unset Strict Implicit. Unset Printing Implicit Defensive.
Import GRing.Theory Num.Theory.
Local Open Scope ring_scope.

(* 0: f, 1: e, 2: cross(f, e), and two rounds of conditioning on the same data. *)
Section Ex.
Variables (R : realFieldType) (ob : obs R).
Definition zops : seq (op R) :=
  [:: OMeasure; OGP 0 (MElem (xmu 0)) (KElem (@klin R)); OGP 0 (MElem (xmu 1)) (KElem (@klin R));
      OCross [:: 0; 1]%N [:: 0%N]; OCond 0 ob; OCond 1 ob].
Definition zlog0 : hist R :=
  HAdd 2 (DCross [:: 0; 1]%N) (HAdd 1 (DInd (MElem (xmu 1)) (KElem (@klin R)))
    (HAdd 0 (DInd (MElem (xmu 0)) (KElem (@klin R))) HRoot)).
Definition zlog1 := HPost 0 zlog0 ob.
Definition zlog2 := HPost 1 zlog1 ob.
Definition zgood : Prop :=
  [/\ [/\ o_data ob = None, o_noise ob = idm R 2, size (o_y ob) = 2%N & (o_p ob < 3)%N],
      mean_input zlog0 (o_p ob) (o_x ob), mean_input zlog1 (o_p ob) (o_x ob),
      widths false zlog0 (o_p ob) (o_x ob) = Some 2%N & widths false zlog1 (o_p ob) (o_x ob) = Some 2%N].
Notation zw := (run_ops zops).
Hypothesis Z : zgood.
Hypothesis z_state : [/\ w_nm zw = 3%N, w_log zw 0 = zlog0, w_log zw 1 = zlog1 & w_log zw 2 = zlog2].


Lemma z_total o : In o zops -> total_call (@xD R) o.
Proof.
have H p : total_mean (@xD R) (MElem (xmu p)) /\ total_kernel (@xD R) (KElem (@klin R)).
  by split; [exact: elem_total_mean | exact: elem_total].
by case: Z => -[ed _ _ _] _ _ _ _; rewrite /zops /=; intuition; subst o.
Qed.
Lemma z_plain : plain (@xD R) (@xmu R) (@xka R) world0 zops.
Proof.
case: Z => -[ed en _ _] _ _ _ _.
split=> //; split; first by split; [exact: elem_mean | exact: elem_kernel].
split; first by split; [exact: elem_mean | exact: elem_kernel].
split=> //; split; first by rewrite /= ?ed ?en; exact: idm_sym.
by split=> //; rewrite /= ?ed ?en; exact: idm_sym.
Qed.
Lemma z_pd : pd_noise zops.
Proof.
case: Z => -[ed en _ _] _ _ _ _ m o.
move=> Hin; suff [-> ->] : o_noise o = idm R 2 /\ o_data o = None by split=> //; exact: idm_pd.
move: Hin; rewrite /zops /=; intuition; try discriminate;
  by match goal with E : OCond _ _ = OCond _ _ |- _ => case: E => _ <- end.
Qed.
Lemma z_fits : sizes_fit false zw.
Proof.
have [nm l0 l1 l2] := z_state; case: Z => -[ed en ey lp] i0 i1 w0 w1.
split=> m m' o; last first.
  move=> d ps [lt eo [par eb _]]; move: lt eb eo; rewrite nm.
  case: m' => [|[|[|m' lt]]]; last discriminate lt.
  - move=> _; rewrite l0 => eb; discriminate eb.
  - by move=> _; rewrite l1 => -[_ _ <-]; rewrite ed.
  - by move=> _; rewrite l2 => -[_ _ <-]; rewrite ed.
move=> ps [lt _ [par eb _]]; right; exists 2%N; move: lt eb; rewrite nm.
case: m' => [|[|[|m' lt]]]; last discriminate lt.
- move=> _; rewrite l0 => eb; discriminate eb.
- by move=> _; rewrite l1 => -[<- _ <-]; split; rewrite ?l0 ?en.
- by move=> _; rewrite l2 => -[<- _ <-]; split; rewrite ?l1 ?en.
Qed.
Lemma z_exists p x a : filled x -> widths true zlog2 p x = Some a ->
  exists2 M, cov_is (@xD R) zw 2 p p x x M & nr M = a.
Proof.
have [nm _ _ l2] := z_state; rewrite -l2 => F Wp; have lt : (2 < w_nm zw)%N by rewrite nm.
have [M HM [e _]] := plain_pd_kernels (@xD0 R) (@xka_sym R) (@xka_psd R) z_plain z_total (erefl : cross_last zops) z_pd z_fits lt F F Wp Wp.
by exists M.
Qed.
End Ex.

Section Both.
Variable R : realFieldType.
(* Observations of f, and of the Cartesian product. *)
Definition zf : obs R := Obs 0 (X01 R) (idm R 2) [:: 1; 2%:R].
Definition zc : obs R := Obs 2 (X0 R) (idm R 2) [:: 1; 2%:R].
Lemma zf_good : zgood zf. Proof. by split; [split| | | |]; vm_compute. Qed.
Lemma zc_good : zgood zc. Proof. by split; [split| | | |]; vm_compute. Qed.
Definition z_is (ob : obs R) := let w := run_ops (zops ob) in
  [/\ w_nm w = 3%N, w_log w 0 = zlog0 R, w_log w 1 = zlog1 ob & w_log w 2 = zlog2 ob].
Lemma zf_state : z_is zf. Proof. split; vm_compute; reflexivity. Qed.
Lemma zc_state : z_is zc. Proof. split; vm_compute; reflexivity. Qed.
Definition dim_at (ob : obs R) (m : mid) (p : pid) (x : input R) := omap (fun k => infer_size k x) (see_k (run_ops (zops ob)) m p p).
Lemma zf_dims : (dim_at zf 0 2 (X01 R), dim_at zf 1 2 (X01 R), dim_at zf 2 2 (X01 R)) = (Some (Some 4%N), Some (Some 4%N), Some None).
Proof. vm_compute; reflexivity. Qed.
Lemma zc_dims : (dim_at zc 0 0 (X01 R), dim_at zc 1 0 (X01 R), dim_at zc 2 0 (X01 R)) = (Some (Some 2%N), Some (Some 2%N), Some None).
Proof. vm_compute; reflexivity. Qed.
Lemma zf_dim : dim_at zf 2 2 (X01 R) = Some None. Proof. vm_compute; reflexivity. Qed.
Lemma zc_dim : dim_at zc 2 0 (X01 R) = Some None. Proof. vm_compute; reflexivity. Qed.
Lemma dim_kernel ob m p x : dim_at ob m p x = Some None -> exists2 k, see_k (run_ops (zops ob)) m p p = Some k & infer_size k x = None.
Proof. by rewrite /dim_at; case: (see_k _ _ _ _) => [k|] //= [e]; exists k. Qed.

Lemma twice_product : exists p x M k, let w := run_ops (zops zf) in
  [/\ cov_is (@xD R) w 2 p p x x M, nr M = 4%N, see_k w 2 p p = Some k & infer_size k x = None].
Proof.
have [M HM e] := z_exists zf_good zf_state (isT : filled (X01 R)) (erefl : widths true (zlog2 zf) 2 (X01 R) = Some 4%N).
have [k Ek Ed] := dim_kernel zf_dim; exists 2%N, (X01 R), M, k; exact (And4 HM e Ek Ed).
Qed.
Lemma twice_data : exists p x M k, let w := run_ops (zops zc) in
  [/\ cov_is (@xD R) w 2 p p x x M, nr M = 2%N, see_k w 2 p p = Some k & infer_size k x = None].
Proof.
have [M HM e] := z_exists zc_good zc_state (isT : filled (X01 R)) (erefl : widths true (zlog2 zc) 0 (X01 R) = Some 2%N).
have [k Ek Ed] := dim_kernel zc_dim; exists 0%N, (X01 R), M, k; exact (And4 HM e Ek Ed).
Qed.
End Both.
