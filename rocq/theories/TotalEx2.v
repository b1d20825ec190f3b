(* A model with pseudo-observations, for the statements about which evaluations succeed
   (P_Total.v). *)
From Coq Require Import List.
From mathcomp Require Import all_ssreflect all_algebra.
From Verif Require Import Graph Machine Refine Worlds GraphSpec RV Typing ModelSpec Plain PlainThms ExModel TotalSpec TotalThms TotalEx.
Set Implicit Arguments. Unset Strict Implicit. Unset Printing Implicit Defensive.
Import GRing.Theory Num.Theory.
Local Open Scope ring_scope.

Section Ex.
Variables (R : realFieldType) (b : bool).
Definition me := if b then VFE else DTC.
(* 0: f, 1: e, 2: f + e, 3: a multiple of f by a function.  Measure 1 is the approximation given
   data of f + e at 0 and 1, with an inducing point of f at 0; measure 2 is measure 1 given data
   of 3; 4: cross(2, 3). *)
Definition ad : pdata R := PData 2 (X01 R) [:: 1; 1] [:: 1; 2%:R] me.
Definition ao : Machine.obs R := MkObs 0 (X0 R) (idm R 1) [::] (Some ad).
Definition ao2 : Machine.obs R := Obs 3 (X01 R) (idm R 2) [:: 1; 2%:R].
Definition aops : seq (op R) :=
  [:: OMeasure; OGP 0 (MElem (@xmu R 0)) (KElem (@klin R)); OGP 0 (MElem (@xmu R 1)) (KElem (@klin R)); OSum 0 1 [:: 0%N];
      OMulF 0 (fun t => nth 0 t 0); OCond 0 ao; OCond 1 ao2; OCross [:: 2; 3]%N [:: 0; 1; 2]%N].
Definition aw := run_ops aops.
Lemma aw_run : aw = run_ops aops. Proof. reflexivity. Qed.
Lemma a_total o : In o aops -> total_call (@xD R) o.
Proof.
have H p : total_mean (@xD R) (MElem (xmu p)) /\ total_kernel (@xD R) (KElem (@klin R)).
  by split; [exact: elem_total_mean | exact: elem_total].
rewrite /aops /=; intuition; subst o; try exact: Logic.I; exact: H.
Qed.
Lemma a_plain : plain (@xD R) (@xmu R) (@xka R) world0 aops.
Proof.
split=> //; split; first by split; [exact: elem_mean | exact: elem_kernel].
split; first by split; [exact: elem_mean | exact: elem_kernel].
by do 2 (split=> //); split; [exact: idm_sym | split; [exact: idm_sym |]].
Qed.
Lemma a_last : cross_last aops. Proof. by []. Qed.
Lemma a_pd : pd_noise aops.
Proof.
have H1 : pd_matrix (o_noise ao) /\ forall d, o_data ao = Some d -> all (fun a => 0 < a) (d_noise d).
  by split; [exact: idm_pd | move=> d [<-]; rewrite /= ltr01].
have H2 : pd_matrix (o_noise ao2) /\ forall d, o_data ao2 = Some d -> all (fun a => 0 < a) (d_noise d).
  by split; [exact: idm_pd |].
move=> m o; rewrite /aops /=; do 5 (case=> [//|]); case=> [[_ <-] //|]; case=> [[_ <-] //|]; by case.
Qed.
Definition abase (w : world R) m := omap (fun t : mid * hist R * obs R => (t.1.1, t.2)) (base (w_log w m)).
Lemma aw_nm : w_nm aw = 3%N. Proof. vm_compute; reflexivity. Qed.
Lemma a_base0 : abase aw 0 = None. Proof. vm_compute; reflexivity. Qed.
Lemma a_base1 : abase aw 1 = Some (0%N, ao). Proof. vm_compute; reflexivity. Qed.
Lemma a_base2 : abase aw 2 = Some (1%N, ao2). Proof. vm_compute; reflexivity. Qed.
Lemma a_w0 : widths false (w_log aw 0) 0 (X0 R) = Some 1%N. Proof. vm_compute; reflexivity. Qed.
Lemma a_w2 : widths false (w_log aw 0) 2 (X01 R) = Some 2%N. Proof. vm_compute; reflexivity. Qed.
Lemma a_w3 : widths false (w_log aw 1) 3 (X01 R) = Some 2%N. Proof. vm_compute; case: b; reflexivity. Qed.
Lemma a_w4 : widths true (w_log aw 2) 4 (X01 R) = Some 4%N. Proof. vm_compute; case: b; reflexivity. Qed.
Lemma afits_of (w : world R) : w_nm w = 3%N -> abase w 0 = None -> abase w 1 = Some (0%N, ao) -> abase w 2 = Some (1%N, ao2) ->
  widths false (w_log w 0) 0 (X0 R) = Some 1%N -> widths false (w_log w 0) 2 (X01 R) = Some 2%N ->
  widths false (w_log w 1) 3 (X01 R) = Some 2%N -> sizes_fit false w.
Proof.
move=> nm b0 b1 b2 w0 w2 w3; split=> m m' o.
  move=> ps [lt eo [par eb _]]; right; exists 2%N; rewrite nm in lt.
  case: m' lt eb => [|[|[|//]]] _ eb.
  - by move: b0; rewrite /abase eb.
  - by move: b1 eo; rewrite /abase eb => -[_ ->].
  - by move: b2; rewrite /abase eb => -[-> ->].
move=> d ps [lt eo [par eb _]]; exists 1%N, 2%N; rewrite nm in lt.
case: m' lt eb => [|[|[|//]]] _ eb.
- by move: b0; rewrite /abase eb.
- by move: b1 eo; rewrite /abase eb => -[-> ->] [<-].
- by move: b2 eo; rewrite /abase eb => -[_ ->].
Qed.
Lemma a_fits : sizes_fit false aw.
Proof. exact (afits_of aw_nm a_base0 a_base1 a_base2 a_w0 a_w2 a_w3). Qed.
Lemma a_lt : (2 < w_nm aw)%N. Proof. by rewrite aw_nm. Qed.
Lemma approx_of (w : world R) : w_nm w = 3%N -> abase w 1 = Some (0%N, ao) -> exists ps, approximated w 1 0 ao ad ps.
Proof.
move=> nm; rewrite /abase; case E: (base (w_log w 1)) => [[[pm par] o]|] //= [e1 e2].
exists (pids par); split=> //; first by rewrite nm.
by exists par => //; rewrite E e1 e2.
Qed.
Lemma a_approx : exists ps, approximated aw 1 0 ao ad ps. Proof. exact (approx_of aw_nm a_base1). Qed.
Lemma a_exists : exists M, cov_is (@xD R) aw 2 4 4 (X01 R) (X01 R) M.
Proof.
have := conj a_fits (conj a_lt a_w4).
move: a_plain a_total a_last a_pd aw_run; move: aw aops => w ops h1 h2 h3 h4 e; subst w => -[h5 [h6 h7]].
have [M HM _] := plain_pd_kernels (@xD0 R) (@xka_sym R) (@xka_psd R) h1 h2 h3 h4 h5 h6 (@t_filled R) (@t_filled R) h7 h7.
exists M; exact HM.
Qed.
Lemma a_usable : usable_pseudo (@xD R) aw 0 ao ad.
Proof.
have := conj a_fits a_approx.
move: a_plain a_total a_last a_pd aw_run; move: aw aops => w ops h1 h2 h3 h4 e; subst w => -[h5 [ps h6]].
exact: (pd_usable_pseudo (@xD0 R) (@xka_sym R) (@xka_psd R) (@no_dif R (@xD R)) (plain_is_mixed h1) (plain_factors h1 false) h3 h4 h5 h6).
Qed.
End Ex.

(* The same without the data of 3, for each of the three methods. *)
Section Any.
Variables (R : realFieldType) (me : method).
Definition fd : pdata R := PData 2 (X01 R) [:: 1; 1] [:: 1; 2%:R] me.
Definition fo : Machine.obs R := MkObs 0 (X0 R) (idm R 1) [::] (Some fd).
Definition fops : seq (op R) :=
  [:: OMeasure; OGP 0 (MElem (@xmu R 0)) (KElem (@klin R)); OGP 0 (MElem (@xmu R 1)) (KElem (@klin R)); OSum 0 1 [:: 0%N];
      OMulF 0 (fun t => nth 0 t 0); OCond 0 fo].
Definition fw := run_ops fops.
Lemma fw_run : fw = run_ops fops. Proof. reflexivity. Qed.
Lemma f_total' o : In o fops -> total_call (@xD R) o.
Proof.
have H p : total_mean (@xD R) (MElem (xmu p)) /\ total_kernel (@xD R) (KElem (@klin R)).
  by split; [exact: elem_total_mean | exact: elem_total].
rewrite /fops /=; intuition; subst o; try exact: Logic.I; exact: H.
Qed.
Lemma f_plain : plain (@xD R) (@xmu R) (@xka R) world0 fops.
Proof.
split=> //; split; first by split; [exact: elem_mean | exact: elem_kernel].
split; first by split; [exact: elem_mean | exact: elem_kernel].
by do 2 (split=> //); split; [exact: idm_sym |].
Qed.
Lemma f_last : cross_last fops. Proof. by []. Qed.
Lemma f_pd : pd_noise fops.
Proof.
have H1 : pd_matrix (o_noise fo) /\ forall d, o_data fo = Some d -> all (fun a => 0 < a) (d_noise d).
  by split; [exact: idm_pd | move=> d [<-]; rewrite /= ltr01].
move=> m o; rewrite /fops /=; do 5 (case=> [//|]); case=> [[_ <-] //|]; by case.
Qed.
Lemma fw_nm : w_nm fw = 2%N. Proof. vm_compute; reflexivity. Qed.
Lemma f_base0 : abase fw 0 = None. Proof. vm_compute; reflexivity. Qed.
Lemma f_base1 : abase fw 1 = Some (0%N, fo). Proof. vm_compute; reflexivity. Qed.
Lemma f_w0 : widths false (w_log fw 0) 0 (X0 R) = Some 1%N. Proof. vm_compute; reflexivity. Qed.
Lemma f_w2 : widths false (w_log fw 0) 2 (X01 R) = Some 2%N. Proof. vm_compute; reflexivity. Qed.
Lemma f_w3 : widths true (w_log fw 0) 3 (X01 R) = Some 2%N. Proof. vm_compute; reflexivity. Qed.
Lemma ffits_of (w : world R) : w_nm w = 2%N -> abase w 0 = None -> abase w 1 = Some (0%N, fo) ->
  widths false (w_log w 0) 0 (X0 R) = Some 1%N -> widths false (w_log w 0) 2 (X01 R) = Some 2%N -> sizes_fit false w.
Proof.
move=> nm b0 b1 w0 w2; split=> m m' o.
  move=> ps [lt eo [par eb _]]; right; exists 2%N; rewrite nm in lt.
  case: m' lt eb => [|[|//]] _ eb.
  - by move: b0; rewrite /abase eb.
  - by move: b1 eo; rewrite /abase eb => -[_ ->].
move=> d ps [lt eo [par eb _]]; exists 1%N, 2%N; rewrite nm in lt.
case: m' lt eb => [|[|//]] _ eb.
- by move: b0; rewrite /abase eb.
- by move: b1 eo; rewrite /abase eb => -[-> ->] [<-].
Qed.
Lemma f_fits : sizes_fit false fw.
Proof. exact (ffits_of fw_nm f_base0 f_base1 f_w0 f_w2). Qed.
Definition fps : seq pid := [:: 3; 2; 1; 0]%N.
Lemma f_par : omap (fun t : mid * hist R * obs R => pids t.1.2) (base (w_log fw 1)) = Some fps. Proof. vm_compute; reflexivity. Qed.
Lemma fapprox_of (w : world R) : w_nm w = 2%N -> abase w 1 = Some (0%N, fo) ->
  omap (fun t : mid * hist R * obs R => pids t.1.2) (base (w_log w 1)) = Some fps -> approximated w 1 0 fo fd fps.
Proof.
move=> nm; rewrite /abase; case E: (base (w_log w 1)) => [[[pm par] o]|] //= [e1 e2] [e3].
split=> //; first by rewrite nm.
by exists par => //; rewrite E e1 e2.
Qed.
Lemma f_approx : approximated fw 1 0 fo fd fps. Proof. exact (fapprox_of fw_nm f_base1 f_par). Qed.
End Any.
