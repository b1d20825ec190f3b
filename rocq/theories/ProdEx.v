(* A model with products and derivatives (P_Prod.v). *)
From Coq Require Import List.
From mathcomp Require Import all_ssreflect all_algebra.
From Verif Require Import Graph Machine Refine Worlds Eval GraphSpec GraphProofs RV Typing ModelSpec Plain PlainThms ExModel TotalSpec TotalEx ProdSpec.
Set Implicit Arguments. Unset Strict Implicit. Unset Printing Implicit Defensive.
Import GRing.Theory Num.Theory.
Local Open Scope ring_scope.

Section ProdEx.
Variable R : realFieldType.
(* The forward difference. *)
Definition fwd (t : point R) : point R := [seq z + 1 | z <- t].
Definition eD (d : nat) (f : point R -> R) (t : point R) : R := f (fwd t) - f t.
Lemma eD0 d t : eD d (fun=> 0) t = 0. Proof. exact: subr0. Qed.
Lemma eD_diff : differences eD.
Proof.
exists (fun=> [:: (1, fwd); (-1, id)]) => d f x.
by rewrite !big_cons big_nil /= mul1r mulN1r addr0.
Qed.
Lemma eKernel f : is_kernel eD (KElem f) f.
Proof. by move=> rdk rdm [|n] xs ys M //= [<-]. Qed.
Lemma eMean f : is_mean eD (MElem f) f.
Proof. by move=> rdk rdm [|n] [xs'|p x|xs'] xs v //= [<-] [<-]. Qed.
(* 0: f, 1: e, 2: f + e, 3: f * (f + e) with its parts 4-7, 8: the derivative of 3; measure 1
   given 3; 9: 8 * e with its parts 10-13 (measure 0) and 14-17 (measure 1), 18: cross(3, 9). *)
Definition pob : obs R := Obs 3 (X01 R) (idm R 2) [:: 1; 2%:R].
Definition pops : seq (op R) :=
  [:: OMeasure; OGP 0 (MElem (xmu 0)) (KElem (@klin R)); OGP 0 (MElem (xmu 1)) (KElem (@klin R)); OSum 0 1 [:: 0%N];
      OMul 0 2 [:: 0%N]; ODiff 3 0; OCond 0 pob; OMul 8 1 [:: 0; 1]%N; OCross [:: 3; 9]%N [:: 0; 1]%N].
Definition pw := run_ops pops.
Lemma pw_nm : w_nm pw = 2%N. Proof. by vm_compute. Qed.
Lemma p_first : gp_first pops. Proof. by []. Qed.
Lemma p_mixed : mixed eD (@xmu R) (@xka R) world0 pops.
Proof.
split=> //; split; first by split; [exact: eMean | exact: eKernel].
split; first by split; [exact: eMean | exact: eKernel].
by do 3 (split=> //); split; [exact: idm_sym |].
Qed.
Definition w1 (w : world R) (m : mid) (p : pid) : bool := width true (w_log w m) p (Num [:: [::]]) == Some 1%N.
Lemma factors_of (ops : seq (op R)) w L : w = run_ops ops -> w_nm w = 2%N ->
  (forall p q ord, In (OMul p q ord) ops -> (p, q) \in L) ->
  all (fun pq => w1 w 0 pq.1 && w1 w 0 pq.2) L -> all (fun pq => w1 w 1 pq.1 && w1 w 1 pq.2) L -> factors true ops.
Proof.
move=> -> nm H H0 H1 p q ord m /H Hin; rewrite /members nm; case: m => [|[|m]] //.
  by move/allP/(_ _ Hin)/andP: H0 => [/eqP ? /eqP ?].
by move/allP/(_ _ Hin)/andP: H1 => [/eqP ? /eqP ?].
Qed.
Lemma p_w0 : all (fun pq => w1 pw 0 pq.1 && w1 pw 0 pq.2) [:: (0, 2); (8, 1)]%N. Proof. vm_compute; reflexivity. Qed.
Lemma p_w1 : all (fun pq => w1 pw 1 pq.1 && w1 pw 1 pq.2) [:: (0, 2); (8, 1)]%N. Proof. vm_compute; reflexivity. Qed.
Lemma p_muls p q ord : In (OMul p q ord) pops -> (p, q) \in [:: (0, 2); (8, 1)]%N.
Proof.
by rewrite /pops /=; intuition; try discriminate;
   match goal with E : OMul _ _ _ = OMul _ _ _ |- _ => case: E => <- <- _ end.
Qed.
Lemma pwE : pw = run_ops pops. Proof. unfold pw; reflexivity. Qed.
Lemma p_factors : factors true pops.
Proof. exact (factors_of pwE pw_nm p_muls p_w0 p_w1). Qed.
Lemma idm_psd : psd_matrix (idm R 2).
Proof.
apply: (@gram_psd _ _ (fun i => (i == 0%N)%:R) (fun i => (i == 1%N)%:R)) => [[|[|i]] [|[|j]]] //= _ _.
- by rewrite mulr1 mulr0 addr0.
- by rewrite mulr0 mul0r addr0.
- by rewrite mulr0 mul0r addr0.
- by rewrite mulr0 mulr1 add0r.
Qed.
Lemma p_psd : psd_noise pops.
Proof.
move=> m o; rewrite /pops /=; intuition; try discriminate.
  by match goal with E : OCond _ _ = OCond _ _ |- _ => case: E => _ <-; exact: idm_psd end.
by match goal with E : OCond _ _ = OCond _ _, e : o_data _ = _ |- _ => move: e; case: E => _ <- end.
Qed.
Lemma p_width9 : widths true (w_log pw 1) 9 (X01 R) = Some 2%N. Proof. by vm_compute. Qed.
Lemma p_width18 : widths true (w_log pw 0) 18 (X01 R) = Some 4%N. Proof. by vm_compute. Qed.
Definition has_c (w : world R) p q (x y : input R) : bool := kernel_at eD 60 w 0 p q x y.
Definition has_e (w : world R) p (x : input R) : bool := mean_at eD 60 w 0 p x.
Lemma c_of w p q x y : has_c w p q x y -> exists M, cov_is eD w 0 p q x y M. Proof. exact: some_cov. Qed.
Lemma e_of w p x : has_e w p x -> exists e, mean_is eD w 0 p x e. Proof. exact: some_mean. Qed.
Lemma p_c : has_c pw 18 9 (X01 R) (X1 R). Proof. vm_compute; reflexivity. Qed.
Lemma p_c' : has_c pw 9 18 (X1 R) (X01 R). Proof. vm_compute; reflexivity. Qed.
Lemma p_e : has_e pw 18 (X01 R). Proof. vm_compute; reflexivity. Qed.
Lemma p_cov : exists M, cov_is eD pw 0 18 9 (X01 R) (X1 R) M. Proof. exact (c_of p_c). Qed.
Lemma p_cov' : exists M, cov_is eD pw 0 9 18 (X1 R) (X01 R) M. Proof. exact (c_of p_c'). Qed.
Lemma p_mean : exists e, mean_is eD pw 0 18 (X01 R) e. Proof. exact (e_of p_e). Qed.
Definition plist : seq (pid * input R) := [:: (3%N, X01 R); (9%N, X1 R); (18%N, X0 R)].
Lemma p_cs : all (fun a => all (fun b => has_c pw a.1 b.1 a.2 b.2) plist) plist. Proof. vm_compute; reflexivity. Qed.
Lemma p_ws : all (fun a => isSome (widths true (w_log pw 0) a.1 a.2)) plist. Proof. vm_compute; reflexivity. Qed.
Lemma list_of (w : world R) (l : seq (pid * input R)) : all (fun a => all (fun b => has_c w a.1 b.1 a.2 b.2) l) l ->
  all (fun a => isSome (widths true (w_log w 0) a.1 a.2)) l ->
  (forall i, (i < size l)%N -> widths true (w_log w 0) (lname l i) (linput l i) <> None) /\
  (forall i j, (i < size l)%N -> (j < size l)%N -> exists M, cov_is eD w 0 (lname l i) (lname l j) (linput l i) (linput l j) M).
Proof.
move=> Hc Hw; split=> [i li|i j li lj].
  by move/(all_nthP (0%N, Num [::]))/(_ i li): Hw; rewrite -/(lname l i) -/(linput l i); case: (widths _ _ _ _).
have /(all_nthP (0%N, Num [::]))/(_ j lj) H := all_nthP (0%N, Num [::]) Hc i li.
exact: c_of.
Qed.
Lemma p_list : (forall i, (i < size plist)%N -> widths true (w_log pw 0) (lname plist i) (linput plist i) <> None) /\
  (forall i j, (i < size plist)%N -> (j < size plist)%N ->
     exists M, cov_is eD pw 0 (lname plist i) (lname plist j) (linput plist i) (linput plist j) M).
Proof. exact (list_of p_cs p_ws). Qed.
(* Evaluation (P_Total.v). *)
Lemma p_total o : In o pops -> total_call eD o.
Proof.
have H p : total_mean eD (MElem (xmu p)) /\ total_kernel eD (KElem (@klin R)).
  by split; [exact: elem_total_mean | exact: elem_total].
rewrite /pops /=; intuition; subst o; try exact: Logic.I; try reflexivity; exact: H.
Qed.
Lemma p_last : cross_last pops. Proof. by []. Qed.
Lemma p_pd : pd_noise pops.
Proof.
move=> m o Hin; suff [-> ->] : o_noise o = idm R 2 /\ o_data o = None by split=> //; exact: idm_pd.
move: Hin; rewrite /pops /=; intuition; try discriminate;
  by match goal with E : OCond _ _ = OCond _ _ |- _ => case: E => _ <- end.
Qed.
Definition base_of (w : world R) m := omap (fun t : mid * hist R * obs R => (t.1.1, t.2)) (base (w_log w m)).
Lemma p_base0 : base_of pw 0 = None. Proof. vm_compute; reflexivity. Qed.
Lemma p_base1 : base_of pw 1 = Some (0%N, pob). Proof. vm_compute; reflexivity. Qed.
Lemma p_seen : widths true (w_log pw 0) 3 (X01 R) = Some 2%N. Proof. vm_compute; reflexivity. Qed.
Lemma fits_of (w : world R) : w_nm w = 2%N -> base_of w 0 = None -> base_of w 1 = Some (0%N, pob) ->
  widths true (w_log w 0) 3 (X01 R) = Some 2%N ->
  sizes_fit true w.
Proof.
move=> nm b0 b1 Hw; split=> m m' o; last first.
  move=> d ps [lt eo [par eb _]]; move: lt eb b0 b1 eo; rewrite nm /base_of.
  by case: m' => [|[|//]] _ -> //= _ [_ ->].
move=> ps [lt _ [par eb _]]; right; exists 2%N; move: lt eb b0 b1; rewrite nm /base_of.
by case: m' => [|[|//]] _ -> //= _ [-> ->].
Qed.
Lemma p_fits : sizes_fit true pw.
Proof. exact (fits_of pw_nm p_base0 p_base1 p_seen). Qed.
End ProdEx.
