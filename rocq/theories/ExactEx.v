(* A model for P_Exact.v. *)
From Coq Require Import List.
From mathcomp Require Import all_ssreflect all_algebra.
From Verif Require Import Graph Machine Refine Worlds Eval GraphSpec GraphProofs RV RVProofs Sound Typing ModelSpec ModelFacts Plain PlainThms ExModel TotalEx ProdSpec ProdEx SymSpec SymThms ExactSpec.
Set Implicit Arguments. Unset Strict Implicit. Unset Printing Implicit Defensive.
Import GRing.Theory Num.Theory.
Local Open Scope ring_scope.

(* A decision procedure for [covered]. *)
Section Check.
Variable R : fieldType.
Variables (dif : bool) (L : seq (pid * pid)).
Implicit Types (h : hist R).
Definition mulmean (mu : mexp R) : bool := if mu is MMul (MScale _ _) _ then true else false.
Fixpoint cvx h (q : pid) : bool :=
  match h with
  | HRoot => true
  | HPost _ par o => cvx par q && all (cvx par) (o_pids o)
  | HAdd r d rest =>
    if q == r then
      match d with
      | DInd mu _ => mulmean mu ==> all (fun fg =>
          [&& crossfree rest fg.1, crossfree rest fg.2, width dif rest fg.1 (Num [:: [::]]) == Some 1%N,
              width dif rest fg.2 (Num [:: [::]]) == Some 1%N, cvx rest fg.1 & cvx rest fg.2]) L
      | DUser _ _ _ => false
      | _ => all (cvx rest) (needs d)
      end
    else cvx rest q
  end.
Lemma crossfree_single h q : crossfree h q -> single h q.
Proof.
elim: h q => [|pm par IH o|r d rest IH] q //=; first exact: IH.
case: eqP => _; last exact: IH.
by case/andP=> Hd /allP Ha; split=> [|p' /Ha /IH]; [case: (d) Hd | ].
Qed.
Lemma made_same h r d d' rest : wfh h -> ext (HAdd r d rest) h -> made h r d' -> d' = d.
Proof.
move=> Wf E; move: Wf; move e: (HAdd r d rest) E => h0 E; elim: E e => [|q e h1 E IH] e0.
  subst h0 => /and3P [/negP rn _ _] [[_ ->]|/made_pids] //.
move=> /and3P [/negP rn _ Wf] [[eq _]|]; last exact: IH.
by case: rn; apply: (ext_pids E); rewrite -e0 eq inE eqxx.
Qed.
Variable ops : seq (op R).
Let w := run_ops ops.
Hypothesis HL : forall f g ord, In (OMul f g ord) ops -> (f, g) \in L.
Let I : winv w := winv_run ops.
Lemma cvx_ok m h q : (m < w_nm w)%N -> ext h (w_log w m) -> cvx h q -> covered dif ops m h q.
Proof.
elim: h m q => [|pm par IH o|r d rest IH] m q lt E //=.
  have [lt' E' _] := l_base (v_log I.1) lt (ext_base E).
  by move=> /= /andP [H1 /andP [H2 /allP H3]] _; split=> [|a]; rewrite ?inE; [|case/orP=> [/eqP ->|/H3 Ha]]; apply: IH => //; apply: ltn_trans lt' lt.
have {}IH a : cvx rest a -> covered dif ops m rest a by apply: IH => //; apply: ext_tail E.
case: eqP => [_|_]; last exact: IH.
case: d E => [mu k|mu k lr|q1|q1 c|q1 f|q1 q2|q1 c|q1 f|q1 t t0|q1 dd|ps] E; try by move=> /allP H a Ha; apply: IH; apply: H.
- move=> H f g [ord [a [b [k1 [k2 [k3 [k4 [[_ Md] Hin _ _ _]]]]]]]].
  have [emu _] := made_same (l_wf (v_log I.1) lt) E Md; move: H; rewrite -emu /= => /allP /(_ _ (HL Hin)) /=.
  case/and5P=> h1 h2 /eqP h3 /eqP h4 /andP [h5 h6].
  by split=> //; try exact: crossfree_single; split; apply: IH.
- by [].
Qed.
End Check.

Section ExactEx.
Variable R : realFieldType.
(* 0, 1: GPs, 2: their product (with its parts 3-6), 7: cross(2, 1), 8: a GP that is
   constructed later, 9: a process with a rule of the user; measure 1 is measure 0 given noisy
   observations of 7; 10: 8 + 2. *)
Definition zob : obs R := Obs 7 (X1 R) (idm R 2) [:: 1; 2%:R].
Definition zops : seq (op R) :=
  [:: OMeasure; OGP 0 (MElem (xmu 0)) (KElem (@klin R)); OGP 0 (MElem (xmu 1)) (KElem (@klin R)); OMul 0 1 [:: 0%N];
      OCross [:: 2; 1]%N [:: 0%N]; OGP 0 (MElem (xmu 8)) (KElem (@klin R));
      OUser 0 MZero (KElem (@klin R)) (fun=> Some (KScale (1 / 2%:R) (KElem (@klin R)))) None;
      OCond 0 zob; OSum 8 2 [:: 1; 0]%N].
Definition zw := run_ops zops.
Lemma zwE : zw = run_ops zops. Proof. unfold zw; reflexivity. Qed.
Lemma z_nm : w_nm zw = 2%N. Proof. by vm_compute. Qed.
Lemma z_general : general (@eD R) (@xmu R) (@xka R) world0 zops.
Proof.
split=> //; split; first by split; [exact: eMean | exact: eKernel].
split; first by split; [exact: eMean | exact: eKernel].
split=> //; split=> //; split; first by split; [exact: eMean | exact: eKernel].
by split=> //; split; [exact: idm_sym |].
Qed.
Lemma z_shaped k : given_kernel zops k -> shaped_kernel (@eD R) zw k.
Proof.
move=> H; have -> : k = KElem (@klin R).
  case: H => [[m [mu H]]|[m [mu [l [r H]]]]]; move: H; rewrite /zops /=; intuition; try discriminate;
    match goal with E : _ = _ |- _ => by case: E => _ _ <- | E : _ = _ |- _ => by case: E => _ _ <- _ _ end.
move=> n n' x y M M' e1 e2; have [] := @elem_symmetric R (@eD R) zw (@klin R) (@xka_sym R 0) n n' x y M M' e1 e2.
by move=> a b _; split.
Qed.
Lemma z_muls f g ord : In (OMul f g ord) zops -> (f, g) \in [:: (0, 1)]%N.
Proof.
by rewrite /zops /=; intuition; try discriminate;
   match goal with E : OMul _ _ _ = OMul _ _ _ |- _ => case: E => <- <- _ end.
Qed.
Lemma z_psd : psd_noise zops.
Proof.
move=> m o; rewrite /zops /=; intuition; try discriminate.
  by match goal with E : OCond _ _ = OCond _ _ |- _ => case: E => _ <-; exact: idm_psd end.
by match goal with E : OCond _ _ = OCond _ _, e : o_data _ = _ |- _ => move: e; case: E => _ <- end.
Qed.
Definition zlist : seq (pid * input R) := [:: (2%N, X01 R); (8%N, X1 R); (10%N, X0 R)].
Definition zin : input R := Tup [:: X01 R; Fdd 2 (X1 R)].
Lemma zx7 : cvx true [:: (0, 1)]%N (w_log zw 0) 7. Proof. vm_compute; reflexivity. Qed.
Lemma zx7' : cvx true [:: (0, 1)]%N (w_log zw 1) 7. Proof. vm_compute; reflexivity. Qed.
Lemma zxs : all (fun a => cvx true [:: (0, 1)]%N (w_log zw 0) a.1) zlist. Proof. vm_compute; reflexivity. Qed.
Lemma z_cov (ops : seq (op R)) L w m q : w = run_ops ops -> w_nm w = 2%N -> (forall f g ord, In (OMul f g ord) ops -> (f, g) \in L) ->
  (m < 2)%N -> cvx true L (w_log w m) q -> covered true ops m (w_log w m) q.
Proof. by move=> -> nm HL lt; apply: cvx_ok => //; [rewrite nm | exact: ext_refl]. Qed.
(* Implicit arguments would be looked for by evaluating [covered]. *)
Unset Implicit Arguments.
Lemma z_cov7 : covered true zops 0 (w_log zw 0) 7. Proof. exact (@z_cov zops _ zw 0 7 zwE z_nm z_muls isT zx7). Qed.
Lemma z_cov7' : covered true zops 1 (w_log zw 1) 7. Proof. exact (@z_cov zops _ zw 1 7 zwE z_nm z_muls isT zx7'). Qed.
Set Implicit Arguments.
Lemma z_w7 : widths true (w_log zw 0) 7 zin = Some 5%N. Proof. by vm_compute. Qed.
Lemma z_w7' : widths true (w_log zw 1) 7 zin = Some 5%N. Proof. by vm_compute. Qed.
Lemma zc7 : has_c zw 7 7 zin zin. Proof. vm_compute; reflexivity. Qed.
Lemma ze7 : has_e zw 7 zin. Proof. vm_compute; reflexivity. Qed.
Lemma zc2 : has_c zw 7 2 zin (X1 R). Proof. vm_compute; reflexivity. Qed.
Lemma z_c7 : exists M, cov_is (@eD R) zw 0 7 7 zin zin M. Proof. exact (c_of zc7). Qed.
Lemma z_c2 : exists M, cov_is (@eD R) zw 0 7 2 zin (X1 R) M. Proof. exact (c_of zc2). Qed.
Lemma z_e7 : exists e, mean_is (@eD R) zw 0 7 zin e. Proof. exact (e_of ze7). Qed.
Lemma zcs : all (fun a => all (fun b => has_c zw a.1 b.1 a.2 b.2) zlist) zlist. Proof. vm_compute; reflexivity. Qed.
Lemma zws : all (fun a => isSome (widths true (w_log zw 0) a.1 a.2)) zlist. Proof. vm_compute; reflexivity. Qed.
Lemma zlist_of (ops : seq (op R)) L w (l : seq (pid * input R)) : w = run_ops ops -> w_nm w = 2%N ->
  (forall f g ord, In (OMul f g ord) ops -> (f, g) \in L) -> all (fun a => cvx true L (w_log w 0) a.1) l ->
  all (fun a => isSome (widths true (w_log w 0) a.1 a.2)) l ->
  forall i, (i < size l)%N -> covered true ops 0 (w_log w 0) (lname l i) /\ widths true (w_log w 0) (lname l i) (linput l i) <> None.
Proof.
move=> e nm HL Hc Hw i li; split.
  apply: (z_cov e nm HL) => //.
  by move/(all_nthP (0%N, Num [::]))/(_ i li): Hc; rewrite -/(lname l i).
by move/(all_nthP (0%N, Num [::]))/(_ i li): Hw; rewrite -/(lname l i) -/(linput l i); case: (widths _ _ _ _).
Qed.
Lemma z_list : forall i, (i < size zlist)%N ->
  covered true zops 0 (w_log zw 0) (lname zlist i) /\ widths true (w_log zw 0) (lname zlist i) (linput zlist i) <> None.
Proof. exact (zlist_of zwE z_nm z_muls zxs zws). Qed.
Definition rows_c (w : world R) p x (rs : nat) q y : bool :=
  if kernel_at (@eD R) 60 w 0 p q x y is Some M then nr M == rs else false.
Lemma zrows : all (fun a => all (fun b => rows_c zw a.1 a.2 (if a.1 == 2%N then 2%N else 1%N) b.1 b.2) zlist) zlist.
Proof. vm_compute; reflexivity. Qed.
Lemma zblocks_of w (l : seq (pid * input R)) :
  all (fun a => all (fun b => rows_c w a.1 a.2 (if a.1 == 2%N then 2%N else 1%N) b.1 b.2) l) l ->
  exists B : nat -> nat -> dmat R,
    (forall i j, (i < size l)%N -> (j < size l)%N -> cov_is (@eD R) w 0 (lname l i) (lname l j) (linput l i) (linput l j) (B i j)) /\
    (forall i j, (i < size l)%N -> (j < size l)%N -> nr (B i j) = nr (B i i)).
Proof.
move=> H; exists (fun i j => odflt (dzero R 0 0) (kernel_at (@eD R) 60 w 0 (lname l i) (lname l j) (linput l i) (linput l j))).
have K i j : (i < size l)%N -> (j < size l)%N -> rows_c w (lname l i) (linput l i) (if lname l i == 2%N then 2%N else 1%N) (lname l j) (linput l j).
  by move=> li lj; apply: (all_nthP (0%N, Num [::]) (all_nthP (0%N, Num [::]) H i li) j lj).
split=> i j li lj.
  by move: (K i j li lj); rewrite /rows_c /cov_is; case E: (kernel_at _ _ _ _ _ _ _ _) => [M|] // _; exists 60%N.
move: (K i j li lj) (K i i li li); rewrite /rows_c; case: (kernel_at _ _ _ _ _ _ _ _) => [M|] // /eqP e.
by case: (kernel_at _ _ _ _ _ _ _ _) => [M'|] // /eqP e'; rewrite /= e e'.
Qed.
Lemma z_blocks : exists B : nat -> nat -> dmat R,
    (forall i j, (i < size zlist)%N -> (j < size zlist)%N ->
       cov_is (@eD R) zw 0 (lname zlist i) (lname zlist j) (linput zlist i) (linput zlist j) (B i j)) /\
    (forall i j, (i < size zlist)%N -> (j < size zlist)%N -> nr (B i j) = nr (B i i)).
Proof. exact (zblocks_of zrows). Qed.
End ExactEx.
