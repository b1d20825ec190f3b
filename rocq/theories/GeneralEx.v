(* Models for P_General.v. *)
From Coq Require Import List.
From mathcomp Require Import all_ssreflect all_algebra.
From mathcomp Require Import ring.
From Verif Require Import Graph Machine Refine Worlds Eval GraphSpec GraphProofs RV RVProofs Sound Typing ModelSpec ModelFacts Plain PlainThms ExModel ExDiff ExLogPdf ExInfer TotalEx ProdSpec ProdEx SymSpec SymThms ExactSpec ExactEx GeneralSpec GeneralThms.
Set Implicit Arguments. Unset Strict Implicit. Unset Printing Implicit Defensive.
Import GRing.Theory Num.Theory.
Local Open Scope ring_scope.

(* Models without products and [add_gp], with independently constructed processes first. *)
Section Simple.
Variable R : fieldType.
Variable D : nat -> (point R -> R) -> point R -> R.
Variables (mu : pid -> point R -> R) (ka : pid -> point R -> point R -> R).
Hypothesis D0 : forall d t, D d (fun=> 0) t = 0.
Hypothesis ka_sym : forall p s t, ka p s t = ka p t s.
Lemma plain_general w ops : plain D mu ka w ops -> general D mu ka w ops.
Proof. by elim: ops w => [|o ops IH] w //= [Ho /IH Hops]; split=> //; case: o Ho {Hops}. Qed.
Lemma plain_no_mul w ops f g ord : plain D mu ka w ops -> ~ In (OMul f g ord) ops.
Proof. by elim: ops w => [|o ops IH] w /=; [move=> _ [] | case=> Ho /IH Hops [e|//]; rewrite e in Ho]. Qed.
Variable ops : seq (op R).
Let w := run_ops ops.
Hypothesis Hp : plain D mu ka world0 ops.
Hypothesis Hg : gp_first ops.
Let I : winv w := winv_run ops.
Lemma plain_covered m h q : (m < w_nm w)%N -> ext h (w_log w m) -> covered false ops m h q.
Proof.
have H : walls (hall (plainQ D mu ka) (fun o => square_sym (o_noise o))) w by apply: plain_walls Hp _.
elim: h m q => [|pm par IH o|r d rest IH] m q lt E //=.
  have [lt' E' _] := l_base (v_log I.1) lt (ext_base E).
  by move=> _; split=> [|a _]; apply: IH => //; apply: ltn_trans lt' lt.
have {}IH a : covered false ops m rest a by apply: IH => //; apply: ext_tail E.
case: eqP => // _; case: d E => [mu' k|mu' k lr|q1|q1 c|q1 f|q1 q2|q1 c|q1 f|q1 t t0|q1 dd|ps] E //.
- by move=> f g [ord [a [b [k1 [k2 [k3 [k4 [_ /(plain_no_mul Hp)]]]]]]]].
- by have := hall_ext E (H m).
Qed.
Lemma simple_models : [/\ general D mu ka world0 ops,
    forall m p, (m < w_nm w)%N -> covered false ops m (w_log w m) p,
    forall m p x, (m < w_nm w)%N -> widths false (w_log w m) p x <> None -> known false ops m p x &
    forall m p q x y M, (m < w_nm w)%N -> widths false (w_log w m) p x <> None -> widths false (w_log w m) q y <> None ->
      cov_is D w m p q x y M -> full D false ops m p q x y M].
Proof.
split; first exact: plain_general.
- by move=> m p lt; apply: plain_covered => //; apply: ext_refl.
- by move=> m p x lt H; split=> //; apply: plain_covered => //; apply: ext_refl.
- move=> m p q x y M lt; case E1: (widths _ _ p x) => [a|] // _; case E2: (widths _ _ q y) => [b|] // _ EM.
  by have [e1 e2] := plain_shape D0 ka_sym Hp Hg lt E1 E2 EM; split=> //; rewrite ?e1 ?e2.
Qed.
End Simple.

Section Look.
Variable R : fieldType.
Implicit Types (h : hist R).
Fixpoint dget h (r : pid) : option (pdef R) :=
  match h with HAdd q d rest => if q == r then Some d else dget rest r | _ => None end.
Lemma dget_made h r d : dget h r = Some d -> made h r d.
Proof. by elim: h => [|//|q e rest IH] //=; case: eqP => [-> [->]|_ /IH]; [left|right]. Qed.
Fixpoint avx h (r q : pid) : bool :=
  match h with
  | HRoot => true
  | HPost _ par o => avx par r q && all (avx par r) (o_pids o)
  | HAdd q' d rest => if q == q' then [&& q != r, (if d is DUser _ _ _ then false else true) & all (avx rest r) (needs d)] else avx rest r q
  end.
Lemma avx_ok h r q : avx h r q -> avoids h r q.
Proof.
elim: h q => [|pm par IH o|q' d rest IH] q //=.
  by case/andP=> /IH H1 /andP [/IH H2 /allP H3]; split=> // a; rewrite inE => /orP [/eqP -> //|/H3 /IH].
by case: eqP => [_|_ /IH //] /and3P [/eqP n U /allP H]; split=> [//||p /H /IH //]; case: (d) U.
Qed.
Fixpoint nopost h : bool := match h with HRoot => true | HPost _ _ _ => false | HAdd _ _ rest => nopost rest end.
Lemma nopost_unseen h r : nopost h -> unseen h r.
Proof. by elim: h => [|//|q d rest IH] //= /IH H; case: eqP. Qed.
End Look.

Section GeneralEx.
Variable R : realFieldType.
Lemma coef_swap (r : pid) : coef [:: (1 : R, 8%N); (1, 2%N)] r = coef [:: (1, 2%N); (1, 8%N)] r.
Proof. by rewrite /coef !big_cons !big_nil /=; do 2 case: eqP => _; rewrite ?addr0 ?add0r. Qed.
(* In the models of ExModel.v and ExDiff.v, kernels are as required. *)
Lemma elem_shaped (w : world R) : shaped_kernel (@xD R) w (KElem (@klin R)).
Proof.
move=> n n' x y M M' e1 e2; have [] := @elem_symmetric R (@xD R) w (@klin R) (@xka_sym R 0) n n' x y M M' e1 e2.
by move=> a b _; split.
Qed.
Lemma d_shaped (h : R) k : given_kernel (dops0 R ++ dops1 h) k -> shaped_kernel (@xD R) (run_ops (dops0 R ++ dops1 h)) k.
Proof.
move=> H; have -> : k = KElem (@klin R); last exact: elem_shaped.
case: H => [[m [mu H]]|[m [mu [l [r H]]]]]; move: H; rewrite /dops0 /dops1 /=; intuition; try discriminate;
    match goal with E : _ = _ |- _ => by case: E => _ _ <- | E : _ = _ |- _ => by case: E => _ _ <- _ _ end.
Qed.
Lemma x_shaped k : given_kernel (xops R) k -> shaped_kernel (@xD R) (xw R) k.
Proof.
move=> H; have -> : k = KElem (@klin R).
  case: H => [[m [mu H]]|[m [mu [l [r H]]]]]; move: H; rewrite /xops /=; intuition; try discriminate;
    match goal with E : _ = _ |- _ => by case: E => _ _ <- | E : _ = _ |- _ => by case: E => _ _ <- _ _ end.
move=> n n' x y M M' e1 e2; have [] := @elem_symmetric R (@xD R) (xw R) (@klin R) (@xka_sym R 0) n n' x y M M' e1 e2.
by move=> a b _; split.
Qed.

(* 0, 1: GPs, 2: their product (with its parts 3-6), 7: cross(2, 1), 8: a GP that is
   constructed later, 9: a process with a rule of the user, 10: 8 + 2, 11: 2 + 8; measures 1 and
   2 are measure 0 given noisy and noiseless observations of 10. *)
Definition gob : obs R := Obs 10 (X1 R) (one1 R) [:: 1].
Definition gob0 : obs R := Obs 10 (X1 R) (dzero R 1 1) [:: 1].
Definition gops : seq (op R) :=
  [:: OMeasure; OGP 0 (MElem (xmu 0)) (KElem (@klin R)); OGP 0 (MElem (xmu 1)) (KElem (@klin R)); OMul 0 1 [:: 0%N];
      OCross [:: 2; 1]%N [:: 0%N]; OGP 0 (MElem (xmu 8)) (KElem (@klin R));
      OUser 0 MZero (KElem (@klin R)) (fun=> Some (KScale (1 / 2%:R) (KElem (@klin R)))) None;
      OSum 8 2 [:: 0%N]; OSum 2 8 [:: 0%N]; OCond 0 gob; OCond 0 gob0].
Definition gw := run_ops gops.
Lemma gwE : gw = run_ops gops. Proof. unfold gw; reflexivity. Qed.
Lemma g_nm : w_nm gw = 3%N. Proof. vm_compute; reflexivity. Qed.
Lemma g_general : general (@eD R) (@xmu R) (@xka R) world0 gops.
Proof.
split=> //; split; first by split; [exact: eMean | exact: eKernel].
split; first by split; [exact: eMean | exact: eKernel].
split=> //; split=> //; split; first by split; [exact: eMean | exact: eKernel].
by do 3 (split=> //); split=> //; split.
Qed.
Lemma g_shaped k : given_kernel gops k -> shaped_kernel (@eD R) gw k.
Proof.
move=> H; have -> : k = KElem (@klin R).
  case: H => [[m [mu H]]|[m [mu [l [r H]]]]]; move: H; rewrite /gops /=; intuition; try discriminate;
    match goal with E : _ = _ |- _ => by case: E => _ _ <- | E : _ = _ |- _ => by case: E => _ _ <- _ _ end.
move=> n n' x y M M' e1 e2; have [] := @elem_symmetric R (@eD R) gw (@klin R) (@xka_sym R 0) n n' x y M M' e1 e2.
by move=> a b _; split.
Qed.
Lemma g_muls f g ord : In (OMul f g ord) gops -> (f, g) \in [:: (0, 1)]%N.
Proof.
by rewrite /gops /=; intuition; try discriminate;
   match goal with E : OMul _ _ _ = OMul _ _ _ |- _ => case: E => <- <- _ end.
Qed.
(* Checks on an abstract world. *)
Definition knx (w : world R) m p (x : input R) : bool :=
  [&& (m < w_nm w)%N, cvx true [:: (0, 1)]%N (w_log w m) p & isSome (widths true (w_log w m) p x)].
Lemma knx_ok (ops : seq (op R)) w m p x : w = run_ops ops -> (forall f g ord, In (OMul f g ord) ops -> (f, g) \in [:: (0, 1)]%N) ->
  knx w m p x -> known true ops m p x.
Proof.
by move=> -> HL /and3P [lt H1 H2]; split=> //; [apply: (cvx_ok HL) => //; apply: ext_refl | case: (widths _ _ _ _) H2].
Qed.
Definition flx (w : world R) m p q (x y : input R) : bool :=
  (m < w_nm w)%N && if kernel_at (@eD R) 60 w m p q x y is Some M then
    (widths true (w_log w m) p x == Some (nr M)) && (widths true (w_log w m) q y == Some (nc M)) else false.
Definition flM (w : world R) m p q (x y : input R) : dmat R := odflt (dzero R 0 0) (kernel_at (@eD R) 60 w m p q x y).
Lemma flx_ok (ops : seq (op R)) w m p q x y : w = run_ops ops -> flx w m p q x y ->
  full (@eD R) true ops m p q x y (flM w m p q x y).
Proof.
move=> -> /andP [lt]; rewrite /flM; case E: (kernel_at _ _ _ _ _ _ _ _) => [M|] // /andP [/eqP e1 /eqP e2].
by split=> //; exists 60%N.
Qed.
Definition gps : seq pid := Eval vm_compute in pids (w_log gw 0).
Definition psx (w : world R) (m : mid) := pids (w_log w m).
Lemma cdx (w : world R) m' m o ps : (m' < w_nm w)%N -> o_data o = None -> base (w_log w m') = Some (m, w_log w m, o) ->
  psx w m = ps -> conditioned w m' m o ps.
Proof. by move=> H1 H2 H3 H4; split=> //; exists (w_log w m). Qed.
Lemma g_zero : zero_within (o_noise gob0). Proof. by []. Qed.
Lemma g_lt : (0 < w_nm gw)%N && ((1 < w_nm gw)%N && (2 < w_nm gw)%N). Proof. vm_compute; reflexivity. Qed.
Lemma g_ps : psx gw 0 = gps. Proof. vm_compute; reflexivity. Qed.
Lemma g_base1 : base (w_log gw 1) = Some (0%N, w_log gw 0, gob). Proof. vm_compute; reflexivity. Qed.
Lemma g_base2 : base (w_log gw 2) = Some (0%N, w_log gw 0, gob0). Proof. vm_compute; reflexivity. Qed.
Lemma g_c1 : conditioned gw 1 0 gob gps. Proof. exact (@cdx gw 1 0 gob gps (proj1 (andP (proj2 (andP g_lt)))) erefl g_base1 g_ps). Qed.
Lemma g_c2 : conditioned gw 2 0 gob0 gps. Proof. exact (@cdx gw 2 0 gob0 gps (proj2 (andP (proj2 (andP g_lt)))) erefl g_base2 g_ps). Qed.
Definition dgx (w : world R) m r := dget (w_log w m) r.
Lemma dgx_ok (w : world R) m r d : (m < w_nm w)%N -> dgx w m r = Some d -> defined w m r d.
Proof. by move=> lt /dget_made H. Qed.
Lemma g_d7 : dgx gw 0 7 = Some (DCross [:: 2; 1]%N). Proof. vm_compute; reflexivity. Qed.
Lemma g_d8 : dgx gw 0 8 = Some (DInd (MElem (xmu 8)) (KElem (@klin R))). Proof. vm_compute; reflexivity. Qed.
Lemma g_d10 : dgx gw 0 10 = Some (DSum 8 2). Proof. vm_compute; reflexivity. Qed.
Lemma g_d11 : dgx gw 0 11 = Some (DSum 2 8). Proof. vm_compute; reflexivity. Qed.
Lemma g_def r d : dgx gw 0 r = Some d -> defined gw 0 r d. Proof. exact (dgx_ok (proj1 (andP g_lt))). Qed.
Lemma g_np : nopost (w_log gw 0). Proof. vm_compute; reflexivity. Qed.
Lemma g_av : avx (w_log gw 0) 8 2. Proof. vm_compute; reflexivity. Qed.
Definition gin : input R := Tup [:: X01 R; Fdd 2 (X1 R)].
Definition gkn : seq (mid * pid * input R) :=
  [:: (0%N, 2%N, X1 R); (0%N, 8%N, X1 R); (0%N, 8%N, X01 R); (0%N, 10%N, X1 R); (0%N, 11%N, X1 R); (0%N, 10%N, X01 R); (0%N, 11%N, X01 R); (0%N, 7%N, gin); (0%N, 1%N, X01 R); (0%N, 2%N, X01 R);
      (1%N, 2%N, X1 R); (1%N, 8%N, X1 R); (1%N, 10%N, X1 R); (2%N, 10%N, X1 R)].
Lemma g_kn : all (fun a => knx gw a.1.1 a.1.2 a.2) gkn. Proof. vm_compute; reflexivity. Qed.
Definition gfl : seq (mid * pid * pid * input R * input R) :=
  [:: (0%N, 8%N, 2%N, X1 R, X01 R); (0%N, 10%N, 2%N, X01 R, X1 R); (0%N, 11%N, 2%N, X01 R, X1 R);
      (0%N, 2%N, 8%N, X1 R, X1 R); (0%N, 2%N, 10%N, X1 R, X1 R); (0%N, 8%N, 10%N, X1 R, X1 R); (0%N, 10%N, 10%N, X1 R, X1 R); (0%N, 8%N, 8%N, X1 R, X1 R);
      (0%N, 7%N, 7%N, gin, gin);
      (0%N, 2%N, 2%N, X01 R, X01 R); (0%N, 2%N, 1%N, X01 R, X01 R); (0%N, 2%N, 2%N, X01 R, X1 R);
      (0%N, 1%N, 2%N, X01 R, X01 R); (0%N, 1%N, 1%N, X01 R, X01 R); (0%N, 1%N, 2%N, X01 R, X1 R);
      (0%N, 2%N, 2%N, X1 R, X01 R); (0%N, 2%N, 1%N, X1 R, X01 R); (0%N, 2%N, 2%N, X1 R, X1 R)].
Lemma g_fl : all (fun a => flx gw a.1.1.1.1 a.1.1.1.2 a.1.1.2 a.1.2 a.2) gfl. Proof. vm_compute; reflexivity. Qed.
(* The covariance matrix of the late GP and the Cartesian product does not have its shape. *)
Lemma g_late : flx gw 0 8 7 (X1 R) (X1 R) = false. Proof. vm_compute; reflexivity. Qed.
Lemma known_in (ops : seq (op R)) w (l : seq (mid * pid * input R)) : w = run_ops ops ->
  (forall f g ord, In (OMul f g ord) ops -> (f, g) \in [:: (0, 1)]%N) -> all (fun a => knx w a.1.1 a.1.2 a.2) l ->
  Forall (fun a => known true ops a.1.1 a.1.2 a.2) l.
Proof.
move=> e HL; elim: l => [|a l IH]; first by move=> _; exact: Forall_nil.
by case/andP=> H /IH; apply: Forall_cons; exact: (knx_ok e HL H).
Qed.
Lemma full_in (ops : seq (op R)) w (l : seq (mid * pid * pid * input R * input R)) : w = run_ops ops ->
  all (fun a => flx w a.1.1.1.1 a.1.1.1.2 a.1.1.2 a.1.2 a.2) l ->
  Forall (fun a => exists M, full (@eD R) true ops a.1.1.1.1 a.1.1.1.2 a.1.1.2 a.1.2 a.2 M) l.
Proof.
move=> e; elim: l => [|a l IH]; first by move=> _; exact: Forall_nil.
by case/andP=> H /IH; apply: Forall_cons; exact: (ex_intro _ _ (flx_ok e H)).
Qed.
Lemma g_known : Forall (fun a => known true gops a.1.1 a.1.2 a.2) gkn. Proof. exact (known_in gwE g_muls g_kn). Qed.
Lemma g_full : Forall (fun a => exists M, full (@eD R) true gops a.1.1.1.1 a.1.1.1.2 a.1.1.2 a.1.2 a.2 M) gfl.
Proof. exact (full_in gwE g_fl). Qed.

(* Values given the observations. *)
Definition gK p q : dmat R := flM gw 0 p q (X1 R) (X1 R).
Lemma g_cov p q : flx gw 0 p q (X1 R) (X1 R) -> cov_is (@eD R) gw 0 p q (X1 R) (X1 R) (gK p q).
Proof. by move/(flx_ok gwE) => []. Qed.
Lemma g_k22 : flx gw 0 2 2 (X1 R) (X1 R). Proof. vm_compute; reflexivity. Qed.
Lemma g_kA2 : flx gw 0 10 2 (X1 R) (X1 R). Proof. vm_compute; reflexivity. Qed.
Lemma g_kAA : flx gw 0 10 10 (X1 R) (X1 R). Proof. vm_compute; reflexivity. Qed.
Lemma g_s1 : nr (gK 2 2) = 1%N. Proof. vm_compute; reflexivity. Qed.
Lemma g_s2 : nc (gK 2 2) = 1%N. Proof. vm_compute; reflexivity. Qed.
Lemma g_s3 : nr (gK 10 2) = 1%N. Proof. vm_compute; reflexivity. Qed.
Lemma g_s4 : nc (gK 10 2) = 1%N. Proof. vm_compute; reflexivity. Qed.
Lemma g_sAA : nr (gK 10 10) = 1%N. Proof. vm_compute; reflexivity. Qed.
Lemma g_s5 : nc (gK 10 10) = 1%N. Proof. vm_compute; reflexivity. Qed.
Lemma g_kAA_val : ent (gK 10 10) 0 0 = 1 + 1 * 1 + (1 * 1 * (1 + 1 * 1) + 0 * 0 * (1 + 1 * 1) + 0 * 1 * (1 * 1 * 0) + 0 * 1 * (1 * 1 * 0)
   + ((1 + 1 * 1) * (1 + 1 * 1) + 0 * 0) + 0 + 0) + 0 + 0.
Proof. vm_compute; reflexivity. Qed.
Lemma g_kAA8 : ent (gK 10 10) 0 0 = 8%:R. Proof. by rewrite g_kAA_val; ring. Qed.
Lemma unit1e (K N : dmat R) v : nr K = 1%N -> ent K 0 0 = v -> v + ent N 0 0 != 0 ->
  mx_at K (nr K) (nr K) + mx_at N (nr K) (nr K) \in unitmx.
Proof. by move=> e <-; apply: unit1'. Qed.
Lemma unit1z (K : dmat R) v : nr K = 1%N -> ent K 0 0 = v -> v != 0 -> mx_at K (nr K) (nr K) \in unitmx.
Proof. by move=> -> <- H; rewrite unitmxE det_mx11 !mxE unitfE. Qed.
Lemma nz9 : 8%:R + 1 != 0 :> R. Proof. by rewrite -[1]/(1%:R) -natrD pnatr_eq0. Qed.
Lemma nz8 : 8%:R != 0 :> R. Proof. by rewrite pnatr_eq0. Qed.
Lemma nz8' : 8%:R + 0 != 0 :> R. Proof. by rewrite addr0 pnatr_eq0. Qed.
Lemma g_inv : mx_at (gK 10 10) (nr (gK 10 10)) (nr (gK 10 10)) + mx_at (o_noise gob) (nr (gK 10 10)) (nr (gK 10 10)) \in unitmx.
Proof. exact (@unit1e (gK 10 10) (o_noise gob) _ g_sAA g_kAA8 nz9). Qed.
Lemma g_inv0' : mx_at (gK 10 10) (nr (gK 10 10)) (nr (gK 10 10)) + mx_at (o_noise gob0) (nr (gK 10 10)) (nr (gK 10 10)) \in unitmx.
Proof. exact (@unit1e (gK 10 10) (o_noise gob0) _ g_sAA g_kAA8 nz8'). Qed.
Lemma g_inv0 : mx_at (gK 10 10) (nr (gK 10 10)) (nr (gK 10 10)) \in unitmx.
Proof. exact (@unit1z (gK 10 10) _ g_sAA g_kAA8 nz8). Qed.
Definition gMof (w : world R) p : seq R := odflt [::] (mean_at (@eD R) 60 w 0 p (X1 R)).
Lemma gMof_ok (w : world R) p : mean_at (@eD R) 60 w 0 p (X1 R) -> mean_is (@eD R) w 0 p (X1 R) (gMof w p).
Proof. by rewrite /gMof; case E: (mean_at _ _ _ _ _ _) => [e|] // _; exists 60%N. Qed.
Definition gM p : seq R := gMof gw p.
Lemma g_mean p : mean_at (@eD R) 60 gw 0 p (X1 R) -> mean_is (@eD R) gw 0 p (X1 R) (gM p).
Proof. exact (@gMof_ok gw p). Qed.
Lemma g_m2 : mean_at (@eD R) 60 gw 0 2 (X1 R). Proof. vm_compute; reflexivity. Qed.
Lemma g_mA : mean_at (@eD R) 60 gw 0 10 (X1 R). Proof. vm_compute; reflexivity. Qed.
Lemma g_ms2 : size (gM 2) = 1%N. Proof. vm_compute; reflexivity. Qed.
Lemma g_msA : size (gM 10) = 1%N. Proof. vm_compute; reflexivity. Qed.
Section One.
Variables (ops : seq (op R)) (w : world R) (m' : mid) (o : obs R) (p : pid) (K A Kz : dmat R) (e ez : seq R) (ps : seq pid).
Hypotheses (E : w = run_ops ops) (C : conditioned w m' 0 o ps) (Hp : p \in ps) (Ho : o_p o \in ps) (Ex : o_x o = X1 R).
Hypotheses (EA : cov_is (@eD R) w 0 (o_p o) p (X1 R) (X1 R) A) (EKz : cov_is (@eD R) w 0 (o_p o) (o_p o) (X1 R) (X1 R) Kz).
Hypotheses (sA : nr A = 1%N) (sA' : nc A = 1%N) (sZ : nr Kz = 1%N) (sZ' : nc Kz = 1%N).
Hypotheses (sn : nr (o_noise o) = 1%N) (sn' : nc (o_noise o) = 1%N).
Hypothesis U : mx_at Kz (nr Kz) (nr Kz) + mx_at (o_noise o) (nr Kz) (nr Kz) \in unitmx.
Let n0 : ne (o_x o) <> 0%N. Proof. by rewrite Ex. Qed.
Let aX : atom (X1 R). Proof. by []. Qed.
Lemma one_cov : cov_is (@eD R) w 0 p p (X1 R) (X1 R) K -> nr K = 1%N -> nc K = 1%N ->
  exists K', cov_is (@eD R) w m' p p (X1 R) (X1 R) K'.
Proof.
move=> EK s1 s2; have EA' := EA; have EKz' := EKz; rewrite -{1}Ex in EA'; rewrite -Ex in EKz'; apply: (pcd E C Ho Hp Hp n0 _ _ EK EA' EA' EKz' _ _ _ U) => //; rewrite ?s1 ?s2 ?sA ?sA' ?sZ ?sZ' ?sn ?sn' //.
Qed.
Lemma one_mean : mean_is (@eD R) w 0 p (X1 R) e -> mean_is (@eD R) w 0 (o_p o) (X1 R) ez -> size e = 1%N -> size ez = 1%N ->
  size (o_y o) = 1%N -> exists e', mean_is (@eD R) w m' p (X1 R) e'.
Proof.
move=> E1 E2 s1 s2 s3; have EA' := EA; have EKz' := EKz; rewrite -{1}Ex in EA'; rewrite -Ex in EKz' E2; apply: (pmd E C Ho Hp n0 _ E1 E2 EA' EKz' _ _ _ U) => //; rewrite ?s1 ?s2 ?s3 ?sA ?sA' ?sZ ?sZ' ?sn ?sn' //.
Qed.
End One.
Lemma in2 : 2%N \in gps. Proof. by []. Qed.
Lemma in10 : 10%N \in gps. Proof. by []. Qed.
Lemma g_post : exists K', cov_is (@eD R) gw 1 2 2 (X1 R) (X1 R) K'.
Proof.
exact (@one_cov gops gw 1 gob 2 _ _ _ gps gwE g_c1 in2 in10 erefl (g_cov g_kA2) (g_cov g_kAA) g_s3 g_s4 g_sAA g_s5 erefl erefl g_inv (g_cov g_k22) g_s1 g_s2).
Qed.
Lemma g_post_mean : exists e', mean_is (@eD R) gw 1 2 (X1 R) e'.
Proof.
exact (@one_mean gops gw 1 gob 2 _ _ _ _ gps gwE g_c1 in2 in10 erefl (g_cov g_kA2) (g_cov g_kAA) g_s3 g_s4 g_sAA g_s5 erefl erefl g_inv (g_mean g_m2) (g_mean g_mA) g_ms2 g_msA erefl).
Qed.
Lemma g_post0 : exists e', mean_is (@eD R) gw 2 10 (X1 R) e'.
Proof.
exact (@one_mean gops gw 2 gob0 10 _ _ _ _ gps gwE g_c2 in10 in10 erefl (g_cov g_kAA) (g_cov g_kAA) g_sAA g_s5 g_sAA g_s5 erefl erefl g_inv0' (g_mean g_mA) (g_mean g_mA) g_msA g_msA erefl).
Qed.
Definition gl : seq (pid * input R) := [:: (2%N, X01 R); (1%N, X01 R); (2%N, X1 R)].
Lemma parts_of (w : world R) q a b xs ys : defined w 0 q (DCross [:: a; b]) ->
  parts w 0 q (Tup [:: Num xs; Fdd a (Num ys)]) [:: (a, Num xs); (b, Num xs); (a, Num ys)].
Proof.
move=> Df; apply: (pt_cons (l := [:: (a, Num xs); (b, Num xs)]) (l' := [:: (a, Num ys)])); first exact: (pt_num xs Df).
by apply: (pt_cons (l := [:: (a, Num ys)]) (l' := [::])); [apply: (pt_fdd _ Df); rewrite inE eqxx | exact: pt_nil].
Qed.
Lemma g_parts : parts gw 0 7 gin gl. Proof. exact (parts_of _ _ (g_def g_d7)). Qed.
End GeneralEx.

Section GeneralExPdf.
Variable R : rcfType.
Lemma l_shaped k : given_kernel (lops R) k -> shaped_kernel (@xD R) (lw R) k.
Proof.
move=> H; have -> : k = KElem (@klin R); last exact: elem_shaped.
case: H => [[m [mu H]]|[m [mu [l [r H]]]]]; move: H; rewrite /lops /=; intuition; try discriminate;
    match goal with E : _ = _ |- _ => by case: E => _ _ <- | E : _ = _ |- _ => by case: E => _ _ <- _ _ end.
Qed.
Lemma i_shaped k : given_kernel (iops R) k -> shaped_kernel (@xD R) (iw R) k.
Proof.
move=> H; have -> : k = KElem (@klin R); last exact: elem_shaped.
case: H => [[m [mu H]]|[m [mu [l [r H]]]]]; move: H; rewrite /iops /=; intuition; try discriminate;
    match goal with E : _ = _ |- _ => by case: E => _ _ <- | E : _ = _ |- _ => by case: E => _ _ <- _ _ end.
Qed.
End GeneralExPdf.
