(* Pseudo-point approximations in the graph: the numbers that a measure that was conditioned on
   pseudo-observations gives, in terms of those of its parent. *)
From Coq Require Import List.
From mathcomp Require Import all_ssreflect all_algebra.
From mathcomp Require Import zify.
From Verif Require Import Graph Machine Refine Worlds Eval GraphSpec GraphProofs GraphOps GraphFacts RV RVProofs Sound Typing ModelSpec Formal ModelFacts Plain Cond PostDefined PseudoSpec.
Set Implicit Arguments. Unset Strict Implicit. Unset Printing Implicit Defensive.
Import GRing.Theory Num.Theory.
Local Open Scope ring_scope.

(* The matrix inversion lemma, in any field. *)
Section Woodbury.
Variables (R : fieldType) (k n : nat) (S : 'M[R]_k) (C : 'M[R]_(k, n)) (d : 'I_n -> R).
Hypotheses (US : S \in unitmx) (d0 : forall i, d i != 0).
Let N := diag_mx (\row_i d i).
Let J := diag_mx (\row_i (d i)^-1).
Definition gA : 'M[R]_k := S + C *m J *m C^T.
Notation V := (model_var S C d).
Lemma gNJ : N *m J = 1%:M.
Proof. by rewrite mulmx_diag; apply/matrixP => i j; rewrite !mxE; case: eqP => // _; rewrite mulfV. Qed.
Lemma gJN : J *m N = 1%:M. Proof. exact: mulmx1C gNJ. Qed.
Lemma gAC : gA *m invmx S *m C = C *m J *m V.
Proof.
rewrite /model_var /nystrom mulmxDr -[C *m J *m N]mulmxA gJN mulmx1 /gA mulmxDl mulmxV // mulmxDl mul1mx addrC.
by rewrite !mulmxA.
Qed.
Lemma gCA : C^T *m invmx S *m gA = V *m J *m C^T.
Proof.
rewrite /model_var /nystrom !mulmxDl gNJ mul1mx /gA mulmxDr mulmxKV // addrC.
by rewrite !mulmxA.
Qed.
Lemma g_units : (gA \in unitmx) = (V \in unitmx).
Proof.
apply/idP/idP => U.
  have H : V *m (J - J *m C^T *m invmx gA *m C *m J) = 1%:M.
    rewrite mulmxBr !mulmxA -gCA mulmxK // /model_var /nystrom -/N mulmxDl gNJ.
    by rewrite addrC addKr.
  by have [] := mulmx1_unit H.
have H : gA *m (invmx S - invmx S *m C *m invmx V *m C^T *m invmx S) = 1%:M.
  rewrite mulmxBr !mulmxA gAC mulmxK // /gA mulmxDl mulmxV //.
  by rewrite -addrA subrr addr0.
by have [] := mulmx1_unit H.
Qed.
Lemma gA_inv : V \in unitmx -> invmx gA = invmx S - invmx S *m C *m invmx V *m C^T *m invmx S.
Proof.
move=> U; have UA : gA \in unitmx by rewrite g_units.
apply: (can_inj (mulKmx UA)); rewrite mulmxV //.
by rewrite mulmxBr !mulmxA gAC mulmxK // /gA mulmxDl mulmxV // -addrA subrr addr0.
Qed.
Lemma gACJ : V \in unitmx -> invmx gA *m C *m J = invmx S *m C *m invmx V.
Proof.
move=> U; have UA : gA \in unitmx by rewrite g_units.
by apply: (can_inj (mulKmx UA)); rewrite !mulmxA mulmxV // mul1mx gAC mulmxK.
Qed.
Lemma g_cov a b (K : 'M[R]_(a, b)) (A : 'M[R]_(k, a)) (B : 'M[R]_(k, b)) : V \in unitmx ->
  K - A^T *m invmx S *m B + A^T *m invmx gA *m B = model_cov S C d K A B.
Proof.
move=> U; rewrite gA_inv // mulmxBr mulmxBl /model_cov /nystrom !mulmxA.
by rewrite addrA subrK.
Qed.
Lemma g_mean a (A : 'M[R]_(k, a)) (y : 'cV[R]_n) : V \in unitmx ->
  A^T *m invmx S *m (S *m invmx gA *m (C *m J) *m y) = nystrom S A C *m invmx V *m y.
Proof.
by move=> U; rewrite !mulmxA mulmxKV // -(mulmxA A^T) -(mulmxA A^T) gACJ // /nystrom !mulmxA.
Qed.
End Woodbury.

(* The same for matrices of unknown size. *)
Section Numbers.
Variable R : fieldType.
Implicit Types (K A B Kz Kzx Kx M N : dmat R).

Lemma of_mx_at m n (X : 'M[R]_(m, n)) : mx_at (of_mx X) m n = X.
Proof. by apply/matrixP => i j; rewrite mxE of_mxE. Qed.

Variables (me : method) (nx : seq R) (Kz Nz Kzx Kx : dmat R).
Let k := nr Kz.
Let n := size nx.
Let S : 'M[R]_k := mx_at Kz k k + mx_at Nz k k.
Let C : 'M[R]_(k, n) := mx_at Kzx k n.
Definition gd (i : 'I_n) : R := model_noise S C me (fun i => nth 0 nx i) (fun i => ent Kx i i) i.
Definition gS : dmat R := DMat (nr Kz) (nc Kz) (fun i j => ent Kz i j + ent Nz i j).
Lemma gS_at : mx_at gS k k = S. Proof. by apply/matrixP => i j; rewrite !mxE. Qed.

Lemma g_noise (i : 'I_n) : nc Kzx = n -> pseudo_noise me nx gS Kzx Kx i = gd i.
Proof.
move=> e; rewrite /pseudo_noise /gd /model_noise; case: me => //; congr (_ + (_ - _)).
by have -> : nr gS = k by []; rewrite gS_at e of_mxE.
Qed.

Definition gfits : Prop := [/\ nc Kz = k, nr Nz = k /\ nc Nz = k, nr Kzx = k /\ nc Kzx = n, nr Kx = n /\ nc Kx = n &
  S \in unitmx /\ forall i, gd i != 0].
Lemma g_pseudo A : dadd Kz Nz = Some gS -> pseudo_A me nx gS Kzx Kx = Some A ->
  [/\ gfits, nr A = k, nc A = k & mx_at A k k = gA S C gd].
Proof.
rewrite /dadd /dmap2; case: ifP => // /andP [/eqP s1 /eqP s2] _.
rewrite /pseudo_A; case: ifP => // /and3P [/and5P [/eqP c1 /eqP c2 /eqP c3 /eqP c4 /eqP c5] U /allP H] [<-] /=.
have nk : nr gS = k by []. rewrite nk in U *; rewrite gS_at in U *.
have gE (i : 'I_n) : pseudo_noise me nx gS Kzx Kx i = gd i by apply: g_noise.
split=> //.
  split=> //; [by rewrite -s1 -s2 c1 | split=> // i].
  by rewrite -gE; apply: H; rewrite mem_iota add0n ltn_ord.
rewrite of_mx_at /gA -/C; congr (_ + _ *m _); apply/matrixP => i j.
by rewrite mul_mx_diag !mxE gE.
Qed.
Lemma g_pseudo_some : gfits -> dadd Kz Nz = Some gS /\ exists A, pseudo_A me nx gS Kzx Kx = Some A.
Proof.
case=> c1 [c2 c3] [c4 c5] [c6 c7] [U H]; split.
  by rewrite /dadd /dmap2 ifT // /same_shape c2 c3 c1 !eqxx.
rewrite /pseudo_A ifT; first by eexists.
rewrite /pseudo_fits; apply/and3P; split.
- by rewrite /= c1 c4 c5 c6 c7 !eqxx.
- by have -> : nr gS = k by []; rewrite gS_at.
apply/allP => i; rewrite mem_iota add0n => /andP [_ li].
by have := g_noise (Ordinal li) c5 => /= ->.
Qed.

Section Cov.
Variables (K A B : dmat R).
Definition gvalue : option (dmat R) := obind2 (@dadd R) (obind2 (@dsub R) (Some K) (obind (fun S => iqf S A B) (dadd Kz Nz)))
  (obind (fun Q => iqf Q A B) (obind (fun S => pseudo_A me nx S Kzx Kx) (dadd Kz Nz))).
Lemma g_value M : gvalue = Some M -> [/\ gfits, [/\ nr A = k, nr B = k, nr K = nc A & nc K = nc B],
  model_var S C gd \in unitmx, nr M = nr K /\ nc M = nc K &
  mx_at M (nr K) (nc K) = model_cov S C gd (mx_at K (nr K) (nc K)) (mx_at A k (nr K)) (mx_at B k (nc K))].
Proof.
rewrite /gvalue; case Ed: (dadd Kz Nz) => [S'|] //=.
have eS : S' = gS by move: Ed; rewrite /dadd /dmap2; case: ifP => // _ [<-].
rewrite eS in Ed *; case Ep: (pseudo_A _ _ _ _ _) => [Q|] //=; last by case: (obind _ _).
have [F nQ cQ EQ] := g_pseudo Ed Ep; have [c1 _ _ _ [U H]] := F.
rewrite /iqf; have -> : nr gS = k by []. rewrite gS_at nQ cQ EQ.
case: ifP => //= /and4P [_ /eqP a1 /eqP b1 _]; rewrite {1}/dsub {1}/dmap2.
case: ifP => //= /andP [/= /eqP s1 /eqP s2]; case: ifP => //= /and4P [_ _ _ UA]; rewrite /dadd /dmap2 /=.
case: ifP => // _ [<-] /=.
have UV : model_var S C gd \in unitmx by rewrite -g_units.
split=> //; rewrite -(g_cov U H _ _ _ UV).
apply/matrixP => i j; rewrite [LHS]mxE /= -s1 -s2 !valK /=.
rewrite [RHS]mxE [X in _ = X + _]mxE; congr (_ + _ + _); by rewrite [RHS]mxE.
Qed.
Lemma g_value_some : gfits -> nr A = k -> nr B = k -> nr K = nc A -> nc K = nc B -> model_var S C gd \in unitmx ->
  exists M, gvalue = Some M.
Proof.
move=> F a1 b1 s1 s2 UV; have [Ed [Q Ep]] := g_pseudo_some F; have [_ nQ cQ EQ] := g_pseudo Ed Ep.
have [c1 _ _ _ [U H]] := F; rewrite /gvalue Ed /= Ep /= /iqf; have -> : nr gS = k by []. rewrite gS_at nQ cQ EQ /=.
rewrite c1 a1 b1 !eqxx U g_units // UV /= /dsub /dmap2 /same_shape /= s1 s2 !eqxx /= /dadd /dmap2 /same_shape /= ?s1 ?s2 !eqxx.
by eexists.
Qed.
End Cov.

Section Mean.
Lemma vmap2_inv f (u v r : seq R) : vmap2 f u v = Some r -> [/\ size u = size v, size r = size u &
  forall i, (i < size u)%N -> nth 0 r i = f (nth 0 u i) (nth 0 v i)].
Proof. by rewrite /vmap2; case: eqP => // e [<-]; rewrite size_mkseq; split=> // i li; rewrite nth_mkseq. Qed.
Lemma vmap2E f (u v : seq R) : size u = size v -> vmap2 f u v = Some (mkseq (fun i => f (nth 0 u i) (nth 0 v i)) (size u)).
Proof. by move=> e; rewrite /vmap2 e eqxx. Qed.
Variables (e ez ex y : seq R) (A : dmat R).
Definition gmean : option (seq R) :=
  obind2 (vmap2 (fun a b => a + b)) (Some e)
    (obind (@col_seq R)
      (obind2 (fun K d => iqf K A (dcol d)) (dadd Kz Nz)
        (obind2 (fun mu mzv => vmap2 (fun a b => a - b) mu mzv)
           (pseudo_mean me nx y (dadd Kz Nz) (Some Kzx) (Some Kx) (Some ex) (Some ez)) (Some ez)))).
Definition vcol n (v : seq R) : 'cV[R]_n := \col_(i < n) nth 0 v i.
Lemma g_mean_value e' : gmean = Some e' -> [/\ gfits, [/\ nr A = k, nc A = size e, size ez = k, size ex = n & size y = n],
  model_var S C gd \in unitmx, size e' = size e &
  vcol (size e) e' = model_mean S C gd (vcol n ex) (vcol n y) (vcol (size e) e) (mx_at A k (size e))].
Proof.
rewrite /gmean /pseudo_mean; case Ed: (dadd Kz Nz) => [S'|] //=.
have eS : S' = gS by move: Ed; rewrite /dadd /dmap2; case: ifP => // _ [<-].
rewrite eS in Ed *; case Ey: (vmap2 _ y ex) => [d|] //=; have [sy sd Hd] := vmap2_inv Ey.
rewrite /pseudo_mu; case Ep: (pseudo_A _ _ _ _ _) => [Q|] //=.
have [F nQ cQ EQ] := g_pseudo Ed Ep; have [c1 _ [_ c5] _ [U H]] := F.
have -> : nr gS = k by []. rewrite EQ gS_at.
case: ifP => //= /andP [/eqP s1 UA]; set v := mkseq _ k; case Ev: (vmap2 _ ez v) => [mu|] //=.
have [sz smu Hmu] := vmap2_inv Ev; case Ew: (vmap2 _ mu ez) => [dl|] //=; have [_ sdl Hdl] := vmap2_inv Ew.
have sv : size v = k by rewrite size_mkseq.
have UV : model_var S C gd \in unitmx by rewrite -g_units.
rewrite /iqf; have -> : nr gS = k by []. rewrite gS_at.
case: ifP => //= /and4P [_ /eqP a1 _ _]; rewrite /col_seq /=.
move/vmap2_inv => [se se' He']; rewrite size_mkseq in se.
have sk : size ez = k by rewrite sz.
rewrite (_ : size e = nc A) //.
split=> //; [split=> //; last (by rewrite -sd); by rewrite -sy -sd | by rewrite se' se|].
have dE : vcol n d = vcol n y - vcol n ex.
  by apply/colP => i; rewrite !mxE Hd // -sd s1.
have wE : mx_at (dcol dl) k 1 = S *m invmx (gA S C gd) *m (C *m diag_mx (\row_i (gd i)^-1)) *m vcol n d.
  apply/matrixP => i j; rewrite (ord1 j) mxE /= Hdl; last by rewrite smu sk.
  rewrite Hmu ?sk // addrC addKr nth_mkseq // valK (_ : insub 0%N = Some (0 : 'I_1)); last exact: (valK (0 : 'I_1)).
  congr ((_ *m _ *m _) _ _); apply/matrixP => i' j'; rewrite mul_mx_diag !mxE.
  by rewrite (g_noise j' c5).
apply/colP => i; rewrite mxE He' ?se // nth_mkseq //.
rewrite /model_mean -dE -g_mean // -wE [RHS]mxE [X in _ = X + _]mxE; congr (_ + _).
by rewrite valK (_ : insub 0%N = Some (0 : 'I_1)); last exact: (valK (0 : 'I_1)).
Qed.
Lemma g_mean_some : gfits -> nr A = k -> nc A = size e -> size ez = k -> size ex = n -> size y = n ->
  model_var S C gd \in unitmx -> exists e', gmean = Some e'.
Proof.
move=> F a1 a2 s1 s2 s3 UV; have [Ed [Q Ep]] := g_pseudo_some F; have [_ nQ cQ EQ] := g_pseudo Ed Ep.
have [c1 _ _ _ [U H]] := F; rewrite /gmean /pseudo_mean Ed /= vmap2E ?s2 ?s3 //= /pseudo_mu Ep /=.
have -> : nr gS = k by []. rewrite EQ gS_at size_mkseq ?s3 eqxx g_units // UV /=.
rewrite vmap2E /= ?size_mkseq // vmap2E /= ?size_mkseq // /iqf /= -/k gS_at c1 a1 ?size_mkseq ?s1 !eqxx U /=.
rewrite /col_seq /= vmap2E ?size_mkseq ?a2 //; by eexists.
Qed.
End Mean.
End Numbers.

Section Graph.
Variable R : fieldType.
Variable D : nat -> (point R -> R) -> point R -> R.
Variable ops : seq (op R).
Let w := run_ops ops.
Let I : winv w := winv_run ops.
Notation cov_is := (cov_is D w). Notation mean_is := (mean_is D w).
Variables (m' m : mid) (o : obs R) (d : pdata R) (ps : seq pid).
Hypothesis (C : approximated w m' m o d ps) (Ho : o_p o \in ps) (Hd : d_p d \in ps).

Lemma approx_par : exists2 par, pids par = ps &
  [/\ (m' < w_nm w)%N, ext (HPost m par o) (w_log w m'),
      forall i j, i \in ps -> j \in ps -> see_k w m i j = KA m par i j,
      forall i, i \in ps -> see_m w m i = MA m par i & o_data o = Some d].
Proof.
have [lt eo [par eb ep]] := C; exists par => //.
have [lp X _] := l_base (v_log I.1) lt eb; have lm := ltn_trans lp lt; have Wf := l_wf (v_log I.1) lm.
split=> //.
- move: eb; rewrite -/w; elim: (w_log w m') => //= [pm h _ o' [-> -> ->]|p d' h IH /IH]; first by constructor.
  by move=> E; constructor.
- by move=> i j Hi Hj; rewrite see_k_log // lm (proj1 (KA_ext m X Wf _ _)) // => _; rewrite ep.
- by move=> i Hi; rewrite see_m_log // lm (MA_ext m X Wf) // => _; rewrite ep.
Qed.
Lemma approx_see_k p q k kp kq kz kzx kx : p \in ps -> q \in ps ->
  see_k w m p q = Some k -> see_k w m (o_p o) p = Some kp -> see_k w m (o_p o) q = Some kq ->
  see_k w m (o_p o) (d_p d) = Some kzx -> see_k w m (o_p o) (o_p o) = Some kz -> see_k w m (d_p d) (d_p d) = Some kx ->
  see_k w m' p q = Some (KAdd (KPost k kp kq kz (o_x o) (o_noise o))
    (KSub kp kq kz kzx kx (o_x o) (o_noise o) (d_x d) (d_noise d) (d_method d))).
Proof.
move=> Hp Hq; have [par ep [lt X Ek Em Eo]] := approx_par; rewrite !Ek // => e1 e2 e3 e4 e5 e6.
have Wf := l_wf (v_log I.1) lt.
rewrite see_k_log // lt (proj1 (KA_ext m' X Wf _ _)) ?ep; try by move=> _; rewrite /= ep.
by rewrite /= ep Hp Hq /= /post_k Eo /post_k2 /= /onk /onm eqxx e1 /= e2 /= e3 /= e4 /= e5 /= e6.
Qed.
Lemma approx_see_m p k kp kz kzx kx mz mx : p \in ps ->
  see_m w m p = Some k -> see_k w m (o_p o) p = Some kp -> see_m w m (o_p o) = Some mz -> see_m w m (d_p d) = Some mx ->
  see_k w m (o_p o) (d_p d) = Some kzx -> see_k w m (o_p o) (o_p o) = Some kz -> see_k w m (d_p d) (d_p d) = Some kx ->
  see_m w m' p = Some (MSub k mz mx kp kz kzx kx (o_x o) (o_noise o) (d_x d) (d_noise d) (d_y d) (d_method d)).
Proof.
move=> Hp; have [par ep [lt X Ek Em Eo]] := approx_par; rewrite !Ek // !Em // => e1 e2 e3 e4 e5 e6 e7.
have Wf := l_wf (v_log I.1) lt.
rewrite see_m_log // lt (MA_ext m' X Wf) ?ep; last by move=> _; rewrite /= ep.
by rewrite /= ep Hp /= /post_m Eo /post_m2 /= /onk /onM /onm eqxx e1 /= e2 /= e3 /= e4 /= e5 /= e6 /= e7.
Qed.

Section Values.
Variables (Kz Kzx Kx : dmat R).
Hypotheses (HKz : cov_is m (o_p o) (o_p o) (o_x o) (o_x o) Kz) (HKzx : cov_is m (o_p o) (d_p d) (o_x o) (d_x d) Kzx).
Hypotheses (HKx : cov_is m (d_p d) (d_p d) (d_x d) (d_x d) Kx).

Lemma approx_kernel p q x y K A B : p \in ps -> q \in ps -> atom x -> atom y ->
  cov_is m p q x y K -> cov_is m (o_p o) p (o_x o) x A -> cov_is m (o_p o) q (o_x o) y B ->
  exists N, forall n, (N <= n)%N -> kernel_at D n w m' p q x y = gvalue (d_method d) (d_noise d) Kz (o_noise o) Kzx Kx K A B.
Proof.
move=> Hp Hq ax ay /kern_see [k [n1 [e1 E1]]] /kern_see [kp [n2 [e2 E2]]] /kern_see [kq [n3 [e3 E3]]].
have [kz [n4 [e4 E4]]] := kern_see HKz; have [kzx [n5 [e5 E5]]] := kern_see HKzx; have [kx [n6 [e6 E6]]] := kern_see HKx.
have S := approx_see_k Hp Hq e1 e2 e3 e5 e4 e6; exists (n1 + n2 + n3 + n4 + n5 + n6).+2 => n.
case: n => [|[|n]] // le; rewrite /kernel_at S /= Sound.at_add // at_post // at_sub //.
by rewrite E1 ?E2 ?E3 ?E4 ?E5 ?E6 //; lia.
Qed.
Lemma approx_mean p x e ez ex A : p \in ps ->
  mean_is m p x e -> mean_is m (o_p o) (o_x o) ez -> mean_is m (d_p d) (d_x d) ex -> cov_is m (o_p o) p (o_x o) x A ->
  exists N, forall n, (N <= n)%N -> mean_at D n w m' p x = gmean (d_method d) (d_noise d) Kz (o_noise o) Kzx Kx e ez ex (d_y d) A.
Proof.
move=> Hp /mean_see [k [n1 [e1 E1]]] /mean_see [mz [n2 [e2 E2]]] /mean_see [mx [n3 [e3 E3]]] /kern_see [kp [n7 [e7 E7]]].
have [kz [n4 [e4 E4]]] := kern_see HKz; have [kzx [n5 [e5 E5]]] := kern_see HKzx; have [kx [n6 [e6 E6]]] := kern_see HKx.
have S := approx_see_m Hp e1 e7 e2 e3 e5 e4 e6; exists (n1 + n2 + n3 + n4 + n5 + n6 + n7).+1 => n.
case: n => [|n] // le; rewrite /mean_at S /= at_msub //.
by rewrite E1 ?E2 ?E3 ?E4 ?E5 ?E6 ?E7 //; lia.
Qed.
Lemma kernel_more n n' p q x y M : (n <= n')%N -> kernel_at D n w m' p q x y = Some M -> kernel_at D n' w m' p q x y = Some M.
Proof. by rewrite /kernel_at; case: (see_k _ _ _ _) => //= k le; apply: evk_fuel. Qed.
Lemma mean_more n n' p x M : (n <= n')%N -> mean_at D n w m' p x = Some M -> mean_at D n' w m' p x = Some M.
Proof. by rewrite /mean_at; case: (see_m _ _ _) => //= k le; apply: evm_fuel. Qed.

Let k := nr Kz.
Let n := size (d_noise d).
Let S : 'M[R]_k := mx_at Kz k k + mx_at (o_noise o) k k.
Let Cx : 'M[R]_(k, n) := mx_at Kzx k n.
Let dn : 'I_n -> R := model_noise S Cx (d_method d) (fun i => nth 0 (d_noise d) i) (fun i => ent Kx i i).

Lemma approx_cov p q x y K A B M : p \in ps -> q \in ps -> atom x -> atom y ->
  cov_is m p q x y K -> cov_is m (o_p o) p (o_x o) x A -> cov_is m (o_p o) q (o_x o) y B -> cov_is m' p q x y M ->
  [/\ S \in unitmx, model_var S Cx dn \in unitmx, nr M = nr K /\ nc M = nc K &
    mx_at M (nr K) (nc K) = model_cov S Cx dn (mx_at K (nr K) (nc K)) (mx_at A k (nr K)) (mx_at B k (nc K))].
Proof.
move=> Hp Hq ax ay H1 H2 H3 [f Ef]; have [N HN] := approx_kernel Hp Hq ax ay H1 H2 H3.
have := kernel_more (leq_addl N f) Ef; rewrite HN ?leq_addr // => /g_value [[_ _ _ _ [U _]] _ UV s E].
by split.
Qed.
Lemma approx_means p x e ez ex A e' : p \in ps ->
  mean_is m p x e -> mean_is m (o_p o) (o_x o) ez -> mean_is m (d_p d) (d_x d) ex -> cov_is m (o_p o) p (o_x o) x A ->
  mean_is m' p x e' ->
  [/\ S \in unitmx, model_var S Cx dn \in unitmx, size e' = size e &
    vcol (size e) e' = model_mean S Cx dn (vcol n ex) (vcol n (d_y d)) (vcol (size e) e) (mx_at A k (size e))].
Proof.
move=> Hp H1 H2 H3 H4 [f Ef]; have [N HN] := approx_mean Hp H1 H2 H3 H4.
have := mean_more (leq_addl N f) Ef; rewrite HN ?leq_addr // => /g_mean_value [[_ _ _ _ [U _]] _ UV s E].
by split.
Qed.
End Values.
End Graph.
