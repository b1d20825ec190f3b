(* A model that the theorems about meaning apply to; used for the examples in P_Model.v. *)
From Coq Require Import List.
From mathcomp Require Import all_ssreflect all_algebra.
From mathcomp Require Import ring.
From Verif Require Import Graph Machine Refine Worlds Eval GraphSpec GraphProofs GraphOps GraphFacts RV RVProofs Sound Typing ModelSpec Formal ModelFacts Plain Cond CondFacts CrossFacts Combine ModelThms PlainThms PostDefined.
Set Implicit Arguments. Unset Strict Implicit. Unset Printing Implicit Defensive.
Import GRing.Theory Num.Theory.
Local Open Scope ring_scope.

Lemma unit2 (R : fieldType) (A : 'M[R]_2) : A 0 0 * A 1 1 - A 0 1 * A 1 0 != 0 -> A \in unitmx.
Proof.
set d := _ - _ => nz; have [e H] : exists e, d * e = 1 by exists d^-1; rewrite mulfV.
pose B : 'M[R]_2 := \matrix_(i, j) (e * if i == 0 then (if j == 0 then A 1 1 else - A 0 1) else (if j == 0 then - A 1 0 else A 0 0)).
have : A *m B = 1%:M; last by case/mulmx1_unit.
have O (i : 'I_2) : i = 0 \/ i = 1.
  by case: i => [[|[|//]] ?]; [left | right]; apply/val_inj.
apply/matrixP => i j; rewrite !mxE !big_ord_recl big_ord0 !mxE /=.
have -> : fintype.lift ord0 ord0 = 1 :> 'I_2 by apply/val_inj.
have -> : ord0 = 0 :> 'I_2 by [].
case: (O i) => ->; case: (O j) => -> /=; rewrite ?mulr1n ?mulr0n -?H /d; by ring.
Qed.

Section Post.
Variables (R : fieldType) (D : nat -> (point R -> R) -> point R -> R) (w : world R) (ops : seq (op R)).
Hypothesis E : w = run_ops ops.
Variables (m' m : mid) (o : obs R) (ps : seq pid).
Hypothesis (C : conditioned w m' m o ps) (Ho : o_p o \in ps).
Lemma pcd p q x y K A B Kz : p \in ps -> q \in ps -> ne (o_x o) <> 0%N -> atom x -> atom y ->
  cov_is D w m p q x y K -> cov_is D w m (o_p o) p (o_x o) x A -> cov_is D w m (o_p o) q (o_x o) y B ->
  cov_is D w m (o_p o) (o_p o) (o_x o) (o_x o) Kz ->
  let n := nr Kz in [&& nc Kz == n, nr (o_noise o) == n, nc (o_noise o) == n, nr A == n & nr B == n] ->
  nr K = nc A -> nc K = nc B -> mx_at Kz n n + mx_at (o_noise o) n n \in unitmx ->
  exists M, cov_is D w m' p q x y M.
Proof. by subst w; apply: post_cov_defined. Qed.
Lemma pmd p x e ez A Kz : p \in ps -> ne (o_x o) <> 0%N -> atom x ->
  mean_is D w m p x e -> mean_is D w m (o_p o) (o_x o) ez -> cov_is D w m (o_p o) p (o_x o) x A ->
  cov_is D w m (o_p o) (o_p o) (o_x o) (o_x o) Kz ->
  let n := nr Kz in [&& nc Kz == n, nr (o_noise o) == n, nc (o_noise o) == n, nr A == n & size ez == n] ->
  size (o_y o) = n -> size e = nc A -> mx_at Kz n n + mx_at (o_noise o) n n \in unitmx ->
  exists e', mean_is D w m' p x e'.
Proof. by subst w; apply: post_mean_defined. Qed.

Variables (W : space R) (G : pid -> point R -> rv W) (eps : mid -> nat -> rv W).
Hypothesis Mo : model D G eps w everywhere.
Notation meant := (meant D G eps w everywhere).
(* A posterior value from one observation. *)
Lemma one_value p q x y K Kp Kq Kz K' : p \in ps -> q \in ps -> meant m p x -> meant m q y -> meant m (o_p o) (o_x o) ->
  cov_is D w m p q x y K -> cov_is D w m p (o_p o) x (o_x o) Kp -> cov_is D w m q (o_p o) y (o_x o) Kq ->
  cov_is D w m (o_p o) (o_p o) (o_x o) (o_x o) Kz -> cov_is D w m' p q x y K' ->
  nr K = 1%N -> nc K = 1%N -> nr Kz = 1%N -> nr (o_noise o) = 1%N -> nc (o_noise o) = 1%N ->
  ent Kz 0 0 + ent (o_noise o) 0 0 != 0 ->
  [/\ nr K' = 1%N, nc K' = 1%N &
      exists2 b, b * (ent Kz 0 0 + ent (o_noise o) 0 0) = ent Kp 0 0 & ent K' 0 0 = ent K 0 0 - b * ent Kq 0 0].
Proof.
move=> Hp Hq Zp Zq Zo EK EKp EKq EKz EK' e1 e2 e3 e4 e5 nz; move: Mo C EK EKp EKq EKz EK' Zp Zq Zo; rewrite E => Mo' C' EK EKp EKq EKz EK' Zp Zq Zo.
have := conditional_cov (model_sound Mo') C' Hp Hq Ho I I Zp Zq Zo EK EKp EKq EKz EK'.
rewrite /= e1 e2 e3 => H; case: (H e4 e5).
  by rewrite unitmxE det_mx11 !mxE unitfE.
move=> r1 r2 [B HB HK]; split=> //; exists (B 0 0).
  by have := congr1 (fun A : 'M_1 => A 0 0) HB; rewrite !mxE big_ord1 !mxE.
by have := congr1 (fun A : 'M_1 => A 0 0) HK; rewrite !mxE big_ord1 !mxE.
Qed.
End Post.

Lemma some_cov (R : fieldType) D (w : world R) p q x y n : kernel_at D n w 0 p q x y -> exists M, cov_is D w 0 p q x y M.
Proof. by case E: (kernel_at _ _ _ _ _ _ _ _) => [M|] // _; exists M, n. Qed.
Lemma some_mean (R : fieldType) D (w : world R) p x n : mean_at D n w 0 p x -> exists e, mean_is D w 0 p x e.
Proof. by case E: (mean_at _ _ _ _ _ _) => [e|] // _; exists e, n. Qed.

Section Ex.
Variable R : realFieldType.
Definition klin (s t : point R) : R := 1 + nth 0 s 0 * nth 0 t 0.
Definition xD (d : nat) (f : point R -> R) (t : point R) : R := 0.
Definition xmu (p : pid) (t : point R) : R := if p == 0%N then nth 0 t 0 else 0.
Definition xka (p : pid) : point R -> point R -> R := klin.
Definition X0 : input R := Num [:: [:: 0]].
Definition X1 : input R := Num [:: [:: 1]].
Definition X01 : input R := Num [:: [:: 0]; [:: 1]].
Definition X10 : input R := Num [:: [:: 1]; [:: 0]].
(* The covariance of [klin] at X01, and the same for X10. *)
Definition kn : dmat R := DMat 2 2 (fun i j => 1 + (if i == 0%N then 0 else 1) * (if j == 0%N then 0 else 1)).
Definition kn' : dmat R := DMat 2 2 (fun i j => 1 + (if i == 0%N then 1 else 0) * (if j == 0%N then 1 else 0)).
Definition one1 : dmat R := DMat 1 1 (fun _ _ => 1).
Definition fdd1 : fdd R := MkFdd 0 X0 one1.
Definition fdd2 : fdd R := MkFdd 2 X1 one1.
Definition obA := Obs 0 X01 kn [:: 1; 2%:R].
Definition obA' := Obs 0 X10 kn' [:: 2%:R; 1].
Definition obB := Obs 2 X01 (dzero R 2 2) [:: 1; 2%:R].
Definition ob1 : obs R := Obs 0 X0 one1 [:: 1].
Definition ob2 : obs R := Obs 2 X1 one1 [:: 2%:R].
Definition ob12 := combine_obs 6 [:: fdd1; fdd2] [:: [:: 1]; [:: 2%:R]].
Definition ob21 := combine_obs 7 [:: fdd2; fdd1] [:: [:: 2%:R]; [:: 1]].

(* 0: f, 1: e, 2: f + e, 3: 2 f, 4: f.shift(1), 5: f + f, 6: cross(f, f + e),
   7: cross(f + e, f). *)
Definition xops : seq (op R) :=
  [:: OMeasure; OGP 0 (MElem (xmu 0)) (KElem klin); OGP 0 (MElem (xmu 1)) (KElem klin); OSum 0 1 [:: 0%N];
      OScale 0 2%:R; OShift 0 (fun=> 1); OSum 0 0 [:: 0%N]; OCross [:: 0; 2]%N [:: 0%N]; OCross [:: 2; 0]%N [:: 0%N];
      OCond 0 obA; OCond 0 obB; OCond 0 obA'; OCond 0 ob1; OCond 4 ob2; OCond 0 ob12; OCond 0 ob21].
Definition xw := run_ops xops.

Lemma xD0 d t : xD d (fun=> 0) t = 0. Proof. by []. Qed.
Lemma xka_sym p s t : xka p s t = xka p t s. Proof. by rewrite /xka /klin mulrC. Qed.
Lemma xka_psd p : psd_fun (xka p).
Proof.
move=> l; suff -> : quad (xka p) l = (\sum_(a <- l) a.1) ^+ 2 + (\sum_(a <- l) a.1 * nth 0 a.2 0) ^+ 2.
  by rewrite addr_ge0 ?sqr_ge0.
rewrite /quad !expr2 !mulr_suml -big_split /=; apply: eq_bigr => a _.
rewrite !mulr_sumr -big_split /=; apply: eq_bigr => b _.
by rewrite /xka /klin mulrDr mulr1 mulrACA.
Qed.
Lemma elem_kernel f : is_kernel xD (KElem f) f.
Proof. by move=> rdk rdm [|n] xs ys M //= [<-]. Qed.
Lemma elem_mean f : is_mean xD (MElem f) f.
Proof. by move=> rdk rdm [|n] [xs'|p x|xs'] xs v //= [<-] [<-]. Qed.
Lemma xplain : plain xD xmu xka world0 xops.
Proof.
split=> //; split; first by split; [exact: elem_mean | exact: elem_kernel].
split; first by split; [exact: elem_mean | exact: elem_kernel].
do 6 (split=> //); have S i j (li : (i < 2)%N) (lj : (j < 2)%N) : ent kn i j = ent kn j i /\ ent kn' i j = ent kn' j i.
  by rewrite /=; split; rewrite mulrC.
do ![split=> //]; try by move=> i j li lj; apply S.
- by move=> [|[|i]] [|[|j]].
- by move=> [|[|i]] [|[|j]].
Qed.
Lemma xgp_first : gp_first xops. Proof. by []. Qed.
Lemma gram_psd (N : dmat R) (a b : nat -> R) :
  (forall i j, (i < nr N)%N -> (j < nr N)%N -> ent N i j = a i * a j + b i * b j) -> psd_matrix N.
Proof.
move=> H l /allP Hl; have -> : quad (ent N) l = (\sum_(z <- l) z.1 * a z.2) ^+ 2 + (\sum_(z <- l) z.1 * b z.2) ^+ 2.
  rewrite /quad !expr2 !mulr_suml -big_split /= !big_seq; apply: eq_bigr => z Hz.
  rewrite !mulr_sumr -big_split /= !big_seq; apply: eq_bigr => z' Hz'.
  by rewrite H ?Hl // mulrDr mulrACA [X in _ + X]mulrACA.
by rewrite addr_ge0 ?sqr_ge0.
Qed.
Lemma xpsd_noise : psd_noise xops.
Proof.
move=> m o; rewrite /xops /=; do 9 (case=> //).
have P1 : psd_matrix kn by apply: (@gram_psd _ (fun=> 1) (fun i => if i == 0%N then 0 else 1)) => i j _ _ /=; rewrite mulr1.
have P2 : psd_matrix kn' by apply: (@gram_psd _ (fun=> 1) (fun i => if i == 0%N then 1 else 0)) => i j _ _ /=; rewrite mulr1.
have P3 : psd_matrix one1 by apply: (@gram_psd _ (fun=> 1) (fun=> 0)) => i j _ _ /=; rewrite mulr1 mulr0 addr0.
have P4 : psd_matrix (bdiag [:: one1; one1]).
  apply: (@gram_psd _ (fun i => (i == 0%N)%:R) (fun i => (i == 1%N)%:R)) => [[|[|i]] [|[|j]]] //= _ _.
  - by rewrite mulr1 mulr0 addr0.
  - by rewrite mulr0 mul0r addr0.
  - by rewrite mulr0 mul0r addr0.
  - by rewrite mulr0 mulr1 add0r.
have P5 : psd_matrix (dzero R 2 2) by apply: (@gram_psd _ (fun=> 0) (fun=> 0)) => i j _ _ /=; rewrite mulr0 addr0.
by do 7 (case; first by case=> _ <-; split).
Qed.

(* There are random variables for it. *)
Lemma xmodel : exists (W : space R) (G : pid -> point R -> rv W) (eps : mid -> nat -> rv W),
  [/\ nonneg W, model xD G eps xw everywhere &
      forall m p x k, (m < w_nm xw)%N -> widths false (w_log xw m) p x = Some k -> meant xD G eps xw everywhere m p x].
Proof.
exact (plain_all xD0 xka_sym xka_psd xplain xgp_first xpsd_noise).
Qed.

Lemma xwE : xw = run_ops xops. Proof. by []. Qed.
Local Opaque xw.

(* The structure of the model. *)
Definition xlog : hist R :=
  HAdd 7 (DCross [:: 2; 0]%N) (HAdd 6 (DCross [:: 0; 2]%N) (HAdd 5 (DSum 0 0) (HAdd 4 (DShift 0 (fun=> 1))
    (HAdd 3 (DScale 0 2%:R) (HAdd 2 (DSum 0 1) (HAdd 1 (DInd (MElem (xmu 1)) (KElem klin))
    (HAdd 0 (DInd (MElem (xmu 0)) (KElem klin)) HRoot))))))).
Lemma xnm : w_nm xw = 8%N. Proof. by vm_compute. Qed.
Lemma xlog0 : w_log xw 0 = xlog. Proof. by vm_compute. Qed.
Lemma xlogs : [/\ w_log xw 1 = HPost 0 xlog obA, w_log xw 2 = HPost 0 xlog obB & w_log xw 3 = HPost 0 xlog obA'] /\
  [/\ w_log xw 4 = HPost 0 xlog ob1, w_log xw 5 = HPost 4 (HPost 0 xlog ob1) ob2,
      w_log xw 6 = HPost 0 xlog ob12 & w_log xw 7 = HPost 0 xlog ob21].
Proof. by split; split; vm_compute. Qed.
Definition xps : seq pid := [:: 7; 6; 5; 4; 3; 2; 1; 0]%N.
Lemma xcond_of m pm par o : (m < 8)%N -> w_log xw m = HPost pm par o -> pids par = xps -> o_data o = None -> conditioned xw m pm o xps.
Proof. by move=> lt E Ep Eo; split; [rewrite xnm | | exists par; [rewrite E | ]]. Qed.
Lemma xcond : [/\ conditioned xw 1 0 obA xps, conditioned xw 2 0 obB xps & conditioned xw 3 0 obA' xps] /\
  [/\ conditioned xw 4 0 ob1 xps, conditioned xw 5 4 ob2 xps,
      conditioned xw 6 0 ob12 xps & conditioned xw 7 0 ob21 xps].
Proof.
have [[e1 e2 e3] [e4 e5 e6 e7]] := xlogs.
by split; split; [apply: (xcond_of _ e1) | apply: (xcond_of _ e2) | apply: (xcond_of _ e3) |
 apply: (xcond_of _ e4) | apply: (xcond_of _ e5) | apply: (xcond_of _ e6) | apply: (xcond_of _ e7)].
Qed.
Lemma xmade r d : made xlog r d -> defined xw 0 r d.
Proof. by move=> H; split; [rewrite xnm | rewrite xlog0]. Qed.
Lemma xdefs : [/\ defined xw 0 0 (DInd (MElem (xmu 0)) (KElem klin)), defined xw 0 1 (DInd (MElem (xmu 1)) (KElem klin)),
    defined xw 0 2 (DSum 0 1) & defined xw 0 3 (DScale 0 2%:R)] /\
  [/\ defined xw 0 4 (DShift 0 (fun=> 1)), defined xw 0 5 (DSum 0 0), defined xw 0 6 (DCross [:: 0; 2]%N) & defined xw 0 7 (DCross [:: 2; 0]%N)].
Proof. by split; split; apply: xmade => /=; do ![by left | right]. Qed.

(* Values under the prior. *)
Definition xK p q x y : dmat R := if kernel_at xD 10 xw 0 p q x y is Some M then M else dzero R 0 0.
Definition xM p x : seq R := if mean_at xD 10 xw 0 p x is Some M then M else [::].
Lemma xcov p q x y : kernel_at xD 10 xw 0 p q x y <> None -> cov_is xD xw 0 p q x y (xK p q x y).
Proof. by rewrite /xK => H; exists 10%N; move: H; case: (kernel_at _ _ _ _ _ _ _ _). Qed.
Lemma xmean p x : mean_at xD 10 xw 0 p x <> None -> mean_is xD xw 0 p x (xM p x).
Proof. by rewrite /xM => H; exists 10%N; move: H; case: (mean_at _ _ _ _ _ _). Qed.


(* Values under the posteriors. *)
Lemma unit2' (K N : dmat R) : nr K = 2%N ->
  (ent K 0 0 + ent N 0 0) * (ent K 1 1 + ent N 1 1) - (ent K 0 1 + ent N 0 1) * (ent K 1 0 + ent N 1 0) != 0 ->
  mx_at K (nr K) (nr K) + mx_at N (nr K) (nr K) \in unitmx.
Proof. by move=> -> H; apply: unit2; rewrite !mxE. Qed.
Lemma unit1' (K N : dmat R) : nr K = 1%N -> ent K 0 0 + ent N 0 0 != 0 ->
  mx_at K (nr K) (nr K) + mx_at N (nr K) (nr K) \in unitmx.
Proof. by move=> -> H; rewrite unitmxE det_mx11 !mxE unitfE. Qed.
Definition xZ (o : obs R) : dmat R := xK (o_p o) (o_p o) (o_x o) (o_x o).
Definition xinv (o : obs R) : Prop :=
  mx_at (xZ o) (nr (xZ o)) (nr (xZ o)) + mx_at (o_noise o) (nr (xZ o)) (nr (xZ o)) \in unitmx.
Lemma xinvA : xinv obA.
Proof.
apply: unit2'; first by vm_compute.
have -> : ent (xZ obA) 0 0 = 1 + 0 * 0 by vm_compute.
have -> : ent (xZ obA) 0 1 = 1 + 0 * 1 by vm_compute.
have -> : ent (xZ obA) 1 0 = 1 + 1 * 0 by vm_compute.
have -> : ent (xZ obA) 1 1 = 1 + 1 * 1 by vm_compute.
by rewrite (_ : _ - _ = 4%:R) ?pnatr_eq0 //=; ring.
Qed.
Lemma xinvA' : xinv obA'.
Proof.
apply: unit2'; first by vm_compute.
have -> : ent (xZ obA') 0 0 = 1 + 1 * 1 by vm_compute.
have -> : ent (xZ obA') 0 1 = 1 + 1 * 0 by vm_compute.
have -> : ent (xZ obA') 1 0 = 1 + 0 * 1 by vm_compute.
have -> : ent (xZ obA') 1 1 = 1 + 0 * 0 by vm_compute.
by rewrite (_ : _ - _ = 4%:R) ?pnatr_eq0 //=; ring.
Qed.
Lemma xinvB : xinv obB.
Proof.
apply: unit2'; first by vm_compute.
have -> : ent (xZ obB) 0 0 = 1 + 0 * 0 + (1 + 0 * 0) + 0 + 0 by vm_compute.
have -> : ent (xZ obB) 0 1 = 1 + 0 * 1 + (1 + 0 * 1) + 0 + 0 by vm_compute.
have -> : ent (xZ obB) 1 0 = 1 + 1 * 0 + (1 + 1 * 0) + 0 + 0 by vm_compute.
have -> : ent (xZ obB) 1 1 = 1 + 1 * 1 + (1 + 1 * 1) + 0 + 0 by vm_compute.
by rewrite (_ : _ - _ = 4%:R) ?pnatr_eq0 //=; ring.
Qed.
Lemma xinv1 : xinv ob1.
Proof.
apply: unit1'; first by vm_compute.
have -> : ent (xZ ob1) 0 0 = 1 + 0 * 0 by vm_compute.
by rewrite /= !(mul0r, addr0) -[1 + 1]/(2%:R) pnatr_eq0.
Qed.
Lemma xinv12 : xinv ob12.
Proof.
apply: unit2'; first by vm_compute.
have -> : ent (xZ ob12) 0 0 = 1 + 0 * 0 by vm_compute.
have -> : ent (xZ ob12) 0 1 = 1 + 1 * 0 + 0 by vm_compute.
have -> : ent (xZ ob12) 1 0 = 1 + 1 * 0 + 0 by vm_compute.
have -> : ent (xZ ob12) 1 1 = 1 + 1 * 1 + (1 + 1 * 1) + 0 + 0 by vm_compute.
by rewrite (_ : _ - _ = 9%:R) ?pnatr_eq0 //=; ring.
Qed.
Lemma xinv21 : xinv ob21.
Proof.
apply: unit2'; first by vm_compute.
have -> : ent (xZ ob21) 0 0 = 1 + 1 * 1 + (1 + 1 * 1) + 0 + 0 by vm_compute.
have -> : ent (xZ ob21) 0 1 = 1 + 1 * 0 + 0 by vm_compute.
have -> : ent (xZ ob21) 1 0 = 1 + 1 * 0 + 0 by vm_compute.
have -> : ent (xZ ob21) 1 1 = 1 + 0 * 0 by vm_compute.
by rewrite (_ : _ - _ = 9%:R) ?pnatr_eq0 //=; ring.
Qed.

Definition hasK p q (x y : input R) : bool := kernel_at xD 30 xw 0 p q x y.
Lemma has_cov p q x y : hasK p q x y -> exists M, cov_is xD xw 0 p q x y M.
Proof. exact (@some_cov R xD xw p q x y 30). Qed.
Definition hasM p (x : input R) : bool := mean_at xD 30 xw 0 p x.
Lemma has_mean p x : hasM p x -> exists e, mean_is xD xw 0 p x e.
Proof. exact (@some_mean R xD xw p x 30). Qed.
Definition xprior_c o p q (x y : input R) : bool :=
  [&& kernel_at xD 10 xw 0 p q x y, kernel_at xD 10 xw 0 (o_p o) p (o_x o) x,
      kernel_at xD 10 xw 0 (o_p o) q (o_x o) y & kernel_at xD 10 xw 0 (o_p o) (o_p o) (o_x o) (o_x o)] &&
  [&& p \in xps, q \in xps, o_p o \in xps, ne (o_x o) != 0%N & (nr (xK p q x y) == nc (xK (o_p o) p (o_x o) x)) && (nc (xK p q x y) == nc (xK (o_p o) q (o_x o) y))] &&
  let n := nr (xZ o) in [&& nc (xZ o) == n, nr (o_noise o) == n, nc (o_noise o) == n,
     nr (xK (o_p o) p (o_x o) x) == n & nr (xK (o_p o) q (o_x o) y) == n].
Lemma xcov' p q x y : kernel_at xD 10 xw 0 p q x y -> cov_is xD xw 0 p q x y (xK p q x y).
Proof. by move=> H; apply: xcov => e; rewrite e in H. Qed.
Lemma xmean' p x : mean_at xD 10 xw 0 p x -> mean_is xD xw 0 p x (xM p x).
Proof. by move=> H; apply: xmean => e; rewrite e in H. Qed.
Lemma xpost m' o p q x y : conditioned xw m' 0 o xps -> xinv o -> atom x -> atom y -> xprior_c o p q x y ->
  exists M, cov_is xD xw m' p q x y M.
Proof.
move=> C U ax ay /andP [/andP [/and4P [h1 h2 h3 h4] /and5P [p1 p2 p3 /eqP n0 /andP [/eqP s1 /eqP s2]]] sh].
exact: (pcd xwE C p3 p1 p2 n0 ax ay (xcov' h1) (xcov' h2) (xcov' h3) (xcov' h4) sh s1 s2 U).
Qed.
Definition xprior_m o p (x : input R) : bool :=
  [&& mean_at xD 10 xw 0 p x, mean_at xD 10 xw 0 (o_p o) (o_x o),
      kernel_at xD 10 xw 0 (o_p o) p (o_x o) x & kernel_at xD 10 xw 0 (o_p o) (o_p o) (o_x o) (o_x o)] &&
  [&& p \in xps, o_p o \in xps, ne (o_x o) != 0%N, size (o_y o) == nr (xZ o) & size (xM p x) == nc (xK (o_p o) p (o_x o) x)] &&
  let n := nr (xZ o) in [&& nc (xZ o) == n, nr (o_noise o) == n, nc (o_noise o) == n,
     nr (xK (o_p o) p (o_x o) x) == n & size (xM (o_p o) (o_x o)) == n].
Lemma xpostm m' o p x : conditioned xw m' 0 o xps -> xinv o -> atom x -> xprior_m o p x ->
  exists e, mean_is xD xw m' p x e.
Proof.
move=> C U ax /andP [/andP [/and4P [h1 h2 h3 h4] /and5P [p1 p2 /eqP n0 /eqP s1 /eqP s2]] sh].
exact: (pmd xwE C p2 p1 n0 ax (xmean' h1) (xmean' h2) (xcov' h3) (xcov' h4) sh s1 s2 U).
Qed.

Lemma xposts : Forall (fun mo => [/\ conditioned xw mo.1 0 mo.2 xps, xinv mo.2,
    exists M, cov_is xD xw mo.1 0 0 X1 X1 M & exists e, mean_is xD xw mo.1 0 X1 e])
  [:: (1%N, obA); (2%N, obB); (3%N, obA'); (4%N, ob1); (6%N, ob12); (7%N, ob21)].
Proof.
have [[c1 c2 c3] [c4 _ c6 c7]] := xcond.
have H m' o : conditioned xw m' 0 o xps -> xinv o -> xprior_c o 0 0 X1 X1 -> xprior_m o 0 X1 ->
  [/\ conditioned xw m' 0 o xps, xinv o, exists M, cov_is xD xw m' 0 0 X1 X1 M & exists e, mean_is xD xw m' 0 X1 e].
  move=> C U A B; split; [exact C | exact U | exact (@xpost m' o 0 0 X1 X1 C U isT isT A) | exact (@xpostm m' o 0 X1 C U isT B)].
do ![apply: Forall_cons]; last exact: Forall_nil.
- by refine (H _ _ c1 xinvA _ _); vm_compute.
- by refine (H _ _ c2 xinvB _ _); vm_compute.
- by refine (H _ _ c3 xinvA' _ _); vm_compute.
- by refine (H _ _ c4 xinv1 _ _); vm_compute.
- by refine (H _ _ c6 xinv12 _ _); vm_compute.
- by refine (H _ _ c7 xinv21 _ _); vm_compute.
Qed.

(* One more observation. *)
Lemma alg4 (k b z n kp kq : R) : k = 2%:R \/ k = 4%:R -> kp = 1 -> kq = 1 -> z = 1 -> n = 1 -> b * (z + n) = kp ->
  k - b * kq + 1 != 0.
Proof.
move=> Hk -> -> -> -> Hb; apply/eqP => X; have : (k - b * 1 + 1) * (1 + 1) = 0 by rewrite X mul0r.
rewrite (_ : _ * (1 + 1) = k * 2%:R - b * (1 + 1) + 2%:R); last by ring.
rewrite Hb; case: Hk => ->.
  by rewrite (_ : _ + _ = 5%:R); [apply/eqP; rewrite pnatr_eq0 | ring].
by rewrite (_ : _ + _ = 9%:R); [apply/eqP; rewrite pnatr_eq0 | ring].
Qed.
Lemma x4 p q : p \in [:: 0%N; 2%N] -> q \in [:: 0%N; 2%N] -> exists M,
  [/\ cov_is xD xw 4 p q X1 X1 M, nr M = 1%N, nc M = 1%N & ent M 0 0 + 1 != 0].
Proof.
move=> Hp Hq; have [_ [C _ _ _]] := xcond; have [W [G [eps [_ Mo Me]]]] := xmodel.
have Z p' x : p' \in [:: 0%N; 2%N] -> x = X0 \/ x = X1 -> meant xD G eps xw everywhere 0 p' x.
  rewrite !inE => H H'; refine (Me _ _ _ 1%N _ _); first by rewrite xnm.
  by rewrite xlog0; case/orP: H => /eqP ->; case: H' => ->; vm_compute.
have H : xprior_c ob1 p q X1 X1 && (kernel_at xD 10 xw 0 p 0 X1 X0 && kernel_at xD 10 xw 0 q 0 X1 X0).
  by move: Hp Hq; rewrite !inE => /orP [] /eqP -> /orP [] /eqP ->; vm_compute.
have [H1 /andP [H2 H3]] := andP H; have [M EM] := @xpost 4 ob1 p q X1 X1 C xinv1 isT isT H1.
exists M; have i0 : (0 \in xps)%N by [].
have ip : p \in xps by move: Hp; rewrite !inE => /orP [] ->; rewrite ?orbT.
have iq : q \in xps by move: Hq; rewrite !inE => /orP [] ->; rewrite ?orbT.
have S : [/\ nr (xK p q X1 X1) = 1%N, nc (xK p q X1 X1) = 1%N, nr (xZ ob1) = 1%N & ent (xK p q X1 X1) 0 0 = 2%:R \/ ent (xK p q X1 X1) 0 0 = 4%:R] /\
  [/\ ent (xK p 0 X1 X0) 0 0 = 1, ent (xK q 0 X1 X0) 0 0 = 1 & ent (xZ ob1) 0 0 = 1].
  split.
    move: Hp Hq; rewrite !inE => /orP [] /eqP -> /orP [] /eqP ->; (split; [by vm_compute | by vm_compute | by vm_compute | ]).
    - by left; rewrite (_ : ent _ _ _ = 1 + 1 * 1); [ring | by vm_compute].
    - by left; rewrite (_ : ent _ _ _ = 1 + 1 * 1 + 0); [ring | by vm_compute].
    - by left; rewrite (_ : ent _ _ _ = 1 + 1 * 1 + 0); [ring | by vm_compute].
    - by right; rewrite (_ : ent _ _ _ = 1 + 1 * 1 + (1 + 1 * 1) + 0 + 0); [ring | by vm_compute].
  split.
  - by move: Hp; rewrite !inE => /orP [] /eqP ->; [rewrite (_ : ent _ _ _ = 1 + 1 * 0) | rewrite (_ : ent _ _ _ = 1 + 1 * 0 + 0)]; [ring | by vm_compute | ring | by vm_compute].
  - by move: Hq; rewrite !inE => /orP [] /eqP ->; [rewrite (_ : ent _ _ _ = 1 + 1 * 0) | rewrite (_ : ent _ _ _ = 1 + 1 * 0 + 0)]; [ring | by vm_compute | ring | by vm_compute].
  - by rewrite (_ : ent _ _ _ = 1 + 0 * 0); [ring | by vm_compute].
have [[s1 s2 s3 s4] [v1 v2 v3]] := S.
have H0 : kernel_at xD 10 xw 0 (o_p ob1) (o_p ob1) (o_x ob1) (o_x ob1) by case/andP: H1 => /andP [/and4P []].
have H4 : kernel_at xD 10 xw 0 p q X1 X1 by case/andP: H1 => /andP [/and4P []].
have nz : ent (xZ ob1) 0 0 + ent (o_noise ob1) 0 0 != 0 by rewrite v3 -[_ + _]/(2%:R : R) pnatr_eq0.
have [t1 t2 [b Hb e]] := one_value xwE C i0 Mo ip iq (Z _ _ Hp (or_intror erefl)) (Z _ _ Hq (or_intror erefl))
  (Z 0%N X0 isT (or_introl erefl)) (xcov' H4) (xcov' H2) (xcov' H3) (xcov' H0) EM s1 s2 s3 erefl erefl nz.
split; [exact EM | exact t1 | exact t2 | ].
by rewrite e; refine (alg4 s4 v1 v2 v3 _ Hb).
Qed.
Lemma xpost5 : exists M, cov_is xD xw 5 0 0 X1 X1 M.
Proof.
have [_ [_ C _ _]] := xcond.
have [K [EK r1 c1 _]] := @x4 0%N 0%N isT isT; have [A [EA r2 c2 _]] := @x4 2%N 0%N isT isT; have [Z [EZ r3 c3 nz]] := @x4 2%N 2%N isT isT.
have i0 : (0 \in xps)%N by []. have i2 : (2 \in xps)%N by [].
have n0 : ne (o_x (ob2)) <> 0%N by [].
have aX : atom X1 by [].
refine (pcd xwE C i2 i0 i0 n0 aX aX EK EA EA EZ _ _ _ _); rewrite ?r1 ?c1 ?r2 ?c2 ?r3 ?c3 //.
by rewrite unitmxE det_mx11 !mxE unitfE.
Qed.
Lemma x6 : exists M, cov_is xD xw 6 0 0 X1 X1 M.
Proof.
have [_ [_ _ c6 _]] := xcond; by refine (@xpost 6 ob12 0 0 X1 X1 c6 xinv12 isT isT _); vm_compute.
Qed.
Lemma xnoise : exists Ke Kfe, [/\ cov_is xD xw 0 1 1 X01 X01 Ke, same_matrix Ke (o_noise obA),
  cov_is xD xw 0 0 1 X01 X01 Kfe & zero_within Kfe].
Proof.
exists (xK 1 1 X01 X01), (xK 0 1 X01 X01); split.
- by apply: xcov'; vm_compute.
- have [h1 h2] : nr (xK 1 1 X01 X01) = 2%N /\ nc (xK 1 1 X01 X01) = 2%N by split; vm_compute.
  split; [by rewrite h1 | by rewrite h2 | ].
  by rewrite h1 h2 => [[|[|i]]] [|[|j]] // _ _; vm_compute.
- by apply: xcov'; vm_compute.
have [h1 h2] : nr (xK 0 1 X01 X01) = 2%N /\ nc (xK 0 1 X01 X01) = 2%N by split; vm_compute.
by rewrite /zero_within h1 h2 => [[|[|i]]] [|[|j]] // _ _; vm_compute.
Qed.
End Ex.
