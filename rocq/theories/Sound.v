(* Soundness: the kernels and means of a measure are the covariances and expectations of
   what its processes denote. *)
From Coq Require Import List FunctionalExtensionality.
From mathcomp Require Import all_ssreflect all_algebra.
From mathcomp Require Import zify.
From Verif Require Lazy.
From Verif Require Import Graph Machine Refine Worlds Eval GraphSpec GraphProofs RV RVProofs.
Set Implicit Arguments. Unset Strict Implicit. Unset Printing Implicit Defensive.
Import GRing.Theory.
Local Open Scope ring_scope.

Section CovMat.
Variables (R : fieldType) (W : space R).
Notation V := (rv W). Notation cov := (@cov R W).
Implicit Types (u v : seq V) (M : dmat R).

Lemma cm_map2 (f : R -> R -> R) A B M u v u1 v1 u2 v2 :
  covmat A u1 v1 -> covmat B u2 v2 -> dmap2 f A B = Some M ->
  size u = size u1 -> size v = size v1 ->
  (forall i j, (i < size u)%N -> (j < size v)%N ->
     f (cov (vget u1 i) (vget v1 j)) (cov (vget u2 i) (vget v2 j)) = cov (vget u i) (vget v j)) ->
  covmat M u v.
Proof.
move=> [a1 a2 a3] [b1 b2 b3]; rewrite /dmap2 /same_shape; case: andP => // -[/eqP e1 /eqP e2] [<-] eu ev H.
split=> /=; rewrite ?eu ?ev // => i j li lj.
by rewrite a3 // b3 -?b1 -?b2 -?e1 -?e2 ?a1 ?a2 // H ?eu ?ev.
Qed.

Lemma cm_add A B M u v u1 v1 u2 v2 : covmat A u1 v1 -> covmat B u2 v2 -> dadd A B = Some M ->
  size u = size u1 -> size v = size v1 ->
  (forall i j, (i < size u)%N -> (j < size v)%N ->
     cov (vget u1 i) (vget v1 j) + cov (vget u2 i) (vget v2 j) = cov (vget u i) (vget v j)) ->
  covmat M u v.
Proof. exact: cm_map2. Qed.

Lemma cm_tr A u v : covmat A v u -> covmat (dtr A) u v.
Proof. by case=> a b c; split=> //= i j li lj; rewrite c // covC. Qed.

Lemma cm_hcat A B M u v1 v2 : covmat A u v1 -> covmat B u v2 -> dhcat A B = Some M -> covmat M u (v1 ++ v2).
Proof.
move=> [a1 a2 a3] [b1 b2 b3]; rewrite /dhcat; case: eqP => // e [<-]; split=> //=.
  by rewrite a2 b2 size_cat.
move=> i j li; rewrite size_cat /vget nth_cat a2 => lj; case: ltnP => l; first by rewrite a3.
by rewrite b3 //; lia.
Qed.
Lemma cm_vcat A B M u1 u2 v : covmat A u1 v -> covmat B u2 v -> dvcat A B = Some M -> covmat M (u1 ++ u2) v.
Proof.
move=> [a1 a2 a3] [b1 b2 b3]; rewrite /dvcat; case: eqP => // e [<-]; split=> //=.
  by rewrite a1 b1 size_cat.
move=> i j; rewrite size_cat /vget nth_cat a1 => li lj; case: ltnP => l; first by rewrite a3.
by rewrite b3 //; lia.
Qed.

Lemma ofold1_cons T (f : T -> T -> option T) a b l :
  ofold1 f [:: a, b & l] = obind (fun a => obind (f a) (ofold1 f (b :: l))) a.
Proof. by []. Qed.

Lemma cm_row (T : Type) (g : T -> option (dmat R)) u ys vs M :
  Forall2 (fun y v => forall B, g y = Some B -> covmat B u v) ys vs ->
  ofold1 (@dhcat R) (map g ys) = Some M -> covmat M u (flatten vs).
Proof.
move=> F; elim: F M => [|y v ys' vs' H F IH] M //.
case: F IH => [|y2 v2 ys2 vs2 H2 F] IH.
  by rewrite /= cats0 => /H.
rewrite [map _ _]/= ofold1_cons; case E: (g y) => [A|] //=; rewrite -[match _ with [::] => _ | _ => _ end]/(ofold1 (@dhcat R) (map g (y2 :: ys2))).
case E2: (ofold1 _ _) => [B|] //= E3; exact: cm_hcat (H _ E) (IH _ E2) E3.
Qed.
Lemma cm_col (T : Type) (g : T -> option (dmat R)) v xs us M :
  Forall2 (fun x u => forall B, g x = Some B -> covmat B u v) xs us ->
  ofold1 (@dvcat R) (map g xs) = Some M -> covmat M (flatten us) v.
Proof.
move=> F; elim: F M => [|y u ys' us' H F IH] M //.
case: F IH => [|y2 v2 ys2 vs2 H2 F] IH.
  by rewrite /= cats0 => /H.
rewrite [map _ _]/= ofold1_cons; case E: (g y) => [A|] //=; rewrite -[match _ with [::] => _ | _ => _ end]/(ofold1 (@dvcat R) (map g (y2 :: ys2))).
case E2: (ofold1 _ _) => [B|] //= E3; exact: cm_vcat (H _ E) (IH _ E2) E3.
Qed.
Lemma cm_block (T : Type) (g : T -> T -> option (dmat R)) (P Q : T -> seq V -> Prop) xs ys us vs M :
  (forall x y u v B, P x u -> Q y v -> g x y = Some B -> covmat B u v) ->
  Forall2 P xs us -> Forall2 Q ys vs ->
  dblock [seq [seq g x y | y <- ys] | x <- xs] = Some M -> covmat M (flatten us) (flatten vs).
Proof.
move=> H F1 F2; rewrite /dblock -map_comp; apply: cm_col.
elim: F1 => [|x u xs' us' Hx _ IH]; constructor => // B /=; apply: cm_row.
by elim: F2 {IH} => [|y v ys' vs' Hy _ IH]; constructor => // B'; apply: H.
Qed.

(* Given data. *)
Section Given.
Variables (e : nat -> V) (y : seq R) (dat : seq V).
Let n := size dat.
Let d i := radd (vget dat i) (e i).
Definition gS : 'M[R]_n := \matrix_(i, j) cov (d i) (d j).
Definition gc (a : V) : 'rV[R]_n := \row_j cov a (d j).

Lemma gS_sym : gS^T = gS.
Proof. by apply/matrixP => i j; rewrite !mxE covC. Qed.

Lemma givenE a : given e y dat a = radd a (rsum n (fun k =>
    rscale (if insub k is Some k' then (gc a *m invmx gS) 0 k' else 0) (rsub (rconst W (nth 0 y k)) (d k)))).
Proof. by []. Qed.

Lemma cov_given a b : cov (given e y dat a) b = cov a b - \sum_k (gc a *m invmx gS) 0 k * cov (d k) b.
Proof.
rewrite givenE covD cov_sum -sumrN; congr (_ + _); apply: eq_bigr => k _.
by rewrite covZ valK cov_sub cov_const sub0r mulrN.
Qed.

Lemma given_cov a b : gS \in unitmx ->
  cov (given e y dat a) (given e y dat b) = cov a b - (gc a *m invmx gS *m (gc b)^T) 0 0.
Proof.
move=> US; rewrite cov_given covC cov_given covC -addrA -opprD; congr (_ - _).
set al := gc a *m _; set be := gc b *m _.
have e1 : \sum_k be 0 k * cov (d k) a = (al *m (gc b)^T) 0 0.
  have -> : al *m (gc b)^T = (be *m (gc a)^T)^T.
    by rewrite trmx_mul trmxK /be trmx_mul trmx_inv gS_sym mulmxA.
  rewrite mxE mxE; apply: eq_bigr => k _; congr (_ * _).
  by rewrite mxE mxE covC.
rewrite e1 -[RHS]addr0; congr (_ + _); rewrite big1 // => k _.
have -> : cov (d k) (given e y dat b) = 0; last by rewrite mulr0.
rewrite covC cov_given.
have -> : \sum_i be 0 i * cov (d i) (d k) = (be *m gS) 0 k.
  by rewrite mxE; apply: eq_bigr => i _; congr (_ * _); rewrite mxE.
by rewrite /be mulmxKV // mxE subrr.
Qed.

Lemma given_Ex a : Ex (given e y dat a) =
  Ex a + (gc a *m invmx gS *m (\col_k (nth 0 y k - Ex (d k)))) 0 0.
Proof.
rewrite givenE ExD Ex_sum; congr (_ + _); rewrite mxE; apply: eq_bigr => k _.
by rewrite ExZ valK Ex_sub Ex_const; congr (_ * _); rewrite mxE.
Qed.
End Given.

(* Given pseudo-observations. *)
Lemma woodbury k n (K : 'M[R]_k) (C : 'M[R]_(k, n)) (d : 'I_n -> R) :
  let C' := C *m diag_mx (\row_j (d j)^-1) in
  let A := K + C' *m C^T in let S := C^T *m invmx K *m C + diag_mx (\row_j d j) in
  (forall j, d j != 0) -> K \in unitmx -> A \in unitmx ->
  [/\ S \in unitmx, invmx K *m C *m invmx S = invmx A *m C' &
      invmx K *m C *m invmx S *m (C^T *m invmx K) = invmx K - invmx A].
Proof.
move=> C' A S d0 UK UA; set Di := diag_mx (\row_j (d j)^-1).
set Dd := diag_mx (\row_j d j) in S *.
have DDi : Dd *m Di = 1%:M.
  apply/matrixP => i j; rewrite mul_diag_mx !mxE; case: eqP => [->|_]; rewrite ?mulr0n ?mulr0 //.
  by rewrite !mulr1n mulfV.
have DiD : Di *m Dd = 1%:M by apply: mulmx1C.
have eA : C *m Di *m C^T = A - K by rewrite /A addrC addKr.
have US : S \in unitmx.
  suff e : S *m (Di - Di *m C^T *m invmx A *m C *m Di) = 1%:M by have [] := mulmx1_unit e.
  have SC : S *m Di *m C^T = C^T *m invmx K *m A.
    rewrite /S !mulmxDl DDi mul1mx -!mulmxA (mulmxA C) eA mulmxBr mulVmx // mulmxBr mulmx1.
    by rewrite subrK.
  rewrite mulmxBr !mulmxA SC (mulmxK UA) /S mulmxDl DDi -addrA [X in _ + X]addrC addrA subrr add0r.
  by [].
have E2 : invmx K *m C *m invmx S = invmx A *m C'.
  have h : A *m invmx K *m C = C' *m S.
    rewrite /A /C' /S mulmxDl mulmxV // mulmxDl mul1mx mulmxDr addrC; congr (_ + _).
      by rewrite !mulmxA.
    by rewrite -mulmxA DiD mulmx1.
  by rewrite -[invmx K *m C](mulKmx UA) (mulmxA A) h mulmxA mulmxK.
split=> //; rewrite E2 mulmxA -(mulmxA (invmx A)) -/Di eA mulmxBr mulVmx // mulmxBl mul1mx.
by rewrite -mulmxA mulmxV // mulmx1.
Qed.

Lemma mul_col_mx_ m n p (A : 'M[R]_(m, n)) (B : 'M[R]_(n, p)) j : A *m col j B = col j (A *m B).
Proof. by rewrite !colE mulmxA. Qed.

Section PseudoMx.
Variables (e : nat -> V) (wz wx : seq V) (nx : nat -> R) (n : nat).
Definition pC : 'M[R]_(size wz, n) := \matrix_(i, j) cov (vget wz i) (vget wx j).
Definition pC' : 'M[R]_(size wz, n) := pC *m diag_mx (\row_j (nx j)^-1).
Definition pA : 'M[R]_(size wz) := gS e wz + pC' *m pC^T.
Definition pmean (y : seq R) (a : V) : R :=
  ((\row_i cov (vget wz i) a) *m (invmx pA *m pC') *m (\col_(j < n) (nth 0 y j - Ex (vget wx j)))) 0 0.
End PseudoMx.

Section Pseudo.
Variables (e e' : nat -> V) (y : seq R) (wz wx : seq V) (nx : nat -> R).
Let g := map (project e wz) wx.
Let n := size g. Let k := size wz.
Notation C := (pC wz wx n). Notation A := (pA e wz wx nx n).
Definition silent (v : V) := (forall i, cov (e i) v = 0) /\ (forall i, cov (e' i) v = 0).
Hypothesis silent_z : forall i, (i < k)%N -> silent (vget wz i).
Hypothesis silent_x : forall j, (j < n)%N -> silent (vget wx j).
Hypothesis noise_cross : forall i j, (i < k)%N -> (j < n)%N -> cov (e i) (e' j) = 0.
Hypothesis noise_diag : forall i j, (i < n)%N -> (j < n)%N -> cov (e' i) (e' j) = if i == j then nx i else 0.
Hypothesis nx0 : forall j, (j < n)%N -> nx j != 0.
Hypothesis US : gS e wz \in unitmx.
Hypothesis UA : A \in unitmx.

Lemma size_g : size wx = n. Proof. by rewrite /n size_map. Qed.
Lemma vget_g j : (j < n)%N -> vget g j = project e wz (vget wx j).
Proof. by rewrite /n size_map => lj; rewrite /vget (nth_map (rone W)). Qed.
Lemma cov_project a b : cov (project e wz a) b = \sum_i (gc e wz a *m invmx (gS e wz)) 0 i * cov (radd (vget wz i) (e i)) b.
Proof.
rewrite covD cov_const add0r cov_sum; apply: eq_bigr => i _.
by rewrite covZ valK cov_sub cov_const subr0.
Qed.
Lemma Ex_project a : Ex (project e wz a) = Ex a.
Proof.
rewrite ExD Ex_const Ex_sum big1 ?addr0 // => i _.
by rewrite ExZ Ex_sub Ex_const subrr mulr0.
Qed.
Lemma gc_silent a : silent a -> gc e wz a = \row_i cov (vget wz i) a.
Proof. by case=> H _; apply/rowP => i; rewrite !mxE covDr (covC _ (e i)) H addr0 covC. Qed.
Lemma cov_project_silent a b : silent b ->
  cov (project e wz a) b = (gc e wz a *m invmx (gS e wz) *m (\row_i cov (vget wz i) b)^T) 0 0.
Proof.
case=> H _; rewrite cov_project mxE; apply: eq_bigr => i _; congr (_ * _).
by rewrite !mxE covD H addr0.
Qed.
Lemma cov_project_noise a j : (j < n)%N -> cov (project e wz a) (e' j) = 0.
Proof.
move=> lj; rewrite cov_project big1 // => i _.
by rewrite covD (covC _ (e' j)) (silent_z _).2 // noise_cross // addr0 mulr0.
Qed.
Lemma cov_project2 a b : cov (project e wz a) (project e wz b) =
  (gc e wz a *m invmx (gS e wz) *m (gc e wz b)^T) 0 0.
Proof.
rewrite cov_project mxE; apply: eq_bigr => i _; congr (_ * _); rewrite covC cov_project.
have -> : \sum_j (gc e wz b *m invmx (gS e wz)) 0 j * cov (radd (vget wz j) (e j)) (radd (vget wz i) (e i)) =
  (gc e wz b *m invmx (gS e wz) *m gS e wz) 0 i.
  by rewrite [RHS]mxE; apply: eq_bigr => j _; congr (_ * _); rewrite mxE.
by rewrite mulmxKV // !mxE.
Qed.
Lemma row_C (j : 'I_n) : \row_i cov (vget wz i) (vget wx j) = (col j C)^T.
Proof. by apply/rowP => i; rewrite !mxE. Qed.

Lemma pseudo_gS : gS e' g = C^T *m invmx (gS e wz) *m C + diag_mx (\row_j nx j).
Proof.
apply/matrixP => i j; rewrite [LHS]mxE [RHS]mxE covD !covDr !vget_g //.
rewrite (covC (e' i)) !cov_project_noise // addr0 add0r noise_diag //.
congr (_ + _); last by rewrite !mxE (inj_eq val_inj); case: eqP => //= ->; rewrite mulr1n.
rewrite cov_project2 !gc_silent; try exact: silent_x.
by rewrite !row_C !trmxK tr_col -!row_mul mul_col_mx_ !mxE.
Qed.
Lemma pseudo_gc a : silent a -> gc e' g a = (\row_i cov (vget wz i) a) *m invmx (gS e wz) *m C.
Proof.
move=> Sa; apply/rowP => j; rewrite mxE covDr (covC _ (e' j)) Sa.2 addr0 vget_g // covC cov_project_silent //.
rewrite gc_silent; last exact: silent_x.
rewrite row_C; set c := \row_i _.
have -> : (col j C)^T *m invmx (gS e wz) *m c^T = (c *m invmx (gS e wz) *m col j C)^T.
  by rewrite !trmx_mul trmx_inv gS_sym mulmxA.
by rewrite mxE mul_col_mx_ mxE.
Qed.

Lemma pseudo_cov a b : silent a -> silent b ->
  cov (given e' y g a) (given e' y g b) = cov a b -
  ((\row_i cov (vget wz i) a) *m (invmx (gS e wz) - invmx A) *m (\row_i cov (vget wz i) b)^T) 0 0.
Proof.
move=> Sa Sb.
have d0 (j : 'I_n) : nx j != 0 by rewrite nx0.
have [US' E2 E3] := woodbury d0 US UA.
rewrite given_cov pseudo_gS // !pseudo_gc //; congr (_ - _).
by rewrite !trmx_mul trmx_inv gS_sym -E3 !mulmxA.
Qed.
Lemma pseudo_Ex a : silent a -> (forall j, (j < n)%N -> Ex (e' j) = 0) ->
  Ex (given e' y g a) = Ex a + pmean e wz wx nx n y a.
Proof.
move=> Sa Ee.
have d0 (j : 'I_n) : nx j != 0 by rewrite nx0.
have [US' E2 E3] := woodbury d0 US UA.
rewrite given_Ex pseudo_gS pseudo_gc // /pmean -E2 !mulmxA; congr (_ + (_ *m _) 0 0).
by apply/colP => j; rewrite !mxE ExD vget_g // Ex_project Ee // addr0.
Qed.
End Pseudo.

Lemma of_mxE m n (A : 'M[R]_(m, n)) (i : 'I_m) (j : 'I_n) : ent (of_mx A) i j = A i j.
Proof. by rewrite /= !valK. Qed.
(* The numbers of pseudo-observations. *)
Lemma pseudo_numbers e wz wx me nx (K C Kx A : dmat R) : me <> FITC ->
  nr K = size wz -> mx_at K (size wz) (size wz) = gS e wz -> nr Kx = size wx ->
  (nr C = size wz -> nc C = size wx -> covmat C wz wx) -> pseudo_A me nx K C Kx = Some A ->
  [/\ gS e wz \in unitmx, size nx = size wx /\ covmat C wz wx, forall j, (j < size wx)%N -> nth 0 nx j != 0,
      nr A = size wz /\ nc A = size wz & mx_at A (size wz) (size wz) = pA e wz wx (nth 0 nx) (size wx)].
Proof.
move=> nF eK eS eKx HC; rewrite /pseudo_A; case: ifP => // /and3P [/and5P [/eqP f1 /eqP f2 /eqP f3 /eqP f4 _] U Hn] [<-].
have en : size nx = size wx by rewrite -f4.
have {}HC : covmat C wz wx by apply: HC; rewrite ?f2 ?f3.
have [_ _ HC'] := HC.
have pn j : pseudo_noise me nx K C Kx j = nth 0 nx j by case: (me) nF.
split=> //=.
- by move: U; rewrite eK eS.
- by move=> j lj; move/allP: Hn => /(_ j); rewrite mem_iota /= add0n en pn; apply.
move: f1 f2 => _ _; move: eS; move: (eK); move: (nr K) => k ek; subst k => eS.
apply/matrixP => i j; rewrite mxE of_mxE /pA -eS [LHS]mxE [RHS]mxE; congr (_ + _); rewrite [LHS]mxE [RHS]mxE.
rewrite -en; apply: eq_bigr => s _; have ls : (s < size wx)%N by rewrite -en.
by rewrite /pC' mul_mx_diag !mxE pn !HC'.
Qed.
Lemma pseudo_mu_numbers e wz wx me nx (K C Kx : dmat R) (d mu : seq R) : me <> FITC ->
  nr K = size wz -> mx_at K (size wz) (size wz) = gS e wz -> nr Kx = size wx ->
  (nr C = size wz -> nc C = size wx -> covmat C wz wx) -> pseudo_mu me nx K C Kx d = Some mu ->
  [/\ gS e wz \in unitmx, pA e wz wx (nth 0 nx) (size wx) \in unitmx, size nx = size wx /\ size mu = size wz,
      forall j, (j < size wx)%N -> nth 0 nx j != 0 &
      \col_(i < size wz) nth 0 mu i = gS e wz *m invmx (pA e wz wx (nth 0 nx) (size wx)) *m
        pC' wz wx (nth 0 nx) (size wx) *m (\col_(i < size wx) nth 0 d i)].
Proof.
move=> nF eK eS eKx HC; rewrite /pseudo_mu; case EA: (pseudo_A _ _ _ _ _) => [A|] //=; case: ifP => // /andP [/eqP sd UA] [<-].
have [H1 [en [_ _ HC']] H3 [_ _] H5] := pseudo_numbers nF eK eS eKx HC EA.
have pn j : pseudo_noise me nx K C Kx j = nth 0 nx j by case: (me) nF.
move: eS UA; move: (eK); move: (nr K) => k ek; subst k => eS; rewrite eS H5 => UA; rewrite size_mkseq; split=> //.
apply/colP => i; rewrite mxE nth_mkseq // valK -[0%N]/(val (ord0 : 'I_1)) valK.
rewrite -en; congr ((_ *m _ *m _) _ _); apply/matrixP => a b; have lb : (b < size wx)%N by rewrite -en.
by rewrite /pC' mul_mx_diag !mxE pn HC'.
Qed.
End CovMat.

(* Evaluation at arrays and FDDs. *)
Section Atomic.
Variables (R : fieldType) (rdk : mid -> pid -> pid -> option (kexp R)) (rdm : mid -> pid -> option (mexp R)).
Variable D : nat -> (point R -> R) -> point R -> R.
Notation evk := (evk rdk rdm D). Notation evm := (evm rdk rdm D). Notation evf := (evf rdk rdm D).

Definition atom (x : input R) := if x is Tup _ then false else true.

Lemma at_zero n x y : atom x -> atom y -> evk n.+1 KZero x y = Some (dzero R (ne x) (ne y)).
Proof. by case: x y => [xs|p x|xs] [ys|q y|ys]. Qed.
Lemma at_add n x y k1 k2 : atom x -> atom y ->
  evk n.+1 (KAdd k1 k2) x y = obind2 (@dadd R) (evk n k1 x y) (evk n k2 x y).
Proof. by case: x y => [xs|p x|xs] [ys|q y|ys]. Qed.
Lemma at_mul n x y k1 k2 : atom x -> atom y ->
  evk n.+1 (KMul k1 k2) x y = obind2 (@dmul R) (evk n k1 x y) (evk n k2 x y).
Proof. by case: x y => [xs|p x|xs] [ys|q y|ys]. Qed.
Lemma at_scale n x y c k1 : atom x -> atom y ->
  evk n.+1 (KScale c k1) x y = omap (dscale c) (evk n k1 x y).
Proof. by case: x y => [xs|p x|xs] [ys|q y|ys]. Qed.
Lemma at_tensor n x y f g : atom x -> atom y ->
  evk n.+1 (KTensor f g) x y = obind2 (fun u v => Some (douter u v)) (evf n f x) (evf n g y).
Proof. by case: x y => [xs|p x|xs] [ys|q y|ys]. Qed.
Lemma at_rev n x y k1 : atom x -> atom y -> evk n.+1 (KRev k1) x y = omap (@dtr R) (evk n k1 y x).
Proof. by case: x y => [xs|p x|xs] [ys|q y|ys]. Qed.
Lemma at_kmap n x y t1 t2 k1 : atom x -> atom y ->
  evk n.+1 (KMap t1 t2 k1) x y = obind2 (evk n k1) (imap t1 x) (imap t2 y).
Proof. by case: x y => [xs|p x|xs] [ys|q y|ys]. Qed.
Lemma at_tofdd n x y j k1 : atom x -> atom y -> evk n.+1 (KToFdd j k1) x y = evk n k1 x (Fdd j y).
Proof. by case: x y => [xs|p x|xs] [ys|q y|ys]. Qed.
Lemma at_adk n x y k1 : atom x -> atom y -> evk n.+1 (KAdk k1) x y = evk n k1 x y.
Proof. by case: x y => [xs|p x|xs] [ys|q y|ys]. Qed.
Lemma at_post n x y kij kzi kzj kz z noise : atom x -> atom y ->
  evk n.+1 (KPost kij kzi kzj kz z noise) x y =
        obind2 (@dsub R) (evk n kij x y)
          (obind (fun K => obind2 (iqf K) (evk n kzi z x) (evk n kzj z y))
             (obind (fun K => dadd K noise) (evk n kz z z))).
Proof. by case: x y => [xs|p x|xs] [ys|q y|ys]. Qed.
Lemma at_sub n x y kzi kzj kz kzx kx z nz xd nx me : atom x -> atom y ->
  evk n.+1 (KSub kzi kzj kz kzx kx z nz xd nx me) x y =
        obind (fun A => obind2 (iqf A) (evk n kzi z x) (evk n kzj z y))
          (pseudo_var me nx (obind (fun K => dadd K nz) (evk n kz z z)) (evk n kzx z xd) (evk n kx xd xd)).
Proof. by case: x y => [xs|p x|xs] [ys|q y|ys]. Qed.
Lemma at_tup n k xs ys : evk n.+1 k (Tup xs) (Tup ys) = dblock [seq [seq evk n k xi yj | yj <- ys] | xi <- xs].
Proof. by []. Qed.
Lemma at_tupl n k xs y : atom y -> evk n.+1 k (Tup xs) y = evk n k (Tup xs) (Tup [:: y]).
Proof. by case: y. Qed.
Lemma at_tupr n k x ys : atom x -> evk n.+1 k x (Tup ys) = evk n k (Tup [:: x]) (Tup ys).
Proof. by case: x. Qed.
Lemma at_mok_nn n m ps xs ys : evk n.+1 (KMok m ps) (Num xs) (Num ys) =
  evk n (KMok m ps) (Tup [seq Fdd p (Num xs) | p <- ps]) (Tup [seq Fdd p (Num ys) | p <- ps]).
Proof. by []. Qed.
Lemma at_mok_fn n m ps a x ys : evk n.+1 (KMok m ps) (Fdd a x) (Num ys) =
  evk n (KMok m ps) (Tup [:: Fdd a x]) (Tup [seq Fdd p (Num ys) | p <- ps]).
Proof. by []. Qed.
Lemma at_mok_nf n m ps a x xs : evk n.+1 (KMok m ps) (Num xs) (Fdd a x) =
  evk n (KMok m ps) (Tup [seq Fdd p (Num xs) | p <- ps]) (Tup [:: Fdd a x]).
Proof. by []. Qed.
Lemma at_mok_ff n m ps a x b y : evk n.+1 (KMok m ps) (Fdd a x) (Fdd b y) =
  obind (fun k' => evk n k' x y) (rdk m a b).
Proof. by []. Qed.
Lemma at_diff2 n d1 d2 k1 x xs y ys (X := x :: xs) (Y := y :: ys) :
  evk n.+1 (KDiff (Some d1) (Some d2) k1) (Num X) (Num Y) =
  if all (fun a => all (fun b => is_shape 1 1 (evk n k1 (Num [:: a]) (Num [:: b]))) Y) X
  then Some (DMat (size X) (size Y) (fun i j =>
              D d1 (fun a => D d2 (fun b => entry00 (evk n k1 (Num [:: a]) (Num [:: b])))
                               (nth [::] Y j)) (nth [::] X i))) else None.
Proof. by []. Qed.
Lemma at_diff1 n d1 k1 x xs y ys (X := x :: xs) (Y := y :: ys) :
  evk n.+1 (KDiff (Some d1) None k1) (Num X) (Num Y) =
  if all (fun a => is_row (size Y) (evk n k1 (Num [:: a]) (Num Y))) X
  then Some (DMat (size X) (size Y) (fun i j =>
              D d1 (fun a => entry0 (evk n k1 (Num [:: a]) (Num Y)) j) (nth [::] X i))) else None.
Proof. by []. Qed.
Lemma at_fmean n m p x : evf n.+1 (FMean m p) x = obind (fun m1 => evm n m1 x) (rdm m p). Proof. by []. Qed.
Lemma at_fones n x : evf n.+1 FOnes x = Some (nseq (ne x) 1). Proof. by []. Qed.
Lemma at_mdiff n d m1 xs : evm n.+1 (MDiff d m1) (Num xs) =
  if all (fun a => if evm n m1 (Num [:: a]) is Some v then size v == 1%N else false) xs
  then Some [seq D d (fun a => head0 (evm n m1 (Num [:: a]))) a | a <- xs] else None.
Proof. by []. Qed.
Lemma at_madd n m1 m2 x : evm n.+1 (MAdd m1 m2) x = obind2 (vmap2 (fun a b => a + b)) (evm n m1 x) (evm n m2 x).
Proof. by []. Qed.
Lemma at_mmul n m1 m2 x : evm n.+1 (MMul m1 m2) x = obind2 (vmap2 (fun a b => a * b)) (evm n m1 x) (evm n m2 x).
Proof. by []. Qed.
Lemma at_mscale n c m1 x : evm n.+1 (MScale c m1) x = omap (map (fun a => c * a)) (evm n m1 x).
Proof. by []. Qed.
Lemma at_mone n x : evm n.+1 MOne x = Some (nseq (ne x) 1). Proof. by []. Qed.
Lemma at_mfun n f x : evm n.+1 (MFun f) x = evf n f x. Proof. by []. Qed.
Lemma at_mmap n t m1 x : evm n.+1 (MMap t m1) x = if x is Num xs then evm n m1 (Num (map t xs)) else None.
Proof. by []. Qed.
Lemma at_mom_n n m ps xs : evm n.+1 (MMom m ps) (Num xs) = evm n (MMom m ps) (Tup [seq Fdd p (Num xs) | p <- ps]).
Proof. by []. Qed.
Lemma at_mom_f n m ps a x : evm n.+1 (MMom m ps) (Fdd a x) = obind (fun m1 => evm n m1 x) (rdm m a).
Proof. by []. Qed.
Lemma at_mom_t n m ps xs : evm n.+1 (MMom m ps) (Tup xs) = ofold1 (fun u v => Some (u ++ v)) [seq evm n (MMom m ps) xi | xi <- xs].
Proof. by []. Qed.
Lemma at_mpost n mi mz kzi kz z noise y x : evm n.+1 (MPost mi mz kzi kz z noise y) x =
      obind2 (vmap2 (fun a b => a + b)) (evm n mi x)
        (obind (@col_seq R)
          (obind2 (fun K d => obind (fun A => iqf K A (dcol d)) (evk n kzi z x))
            (obind (fun K => dadd K noise) (evk n kz z z))
            (obind (fun mzv => vmap2 (fun a b => a - b) y mzv) (evm n mz z)))).
Proof. by []. Qed.
Lemma at_msub n mi mz mx kzi kz kzx kx z nz xd nx y me x : evm n.+1 (MSub mi mz mx kzi kz kzx kx z nz xd nx y me) x =
  obind2 (vmap2 (fun a b => a + b)) (evm n mi x)
        (obind (@col_seq R)
          (obind2 (fun K d => obind (fun A => iqf K A (dcol d)) (evk n kzi z x))
            (obind (fun K => dadd K nz) (evk n kz z z))
            (obind2 (fun mu mzv => vmap2 (fun a b => a - b) mu mzv)
              (pseudo_mean me nx y (obind (fun K => dadd K nz) (evk n kz z z)) (evk n kzx z xd) (evk n kx xd xd)
                (evm n mx xd) (evm n mz z))
              (evm n mz z)))).
Proof. by []. Qed.
End Atomic.

(* The second input transformation of [shift] and [stretch] (by 0 and by 1) does nothing, and
   the functions that processes are multiplied with refer to the measure at hand. *)
Section Maps.
Variable R : fieldType.
Definition idmap (m : mid) (d : pdef R) : Prop :=
  match d with
  | DMap _ _ (Some f) => forall t, f t = t
  | DFun _ (FMean m' _) => m' = m
  | DFun _ FOnes => False
  | _ => True
  end.
Fixpoint idmaps (m : mid) (h : hist R) : Prop :=
  match h with
  | HRoot => True
  | HPost pm par _ => idmaps pm par
  | HAdd _ d rest => idmap m d /\ idmaps m rest
  end.
Definition winvid (w : world R) : Prop := forall m, idmaps m (w_log w m).
Definition keeps A (c : act R A) : Prop := forall w, winvid w -> winvid (c w).1.

Lemma keeps_bind A B (c : act R A) (f : A -> act R B) : keeps c -> (forall a, keeps (f a)) -> keeps (abind c f).
Proof.
move=> H1 H2 w /H1; rewrite /abind; case: (c w) => w1 [a| |] //= Hw; exact: H2.
Qed.
Lemma keeps_reads A (c : prog R A) : keeps (reads c).
Proof. by move=> w H; rewrite /reads; case: (run _ _ _ _). Qed.
Lemma keeps_new_gp : keeps (@new_gp R). Proof. by []. Qed.
Lemma keeps_new_measure : keeps (@new_measure R).
Proof. by move=> w H m; rewrite /= /log_set; case: eqP => // _; exact: H. Qed.
Lemma keeps_define m p d : idmap m d -> keeps (@define R m p d).
Proof.
move=> Hd; apply: keeps_bind => [|mu]; first exact: keeps_reads.
apply: keeps_bind => [|k w H m']; first exact: keeps_reads.
by rewrite /= /log_set; case: eqP => [->|_]; [split=> //; exact: H | exact: H].
Qed.
Lemma keeps_ret A (a : A) : keeps (@aret R A a). Proof. by []. Qed.
Lemma keeps_iter A (f : A -> act R unit) ms : (forall a, keeps (f a)) -> keeps (aiter f ms).
Proof. by move=> H; elim: ms => [|a ms IH] //=; apply: keeps_bind. Qed.
Lemma keeps_mul m res p q : keeps (@define_mul R m res p q).
Proof.
by do ?[exact: keeps_new_gp | exact: keeps_define | exact: keeps_reads | apply: keeps_bind => [|?]].
Qed.
Lemma keeps_unary p d : (forall m, idmap m d) -> keeps (@unary R p d).
Proof.
move=> Hd; apply: keeps_bind => [|res w] //; apply: keeps_bind => [|?] //.
by apply: keeps_iter => m; apply: keeps_define.
Qed.
Lemma keeps_nary ps ord f : (forall m res, keeps (f m res)) -> keeps (@nary R ps ord f).
Proof.
move=> Hf; apply: keeps_bind => [|res w] //; case: ifP => // _; apply: keeps_bind => [|?] //.
exact: keeps_iter.
Qed.
Lemma feat_id (f : nat -> R -> R) t : (forall i a, f i a = a) -> feat f t = t.
Proof.
move=> H; rewrite /feat (eq_map (f2 := snd)) => [|[a b]] //=.
by rewrite -/(unzip2 _) unzip2_zip // size_iota.
Qed.
Lemma keeps_step o : keeps (fun w => @step R w o).
Proof.
move=> w Hw; rewrite /step; case: ifP => // _.
have U p d : (forall m, idmap m d) -> winvid (unary p d w).1 by move=> Hd; apply: keeps_unary.
have B m d : idmap m d ->
    winvid (abind (@new_gp R) (fun p => abind (define m p d) (fun=> aret (RPid R p))) w).1.
  move=> Hd; apply: (keeps_bind keeps_new_gp) => // a; apply: keeps_bind => [|_]; [exact: keeps_define | exact: keeps_ret].
case: o => [|m mu k|m mu k lr rr|m p|p c|p f|p c|p f|p c|p s|p dims|p f|p d|p q ord|p q ord|ps ord|m o|m p q|m p]; rewrite /exec;
  do ?[by apply: U | by apply: B].
- exact: keeps_new_measure.
- by apply: U => m t; apply: feat_id => i a; rewrite subr0.
- by apply: U => m t; apply: feat_id => i a; rewrite divr1.
- by apply: keeps_nary => // m res; apply: keeps_define.
- by apply: keeps_nary => // m res; apply: keeps_mul.
- by apply: keeps_nary => // m res; apply: keeps_define.
- move=> m'; rewrite /= /log_set; case: ifP => [_ /=|_]; [case: ifP => // _; exact: Hw | case: ifP => // _; exact: Hw].
- by apply: (keeps_bind (keeps_reads _)) => // a; exact: keeps_ret.
- by apply: (keeps_bind (keeps_reads _)) => // a; exact: keeps_ret.
Qed.
Lemma winvid_from ops w : winvid w -> winvid (run_from w ops).
Proof. by elim: ops w => // o ops IH w H; apply: IH; apply: keeps_step. Qed.
Lemma idmaps_ext m r d rest h : ext (HAdd r d rest) h -> idmaps m h -> idmap m d.
Proof. by elim=> [[]//|p d' h' _ IH [_]]. Qed.
End Maps.

Section Sound.
Variable R : fieldType.
Variable W : space R.
Variable D : nat -> (point R -> R) -> point R -> R.
Variables (G : pid -> point R -> rv W) (eps : mid -> nat -> rv W).
Notation V := (rv W). Notation input := (input R). Notation hist := (hist R).
Notation point := (point R). Notation kexp := (kexp R). Notation mexp := (mexp R).
Notation at_ := (at_ D G eps). Notation denotes := (denotes D G eps).
Notation Ex := (@Ex R W). Notation cov := (@cov R W).
Variables (w : world R) (P : mid -> pid -> Prop).
Hypothesis (I : winv w) (Wi : winvid w) (Va : valid D G eps w P) (Lay : ordered D G eps w P).
Notation evk := (evk (see_k w) (see_m w) D). Notation evm := (evm (see_k w) (see_m w) D).
Notation evf := (evf (see_k w) (see_m w) D).
Notation nm := (w_nm w). Notation l := (w_log w).
Implicit Types (h : hist) (x y : input) (k : kexp) (mu : mexp) (M : dmat R) (u v : seq V).

Definition okk n := forall m h p q k x y M u v, (m < nm)%N -> ext h (l m) -> P m p -> P m q ->
  KA m h p q = Some k -> denotes m h p x u -> denotes m h q y v -> evk n k x y = Some M -> covmat M u v.
Definition okm n := forall m h p mu x u (e : seq R), (m < nm)%N -> ext h (l m) -> P m p ->
  MA m h p = Some mu -> denotes m h p x u -> evm n mu x = Some e -> e = map Ex u.

Lemma wf m : (m < nm)%N -> wfh (l m). Proof. exact: (l_wf (v_log I.1)). Qed.
Lemma wfe m h : (m < nm)%N -> ext h (l m) -> wfh h. Proof. by move=> lt E; apply: wfh_ext E (wf lt). Qed.
Lemma ext_trans h1 h2 h3 : ext h1 h2 -> ext h2 h3 -> ext h1 h3.
Proof. by move=> E; elim=> // p d h' _; apply: ext_add. Qed.
Lemma ext_tail r d h h' : ext (HAdd r d h) h' -> ext h h'.
Proof. by apply: ext_trans; apply: ext_add; apply: ext_refl. Qed.

Lemma full m h p : (m < nm)%N -> ext h (l m) -> p \in pids h -> denotes m (l m) p = denotes m h p.
Proof. by move=> lt E Hp; apply: denotes_ext => //; apply: wf. Qed.
Lemma read m h p q k : (m < nm)%N -> ext h (l m) -> see_k w m p q = Some k ->
  p \in pids h -> q \in pids h -> KA m h p q = Some k.
Proof.
move=> lt E; rewrite see_k_log // lt => e Hp Hq.
by have [<- _] := KA_ext m E (wf lt) (fun _ => Hp) (fun _ => Hq).
Qed.

(* Labels of the noise in a measure. *)
Lemma elabs_lt m h m' : (m < nm)%N -> ext h (l m) -> m' \in elabs m h -> (m' <= m)%N.
Proof.
elim/ltn_ind: m h => m IH h lt E; elim: h E => [|pm par _ o|r d h IHh] E //=.
  rewrite inE => /orP [/eqP -> //|Hm].
  have eb : base (l m) = Some (pm, par, o) by rewrite (ext_base E).
  have [lp Ep _] := l_base (v_log I.1) lt eb.
  by apply: leq_trans (IH pm lp par _ Ep Hm) _; lia.
by apply: IHh; apply: ext_tail E.
Qed.

(* Independent processes are uncorrelated with everything before. *)
Lemma ind_null m r mu k h p x u t : (m < nm)%N -> ext (HAdd r (DInd mu k) h) (l m) -> denotes m h p x u -> null (G r t) u.
Proof.
move=> lt E; apply: denotes_null; first exact: (vd_zero Va).
  by move=> q s; apply: (vd_new Va _ _ lt E).
by move=> m' i _; rewrite covC; apply: (vd_ind_eps Va).
Qed.
(* So is the noise. *)
Lemma eps_null m pm par o p x u i : (m < nm)%N -> base (l m) = Some (pm, par, o) ->
  denotes pm par p x u -> null (eps m i) u.
Proof.
move=> lt eb; have [lp Ep _] := l_base (v_log I.1) lt eb.
apply: denotes_null; first exact: (vd_zero Va).
  by move=> q s _; apply: (vd_ind_eps Va).
move=> m' j Hm; apply: (vd_eps_eps Va) => e; subst m'.
by have := elabs_lt (ltn_trans lp lt) Ep Hm; lia.
Qed.

Lemma at_denotes m h p x u : atom x -> at_ m h p x u <-> denotes m h p x u.
Proof.
case: x => // [xs|q x] _; split=> H; try by constructor.
  exact: lift_num_inv H.
exact: lift_fdd_inv H.
Qed.
Lemma read_m m h p mu : (m < nm)%N -> ext h (l m) -> see_m w m p = Some mu ->
  p \in pids h -> MA m h p = Some mu.
Proof.
move=> lt E; rewrite see_m_log // lt => e Hp.
by rewrite -(MA_ext m E (wf lt) (fun _ => Hp)).
Qed.

Definition oka n h := forall m p q k x y M u v, (m < nm)%N -> ext h (l m) -> P m p -> P m q ->
  KA m h p q = Some k -> atom x -> atom y -> at_ m h p x u -> at_ m h q y v ->
  evk n k x y = Some M -> covmat M u v.

(* Posterior measures. *)
Lemma iqf_ent (K A B Q : dmat R) N : iqf K A B = Some Q -> nr K = N ->
  [/\ nr A = N, nr B = N, nr Q = nc A & nc Q = nc B] /\
  [/\ nc K = N, mx_at K N N \in unitmx &
   forall i j, (i < nc A)%N -> (j < nc B)%N -> ent Q i j =
    ((\row_(k < N) ent A k i) *m invmx (mx_at K N N) *m (\col_(k < N) ent B k j)) 0 0].
Proof.
rewrite /iqf => H e; subst N; case: and4P H => // -[/eqP a /eqP b /eqP c U] [<-]; split=> //.
split=> // i j li lj; rewrite /= !insubT.
rewrite !mxE; apply: eq_bigr => s _; rewrite !mxE; congr (_ * _).
by apply: eq_bigr => t _; rewrite !mxE.
Qed.

Lemma given_nil (e : nat -> V) yy (a : V) : aseq (given e yy [::] a) a.
Proof. by split=> [|g]; rewrite ?ExD ?covD /rsum /= ?Ex_const ?cov_const addr0. Qed.

(* The data of a posterior measure, seen from the evaluator. *)
Lemma data_cov n m pm par o dat kz K0 K i j : okk n -> (m < nm)%N -> base (l m) = Some (pm, par, o) ->
  P pm (o_p o) -> denotes pm par (o_p o) (o_x o) dat -> KA pm par (o_p o) (o_p o) = Some kz ->
  evk n kz (o_x o) (o_x o) = Some K0 -> dadd K0 (o_noise o) = Some K ->
  [/\ nr K = size dat, nc K = size dat & ((i < size dat)%N -> (j < size dat)%N ->
  ent K i j = cov (radd (vget dat i) (eps m i)) (radd (vget dat j) (eps m j)))].
Proof.
move=> Hn lt eb Po Hd Ek Ev; have [lp Ep _] := l_base (v_log I.1) lt eb.
have [a b c] := Hn _ _ _ _ _ _ _ _ _ _ (ltn_trans lp lt) Ep Po Po Ek Hd Hd Ev.
rewrite /dadd /dmap2 /same_shape; case: andP => // -[/eqP e1 /eqP e2] [<-] /=; split=> // li lj.
have N i0 := (null_nth _ _).1 (eps_null i0 lt eb Hd).
have [_ Hno] := vd_noise Va lt eb.
rewrite c // -Hno -?e1 -?e2 ?a ?b // covD !covDr (covC (vget dat i) (eps m j)) !N //.
by rewrite addr0 add0r.
Qed.
Lemma cross_cov m pm par o dat i a p x u s : (m < nm)%N -> base (l m) = Some (pm, par, o) ->
  denotes pm par p x u -> (s < size u)%N -> a = vget u s ->
  cov a (radd (vget dat i) (eps m i)) = cov (vget dat i) a.
Proof.
move=> lt eb Hu ls ->; have N := (null_nth _ _).1 (eps_null i lt eb Hu) s ls.
by rewrite covDr (covC _ (eps m i)) N addr0 covC.
Qed.

Lemma silent_at m pm par o p x u i : (m < nm)%N -> base (l m) = Some (pm, par, o) ->
  denotes pm par p x u -> (i < size u)%N -> silent (eps m) (noise_of o (eps m)) (vget u i).
Proof.
move=> lt eb Hu li; have N j := (null_nth _ _).1 (eps_null j lt eb Hu) i li.
by split=> // j; rewrite /noise_of; case: (o_data o).
Qed.

(* Posterior kernels given pseudo-observations. *)
Lemma oka_sub m pm par o d p q x y M K0 K C Kx A B1 B2 Q1 Q2 Mij X wz wx u v i j :
  (m < nm)%N -> base (l m) = Some (pm, par, o) -> o_data o = Some d -> d_method d <> FITC ->
  denotes pm par (o_p o) (o_x o) wz -> denotes pm par (d_p d) (d_x d) wx ->
  denotes pm par p x u -> denotes pm par q y v ->
  covmat K0 wz wz -> dadd K0 (o_noise o) = Some K -> (nr C = size wz -> nc C = size wx -> covmat C wz wx) ->
  nr Kx = size wx -> pseudo_A (d_method d) (d_noise d) K C Kx = Some A ->
  covmat B1 wz u -> covmat B2 wz v -> ent Mij i j = cov (vget u i) (vget v j) ->
  iqf K B1 B2 = Some Q1 -> dsub Mij Q1 = Some X -> iqf A B1 B2 = Some Q2 -> dadd X Q2 = Some M ->
  (i < size u)%N -> (j < size v)%N ->
  ent M i j = cov (given (noise_of o (eps m)) (values o) (map (project (eps m) wz) wx) (vget u i))
                  (given (noise_of o (eps m)) (values o) (map (project (eps m) wz) wx) (vget v j)).
Proof.
move=> lt eb Eo nF Hz Hx Hu Hv c0 eK cC eKx eA [b1 b2 b3] [b1' b2' b3'] eM q1 e1 q2 e2 li lj.
have N i0 := (null_nth _ _).1 (eps_null i0 lt eb Hz).
have [_ Hno] := vd_noise Va lt eb; have [Hp1 Hp2] := vd_pseudo Va lt eb Eo.
have [a b c] := c0.
move: eK; rewrite /dadd /dmap2 /same_shape; case: andP => // -[/eqP n1 /eqP n2] [eK].
have K1 : nr K = size wz by rewrite -eK.
have ES : mx_at K (size wz) (size wz) = gS (eps m) wz.
  apply/matrixP => s t; rewrite !mxE -eK /= c // -Hno -?n1 -?n2 ?a ?b // covD !covDr (covC (vget wz s) (eps m t)) !N //.
  by rewrite addr0 add0r.
have [US [en [_ _ _]] nx0 [A1 A2] EA] := pseudo_numbers nF K1 ES eKx cC eA.
have [_ [_ U1 H1]] := iqf_ent q1 K1; have [_ [_ U2 H2]] := iqf_ent q2 A1.
move: e2; rewrite /dadd /dmap2 /same_shape; case: andP => // _ [<-] /=.
move: e1; rewrite /dsub /dmap2 /same_shape; case: andP => // _ [<-] /=.
rewrite H1 ?b2 ?b2' // H2 ?b2 ?b2' // eM.
have sg : size (map (project (eps m) wz) wx) = size wx by rewrite size_map.
have Ni : nr (o_noise o) = size wz by rewrite -n1.
rewrite (@pseudo_cov _ _ (eps m) (noise_of o (eps m)) (values o) wz wx (nth 0 (d_noise d))) ?sg -?EA //; first last.
- exact: (silent_at lt eb Hv lj).
- exact: (silent_at lt eb Hu li).
- move=> s t ls lt'; rewrite /noise_of Eo; apply: Hp2; by rewrite en.
- by move=> s t ls lt'; rewrite /noise_of Eo; apply: Hp1; rewrite Ni.
- by move=> s ls; apply: (silent_at lt eb Hx).
- by move=> s ls; apply: (silent_at lt eb Hz).
rewrite mulmxBr mulmxBl -ES [X in _ = _ - X]mxE [X in _ = _ - (_ + X)]mxE opprB.
have r1 : (\row_(k < size wz) ent B1 k i) = \row_k cov (vget wz k) (vget u i) by apply/rowP => s; rewrite !mxE b3.
have r2 : (\col_(k < size wz) ent B2 k j) = (\row_k cov (vget wz k) (vget v j))^T by apply/colP => s; rewrite !mxE b3'.
by rewrite r1 r2 addrA addrAC.
Qed.

Lemma oka_post n pm par o : okk n -> oka n.+1 par -> oka n.+1 (HPost pm par o).
Proof.
move=> Hn IHh m p q k x y M u v lt E Pp Pq /=; case: andP => // -[Hp Hq].
have eb : base (l m) = Some (pm, par, o) by rewrite (ext_base E).
have [lp Ep _] := l_base (v_log I.1) lt eb; have ltp := ltn_trans lp lt.
have [Pp' Po] := vd_base Va lt eb Pp Hp; have [Pq' _] := vd_base Va lt eb Pq Hq.
move=> Ek ax ay [u0 Hu Fu] [v0 Hv Fv]; have Po' := Po _ (mem_head _ _).
have su := Forall2_size Fu; have sv := Forall2_size Fv.
have Du := (at_denotes _ _ _ _ ax).1 Hu; have Dv := (at_denotes _ _ _ _ ay).1 Hv.
move: Ek; rewrite /post_k; case Eo: (o_data o) => [d|].
  have Pd : P pm (d_p d) by apply: Po; rewrite /o_pids Eo !inE eqxx orbT.
  rewrite /post_k2 /= /onk /onm !eqxx.
  case Ekij: (KA pm par p q) => [kij|] //=; case Ekzi: (KA pm par (o_p o) p) => [kzi|] //=.
  case Ekzj: (KA pm par (o_p o) q) => [kzj|] //=; case Ekzx: (KA pm par (o_p o) (d_p d)) => [kzx|] //=.
  case Ekz: (KA pm par (o_p o) (o_p o)) => [kz|] //=; case Ekx: (KA pm par (d_p d) (d_p d)) => [kx|] //= [<-].
  rewrite at_add //; case: n Hn {IHh} => // n Hn; rewrite at_post // at_sub //.
  case Eij: (evk n kij x y) => [Mij|] //=.
  case Ez: (evk n kz _ _) => [K0|] //=; case EK: (dadd K0 _) => [K|] //=.
  case Ezi: (evk n kzi _ _) => [B1|] //=; case Ezj: (evk n kzj _ _) => [B2|] //=.
  case Q1: (iqf K B1 B2) => [M1|] //=; case X1: (dsub Mij M1) => [X|] //=.
  rewrite /pseudo_var /=; case Ezx: (evk n kzx _ _) => [C|] //=; case Ex_: (evk n kx _ _) => [Kx|] //=.
  case EA: (pseudo_A _ _ _ _ _) => [A|] //=; case Q2: (iqf A B1 B2) => [M2|] //= EM.
  have F k1 x1 y1 M1' : evk n k1 x1 y1 = Some M1' -> evk n.+1 k1 x1 y1 = Some M1' by apply: evk_fuel.
  have [a b c] := Hn _ _ _ _ _ _ _ _ _ _ ltp Ep Pp' Pq' Ekij Du Dv (F _ _ _ _ Eij).
  have [e1 e2] : nr M = nr Mij /\ nc M = nc Mij.
    move: EM X1; rewrite /dadd /dsub /dmap2 /same_shape; case: andP => // _ [<-]; case: andP => // _ [<-] //.
  split=> [||i j li lj]; rewrite -?su -?sv ?e1 ?e2 //; rewrite -su in li; rewrite -sv in lj.
  have [dat H1 h1] := Forall2_nth (rone W) (rone W) Fu li.
  have [dat2 H2 h2] := Forall2_nth (rone W) (rone W) Fv lj.
  have AS : aseq (given (noise_of o (eps m)) (values o) dat2 (vget v0 j)) (given (noise_of o (eps m)) (values o) dat (vget v0 j)).
    by apply: aseq_given => //; apply: (data_same _ H2 H1) => p0; exact: at_same.
  rewrite /vget h1 h2 (aseq_r _ AS).
  move: H1; rewrite /data Eo => -[nF [wz [wx [Hz Hx ->]]]].
  have cx := Hn _ _ _ _ _ _ _ _ _ _ ltp Ep Pd Pd Ekx Hx Hx (F _ _ _ _ Ex_).
  apply: (oka_sub lt eb Eo nF Hz Hx Du Dv _ EK _ _ EA _ _ _ Q1 X1 Q2 EM) => //.
  - exact: (Hn _ _ _ _ _ _ _ _ _ _ ltp Ep Po' Po' Ekz Hz Hz (F _ _ _ _ Ez)).
  - by move=> _ _; apply: (Hn _ _ _ _ _ _ _ _ _ _ ltp Ep Po' Pd Ekzx Hz Hx (F _ _ _ _ Ezx)).
  - by case: cx.
  - exact: (Hn _ _ _ _ _ _ _ _ _ _ ltp Ep Po' Pp' Ekzi Hz Du (F _ _ _ _ Ezi)).
  - exact: (Hn _ _ _ _ _ _ _ _ _ _ ltp Ep Po' Pq' Ekzj Hz Dv (F _ _ _ _ Ezj)).
  - exact: c.
rewrite /data /noise_of /values Eo in Fu Fv; move: Po' => {}Po; rewrite /post_k1 => Ek.
have AS dat dat' (a : V) : denotes pm par (o_p o) (o_x o) dat -> denotes pm par (o_p o) (o_x o) dat' ->
    aseq (given (eps m) (o_y o) dat a) (given (eps m) (o_y o) dat' a).
  by move=> H H'; apply: aseq_given => //; apply: (denotes_same H H').
move: Ek; case: eqP => [z0|_].
  rewrite /= /onk /onm eqxx; case Ek: (KA pm par p q) => [k'|] //= [<-] Ev.
  have [a b c] := IHh _ _ _ _ _ _ _ _ _ ltp Ep Pp' Pq' Ek ax ay Hu Hv Ev.
  split=> [||i j li lj]; rewrite -?su -?sv //; rewrite -su in li; rewrite -sv in lj.
  have [d1 H1 e1] := Forall2_nth (rone W) (rone W) Fu li.
  have [d2 H2 e2] := Forall2_nth (rone W) (rone W) Fv lj.
  have n1 : d1 = [::] by apply: (lift_ne0 _ H1 z0) => ? ?; apply: at_ne0.
  have n2 : d2 = [::] by apply: (lift_ne0 _ H2 z0) => ? ?; apply: at_ne0.
  rewrite c // /vget e1 e2 n1 n2 (given_nil _ _ _).2.
  by rewrite (aseq_r _ (given_nil _ _ _)).
rewrite /= /onk /onm !eqxx.
case Ekij: (KA pm par p q) => [kij|] //=; case Ekzi: (KA pm par (o_p o) p) => [kzi|] //=.
case Ekzj: (KA pm par (o_p o) q) => [kzj|] //=; case Ekz: (KA pm par (o_p o) (o_p o)) => [kz|] //= [<-].
rewrite at_post //; case Eij: (evk n kij x y) => [Mij|] //=.
case Ez: (evk n kz _ _) => [K0|] //=; case EK: (dadd K0 _) => [K|] //=.
case Ezi: (evk n kzi _ _) => [A|] //=; case Ezj: (evk n kzj _ _) => [B|] //=.
case EQ: (iqf K A B) => [Q|] //=; rewrite /dsub /dmap2 /same_shape; case: andP => // -[/eqP e1 /eqP e2] [<-].
have [a b c] := Hn _ _ _ _ _ _ _ _ _ _ ltp Ep Pp' Pq' Ekij Du Dv Eij.
split=> [||i j li lj] /=; rewrite -?su -?sv //; rewrite -su in li; rewrite -sv in lj.
have [dat H1 h1] := Forall2_nth (rone W) (rone W) Fu li.
have [dat2 H2 h2] := Forall2_nth (rone W) (rone W) Fv lj.
have [A1 A2 A3] := Hn _ _ _ _ _ _ _ _ _ _ ltp Ep Po Pp' Ekzi H1 Du Ezi.
have [B1 B2 B3] := Hn _ _ _ _ _ _ _ _ _ _ ltp Ep Po Pq' Ekzj H1 Dv Ezj.
have KS s t := data_cov s t Hn lt eb Po H1 Ekz Ez EK.
have [K1 K2 _] := KS 0%N 0%N.
have [_ [_ U HQ]] := iqf_ent EQ K1.
have ES : mx_at K (size dat) (size dat) = gS (eps m) dat.
  by apply/matrixP => s t; rewrite !mxE; have [_ _ ->] := KS s t.
rewrite /vget h1 h2 (aseq_r _ (AS _ _ _ H2 H1)) given_cov -?ES // HQ ?A2 ?B2 // c //.
congr (_ - (_ *m _ *m _) 0 0).
  by apply/rowP => s; rewrite !mxE A3 // (cross_cov _ _ lt eb Du li).
by apply/colP => s; rewrite !mxE B3 // (cross_cov _ _ lt eb Dv lj).
Qed.

(* A process that was added to a measure. *)
Section Add.
Variables (n : nat) (m : mid) (r : pid) (d : pdef R) (rest : hist).
Notation h := (HAdd r d rest).
Hypotheses (lt : (m < nm)%N) (E : ext h (l m)) (Hk : forall n', (n' <= n)%N -> okk n')
  (Hm : forall n', (n' <= n)%N -> okm n') (IHh : oka n.+1 rest).

Lemma Er : ext rest (l m). Proof. exact: ext_tail E. Qed.
Lemma Hargs q : q \in dargs d -> q \in pids rest.
Proof. by have /and3P [_ /allP H _] := wfe lt E; apply: H. Qed.

Lemma K n' p q k x y M u v : (n' <= n)%N -> P m p -> P m q -> KA m rest p q = Some k ->
  atom x -> atom y -> at_ m rest p x u -> at_ m rest q y v -> evk n' k x y = Some M -> covmat M u v.
Proof.
move=> le Pp Pq Ek ax ay /(at_denotes _ _ _ _ ax) Hu /(at_denotes _ _ _ _ ay) Hv.
exact: Hk le _ _ _ _ _ _ _ _ _ _ lt Er Pp Pq Ek Hu Hv.
Qed.
Lemma K1 p q k x y M u v : P m p -> P m q -> KA m rest p q = Some k ->
  atom x -> atom y -> at_ m rest p x u -> at_ m rest q y v -> evk n.+1 k x y = Some M -> covmat M u v.
Proof. exact: IHh lt Er. Qed.

Lemma inv_add n' k1 k2 x y M : atom x -> atom y -> evk n' (KAdd k1 k2) x y = Some M ->
  exists n0 A B, [/\ n' = n0.+1, evk n0 k1 x y = Some A, evk n0 k2 x y = Some B & dadd A B = Some M].
Proof.
move=> ax ay; case: n' => [|n0] //; rewrite at_add //.
by case E1: (evk _ _ _ _) => [A|] //=; case E2: (evk _ _ _ _) => [B|] //= E3; exists n0, A, B.
Qed.
Lemma inv_tensor n' f g x y M : atom x -> atom y -> evk n' (KTensor f g) x y = Some M ->
  exists n0 a b, [/\ n' = n0.+1, evf n0 f x = Some a, evf n0 g y = Some b & M = douter a b].
Proof.
move=> ax ay; case: n' => [|n0] //; rewrite at_tensor //.
by case E1: (evf _ _ _) => [A|] //=; case E2: (evf _ _ _) => [B|] //= [<-]; exists n0, A, B.
Qed.

Hypothesis Pr : P m r.
Lemma Pn q : q \in needs d -> P m q. Proof. exact: (vd_needs Va) lt E Pr. Qed.

Lemma fval n' f x a fv : (n' <= n)%N -> atom x -> (forall m' q, f = FMean m' q -> P m q) ->
  evf n' f x = Some a -> fvalue m (at_ m rest) f x fv -> a = fv.
Proof.
case: n' => // n' le ax; case: f => [g|//|m' q] HP /=; first by move=> H [xs e ->]; move: H; rewrite e => -[<-].
move=> H [e [b Hb ->]]; subst m'.
move: H; rewrite at_fmean; case Es: (see_m w m q) => [mu|] //= Ev.
have Emu := read_m lt Er Es (at_pids Hb).
apply: (Hm (ltnW le) lt Er (HP _ _ erefl) Emu _ Ev); exact/at_denotes.
Qed.

Lemma cm_shift M (u v a b : seq V) (s t : nat -> R) : covmat M a b -> size u = size a -> size v = size b ->
  (forall i, (i < size a)%N -> vget u i = radd (vget a i) (rconst W (s i))) ->
  (forall i, (i < size b)%N -> vget v i = radd (vget b i) (rconst W (t i))) -> covmat M u v.
Proof.
move=> [e1 e2 e3] su sv Hu Hv; split=> [||i j]; rewrite ?su ?sv // => li lj.
by rewrite e3 // Hu // Hv // covD !covDr !cov_const cov_constr !addr0.
Qed.
Lemma cm_shiftl M (u v a : seq V) (s : nat -> R) : covmat M a v -> size u = size a ->
  (forall i, (i < size a)%N -> vget u i = radd (vget a i) (rconst W (s i))) -> covmat M u v.
Proof.
move=> [e1 e2 e3] su Hu; split=> [||i j]; rewrite ?su // => li lj.
by rewrite e3 // Hu // covD cov_const addr0.
Qed.

Lemma nth_addf (f : point -> R) (a : seq V) xs i : size a = size xs -> (i < size a)%N ->
  vget (zipw (fun (s : V) (t : point) => radd s (rconst W (f t))) a xs) i = radd (vget a i) (rconst W (f (nth [::] xs i))).
Proof. by move=> e li; rewrite /vget (nth_zipw _ (rone W) [::]). Qed.
Lemma nth_addv (a b : seq V) i : size a = size b -> (i < size a)%N ->
  vget (zipw (@radd _ W) a b) i = radd (vget a i) (vget b i).
Proof. by move=> e li; rewrite /vget (nth_zipw _ (rone W) (rone W)). Qed.
Lemma nth_scalev (a : seq R) (b : seq V) i : size a = size b -> (i < size a)%N ->
  vget (zipw (@rscale _ W) a b) i = rscale (nth 0 a i) (vget b i).
Proof. by move=> e li; rewrite /vget (nth_zipw _ 0 (rone W)). Qed.

Definition own_ok d0 := d = d0 -> forall k x y M u v, pint (onk m (KA m rest)) (@noM R) (own_of m d) = Some k ->
  atom x -> atom y -> equation D G m (at_ m rest) r d x u -> equation D G m (at_ m rest) r d y v ->
  evk n.+1 k x y = Some M -> covmat M u v.
Definition left_ok d0 := d = d0 -> forall j k x y M u v, P m j ->
  pint (onk m (KA m rest)) (@noM R) (left_of m d j) = Some k ->
  atom x -> atom y -> equation D G m (at_ m rest) r d x u -> at_ m rest j y v ->
  evk n.+1 k x y = Some M -> covmat M u v.

Ltac start e := move=> e; rewrite e /= /onk /onm ?eqxx.
Ltac prep e := have := Pn; rewrite e /=; move=> Pn'.

Lemma own_ind mu k0 : own_ok (DInd mu k0).
Proof.
start ed => k x y M u v [<-] _ _ [xs -> ->] [ys -> ->]; have := E; rewrite ed => E'.
exact: (vd_cov Va) lt E' Pr.
Qed.
Lemma own_user mu k0 lr : own_ok (DUser mu k0 lr).
Proof.
start ed => k x y M u v [<-] _ _ [xs -> ->] [ys -> ->]; have := E; rewrite ed => E'.
exact: (vd_user_cov Va) lt E' Pr.
Qed.
Lemma own_copy p : own_ok (DCopy p).
Proof.
start ed => k x y M u v; case Ek: (KA _ _ _ _) => [k'|] // [<-]; prep ed.
by apply: K1 Ek => //; apply: Pn'; rewrite inE.
Qed.
Lemma own_addc p c : own_ok (DAddC p c).
Proof.
start ed => k x y M u v; case Ek: (KA _ _ _ _) => [k'|] // [<-] ax ay; prep ed.
case=> a Ha -> [b Hb ->] Ev; have Pp : P m p by apply: Pn'; rewrite inE.
apply: (cm_shift (s := fun=> c) (t := fun=> c) (K1 Pp Pp Ek ax ay Ha Hb Ev));
  rewrite ?size_map // => i li; by rewrite vget_map.
Qed.
Lemma own_addf p f : own_ok (DAddF p f).
Proof.
start ed => k x y M u v; case Ek: (KA _ _ _ _) => [k'|] // [<-] ax ay; prep ed.
case=> xs [a [ex Ha sa ->]] [ys [b [ey Hb sb ->]]] Ev; have Pp : P m p by apply: Pn'; rewrite inE.
apply: (cm_shift (K1 Pp Pp Ek ax ay Ha Hb Ev)); rewrite ?size_zipw // => i li; exact: nth_addf.
Qed.
Lemma own_sum p q : own_ok (DSum p q).
Proof.
start ed => k x y M u v; case E1: (KA m rest p p) => [k1|] //=; rewrite ?eqxx.
case E2: (KA m rest q q) => [k2|] //=; rewrite ?eqxx; case E3: (KA m rest p q) => [k3|] //=; rewrite ?eqxx.
case E4: (KA m rest q p) => [k4|] // [<-] ax ay; prep ed.
case=> a [b [Ha Hb sab ->]] [a' [b' [Ha' Hb' sab' ->]]].
have Pp : P m p by apply: Pn'; rewrite !inE eqxx.
have Pq : P m q by apply: Pn'; rewrite !inE eqxx orbT.
case/(inv_add ax ay) => n1 [A1 [B1 [e1 /(inv_add ax ay) [n2 [A2 [B2 [e2 H2 D2 S2]]]] D1 S1]]].
case/(inv_add ax ay): H2 => n3 [A3 [B3 [e3 D4 D3 S3]]].
have C1 : covmat A3 a a' by apply: (K _ Pp Pp E1 ax ay Ha Ha' D4); lia.
have C2 : covmat B3 b b' by apply: (K _ Pq Pq E2 ax ay Hb Hb' D3); lia.
have C3 : covmat B2 a b' by apply: (K _ Pp Pq E3 ax ay Ha Hb' D2); lia.
have C4 : covmat B1 b a' by apply: (K _ Pq Pp E4 ax ay Hb Ha' D1); lia.
case: C1 C2 C3 C4 => p1 p2 p3 [q1 q2 q3] [r1 r2 r3] [s1 s2 s3].
move: S3 S2 S1; rewrite /dadd /dmap2 /same_shape p1 p2 q1 q2 sab sab' !eqxx /= => -[<-] /=.
rewrite r1 r2 ?sab ?sab' !eqxx /= => -[<-] /=; rewrite s1 s2 ?sab ?sab' !eqxx /= => -[<-].
split=> [||i j] /=; rewrite ?size_zipw // ?sab ?sab' // => li lj.
rewrite p3 ?q3 ?r3 ?s3 ?sab ?sab' // !nth_addv ?sab ?sab' // covD !covDr.
by rewrite -!addrA; congr (_ + _); rewrite addrC -addrA; congr (_ + _); rewrite addrC.
Qed.
Lemma own_scale p c : own_ok (DScale p c).
Proof.
start ed => k x y M u v; case Ek: (KA _ _ _ _) => [k'|] // [<-] ax ay; prep ed.
case=> a Ha -> [b Hb ->]; have Pp : P m p by apply: Pn'; rewrite inE.
rewrite at_scale //; case Ev: (evk _ _ _ _) => [A|] // [<-].
have [e1 e2 e3] := K (leqnn n) Pp Pp Ek ax ay Ha Hb Ev.
split=> [||i j] /=; rewrite ?size_map // => li lj.
by rewrite !vget_map // covZ covZr e3 // expr2 mulrA.
Qed.
Lemma own_fun p f : own_ok (DFun p f).
Proof.
start ed => k x y M u v; case Ek: (KA _ _ _ _) => [k'|] // [<-] ax ay; prep ed.
case=> fa [a [Fa Ha sa ->]] [fb [b [Fb Hb sb ->]]].
have Pp : P m p by apply: Pn'; case: (f) => *; rewrite !inE ?eqxx.
have Pf m' q : f = FMean m' q -> P m q by move=> ef; apply: Pn'; rewrite ef !inE eqxx orbT.
rewrite at_mul //; case Et: (evk n (KTensor f f) x y) => [T|] //=; case Ev: (evk n k' x y) => [A|] //=.
case: (inv_tensor ax ay Et) => n1 [ga [gb [e1 Ea Eb ->]]].
have [c1 c2 c3] := K (leqnn n) Pp Pp Ek ax ay Ha Hb Ev.
have le : (n1 <= n)%N by lia.
rewrite (fval le ax Pf Ea Fa) (fval le ay Pf Eb Fb) /dmul /dmap2 /same_shape /= c1 c2 sa sb !eqxx /= => -[<-].
split=> [||i j] /=; rewrite ?size_zipw // sa sb => li lj.
by rewrite !nth_scalev ?sa ?sb // covZ covZr c3 // mulrA.
Qed.
Lemma own_map p t t0 : own_ok (DMap p t t0).
Proof.
start ed => k x y M u v; case Ek: (KA _ _ _ _) => [k'|] // [<-] ax ay; prep ed.
case=> xs -> Ha [ys -> Hb]; have Pp : P m p by apply: Pn'; rewrite inE.
by rewrite at_kmap //= => Ev; apply: (K (leqnn n) Pp Pp Ek _ _ Ha Hb Ev).
Qed.

Lemma row_all n' k' (s t : seq point) a0 (f : nat) y : is_row f (evk n' k' (Num [:: a0]) y) ->
  forall a, exists2 A, evk n' k' (Num [:: a]) y = Some A & nr A = 1%N /\ nc A = f.
Proof.
move=> H a; have := evk_shape (see_k w) (see_m w) D n' k' (erefl : skel (Num [:: a]) = skel (Num [:: a0])) (erefl (skel y)).
by move: H; rewrite /is_row /is_shape; case: (evk _ _ (Num [:: a0]) y) => // B /andP [/eqP e1 /eqP e2];
  case: (evk _ _ _ _) => // A [e3 e4]; exists A; rewrite ?e3 ?e4.
Qed.
Lemma left_diff p dd : left_ok (DDiff p dd).
Proof.
start ed => j k x y M u v Pj; case Ek: (KA _ _ _ _) => [k'|] // [<-] ax ay; prep ed.
case=> xs [F [dF [-> HF [_ dc] ->]]] Hb; have Pp : P m p by apply: Pn'; rewrite inE.
case: xs => [|x1 xs] //; case: y ay Hb => [[|y1 ys]|? ?|?] // ay Hb; rewrite at_diff1.
case: ifP => // /andP [/(row_all [::] [::]) R1 _] [<-].
have C1 a : covmat (odflt (dzero R 0 0) (evk n k' (Num [:: a]) (Num (y1 :: ys)))) [:: F a] v.
  have [A e _] := R1 a; rewrite e; exact: (K (leqnn n) Pp Pj Ek _ _ (HF a) Hb e).
have sv : size v = (size ys).+1.
  have [A e [_ e2]] := R1 [::]; have [_] := C1 [::]; by rewrite e /= e2.
split=> [||i j0 li lj]; rewrite ?size_map ?sv //; rewrite size_map in li.
rewrite /vget (nth_map [::]) // dc [LHS]/=; congr (D _ _ _).
apply: functional_extensionality => a; have [A e _] := R1 a.
by have [_ _] := C1 a; rewrite e /= => /(_ 0%N j0 isT lj).
Qed.
Lemma own_diff p dd : own_ok (DDiff p dd).
Proof.
start ed => k x y M u v; case Ek: (KA _ _ _ _) => [k'|] // [<-] ax ay; prep ed.
case=> xs [F [dF [-> HF [_ dc] ->]]] [ys [F' [dF' [-> HF' [_ dc'] ->]]]]; have Pp : P m p by apply: Pn'; rewrite inE.
case: xs => [|x1 xs] //; case: ys => [|y1 ys] //; rewrite at_diff2.
case: ifP => // /andP [/andP [R1 _] _] [<-].
have C1 a b : entry00 (evk n k' (Num [:: a]) (Num [:: b])) = cov (F a) (F' b).
  have := evk_shape (see_k w) (see_m w) D n k' (erefl : skel (Num [:: a]) = skel (Num [:: x1]))
            (erefl : skel (Num [:: b]) = skel (Num [:: y1])).
  move: R1; rewrite /is_shape; case: (evk _ _ (Num [:: x1]) _) => // B _.
  case e: (evk _ _ _ _) => [A|] // _.
  have [] // := K (leqnn n) Pp Pp Ek _ _ (HF a) (HF' b) e; move=> _ _ H; exact: (H 0%N 0%N isT isT).
split=> [||i j0 li lj]; rewrite ?size_map //; rewrite !size_map in li lj.
rewrite /vget !(nth_map [::]) // dc [LHS]/=; congr (D _ _ _).
apply: functional_extensionality => a; rewrite covC dc'; congr (D _ _ _).
by apply: functional_extensionality => b; rewrite C1 covC.
Qed.

(* Joint processes. *)
Lemma mok_ff n' ps a b x y M u v : (n' <= n.+1)%N -> a \in pids rest -> b \in pids rest -> P m a -> P m b ->
  denotes m rest a x u -> denotes m rest b y v -> evk n' (KMok m ps) (Fdd a x) (Fdd b y) = Some M ->
  covmat M u v.
Proof.
case: n' => // n' le Ha Hb Pa Pb Du Dv; rewrite at_mok_ff; case Es: (see_k w m a b) => [k|] //= Ev.
by apply: (Hk le lt Er Pa Pb (read lt Er Es Ha Hb) Du Dv Ev).
Qed.
Lemma cross_tup ps xs us u : d = DCross ps -> Forall2 (fun p ui => at_ m rest p (Num xs) ui) ps us -> u = flatten us ->
  denotes m h r (Tup [seq Fdd p (Num xs) | p <- ps]) u.
Proof.
move=> ed F ->; apply: lift_tup.
suff H qs : {subset qs <= ps} -> Forall2 (fun p ui => at_ m rest p (Num xs) ui) qs us ->
    Forall2 (lift (at_ m h r)) [seq Fdd p (Num xs) | p <- qs] us by apply: H.
move=> Hin F'; elim: F' Hin => [|a b qs' us' Hab _ IH] Hin; first by constructor.
constructor; last by apply: IH => // z Hz; apply: Hin; rewrite inE Hz orbT.
apply: lift_fdd => /=; rewrite eqxx ed; split; first by apply: Hin; rewrite inE eqxx.
exact: lift_num.
Qed.
Lemma own_cross ps : own_ok (DCross ps).
Proof.
start ed => k x y M u v [<-] ax ay.
have KK : KA m h r r = Some (KMok m ps) by rewrite /= !eqxx ed.
have F1 a x' w' : a \in ps /\ lift (at_ m rest a) x' w' -> denotes m h r (Tup [:: Fdd a x']) w'.
  by case=> H1 H2; apply: lift1; apply: lift_fdd; rewrite /= eqxx ed.
have Pps a : a \in ps -> P m a by move=> Ha; apply: Pn; rewrite ed.
have ips a : a \in ps -> a \in pids rest by move=> Ha; apply: Hargs; rewrite ed.
case: x ax => [xs|a x|?] // _; case: y ay => [ys|b y|?] // _.
- case=> us F eu [vs F' ev]; rewrite at_mok_nn.
  apply: (Hk (leqnn n) lt E Pr Pr KK); [exact: (cross_tup ed F eu) | exact: (cross_tup ed F' ev)].
- case=> us F eu Hv; rewrite at_mok_nf.
  apply: (Hk (leqnn n) lt E Pr Pr KK); [exact: cross_tup ed F eu | exact: F1].
- move=> Hu [vs F' ev]; rewrite at_mok_fn.
  apply: (Hk (leqnn n) lt E Pr Pr KK); [exact: F1 | exact: cross_tup ed F' ev].
- case=> Ha Hu [Hb Hv] Ev; apply: (mok_ff (leqnn n.+1) _ _ _ _ Hu Hv Ev); auto.
Qed.
Lemma left_cross ps : left_ok (DCross ps).
Proof.
start ed => j k x y M u v Pj [<-] ax ay Hu Hj.
have jr : j \in pids rest by apply: at_pids Hj.
have Pps a : a \in ps -> P m a by move=> Ha; apply: Pn; rewrite ed.
have ips a : a \in ps -> a \in pids rest by move=> Ha; apply: Hargs; rewrite ed.
have {}Hj : denotes m rest j y v by apply/at_denotes.
rewrite at_adk //; case en: n => [|n1] //; rewrite at_tofdd //.
case: x ax Hu => [xs|a x|?] // _; last first.
  by case=> Ha Hu Ev; apply: (mok_ff _ _ _ _ _ Hu Hj Ev); auto; lia.
case=> us F ->; case en1: n1 => [|n2] //; rewrite at_mok_nf.
case en2: n2 => [|n3] //; rewrite at_tup => Ev.
have -> : v = flatten [:: v] by rewrite /= cats0.
apply: (cm_block (P := fun z s => exists2 a, z = Fdd a (Num xs) & a \in ps /\ at_ m rest a (Num xs) s)
                 (Q := fun z s => z = Fdd j y /\ s = v)) Ev.
- move=> _ _ s t B [a -> [Ha Hs]] [-> ->]; apply: mok_ff; auto; first by lia.
  exact: lift_num.
- have Hin : {subset ps <= ps} by [].
  suff H qs : {subset qs <= ps} -> Forall2 (fun p ui => at_ m rest p (Num xs) ui) qs us ->
      Forall2 (fun z s => exists2 a, z = Fdd a (Num xs) & a \in ps /\ at_ m rest a (Num xs) s)
        [seq Fdd p (Num xs) | p <- qs] us by apply: H.
  move=> {}Hin F'; elim: F' Hin => [|a b qs' us' Hab _ IH] Hin; first by constructor.
  constructor; last by apply: IH => // z Hz; apply: Hin; rewrite inE Hz orbT.
  by exists a => //; split=> //; apply: Hin; rewrite inE eqxx.
- by constructor.
Qed.

Lemma left_ind mu k0 : left_ok (DInd mu k0).
Proof.
start ed => j k x y M u v Pj [<-] ax ay [xs ex ->] Hj; rewrite at_zero // => -[<-].
have := E; rewrite ed => E'.
have sv := Lay lt E' Pr Pj Hj.
split=> [||i j0 li lj] /=; rewrite ?size_map ?ex //.
rewrite /vget (nth_map [::]); last by rewrite size_map in li.
by have := ind_null (nth [::] xs i) lt E' ((at_denotes _ _ _ _ ay).1 Hj) => /null_nth ->.
Qed.
Lemma left_user mu k0 lr : left_ok (DUser mu k0 lr).
Proof.
start ed => j k x y M u v Pj; case Ej: (lr j) => [k'|] //= [<-] ax ay [xs -> ->] Hj.
have := E; rewrite ed => E'; exact: (vd_user_left Va lt E' Pr Pj Ej Hj).
Qed.
Lemma left_copy p : left_ok (DCopy p).
Proof.
start ed => j k x y M u v Pj; case Ek: (KA _ _ _ _) => [k'|] // [<-]; prep ed.
by apply: K1 Ek => //; apply: Pn'; rewrite inE.
Qed.
Lemma left_addc p c : left_ok (DAddC p c).
Proof.
start ed => j k x y M u v Pj; case Ek: (KA _ _ _ _) => [k'|] // [<-] ax ay; prep ed.
case=> a Ha -> Hb Ev; have Pp : P m p by apply: Pn'; rewrite inE.
apply: (cm_shiftl (s := fun=> c) (K1 Pp Pj Ek ax ay Ha Hb Ev));
  rewrite ?size_map // => i li; by rewrite vget_map.
Qed.
Lemma left_addf p f : left_ok (DAddF p f).
Proof.
start ed => j k x y M u v Pj; case Ek: (KA _ _ _ _) => [k'|] // [<-] ax ay; prep ed.
case=> xs [a [ex Ha sa ->]] Hb Ev; have Pp : P m p by apply: Pn'; rewrite inE.
apply: (cm_shiftl (K1 Pp Pj Ek ax ay Ha Hb Ev)); rewrite ?size_zipw // => i li; exact: nth_addf.
Qed.
Lemma left_sum p q : left_ok (DSum p q).
Proof.
start ed => j k x y M u v Pj; case E1: (KA m rest p j) => [k1|] //=; rewrite ?eqxx.
case E2: (KA m rest q j) => [k2|] // [<-] ax ay; prep ed.
case=> a [b [Ha Hb sab ->]] Hj.
have Pp : P m p by apply: Pn'; rewrite !inE eqxx.
have Pq : P m q by apply: Pn'; rewrite !inE eqxx orbT.
case/(inv_add ax ay) => n1 [A1 [B1 [[e1] H1 H2 S]]].
have le : (n1 <= n)%N by lia.
apply: (cm_add (K le Pp Pj E1 ax ay Ha Hj H1) (K le Pq Pj E2 ax ay Hb Hj H2) S); rewrite ?size_zipw // => i j0 li lj.
by rewrite nth_addv // covD.
Qed.
Lemma left_scale p c : left_ok (DScale p c).
Proof.
start ed => j k x y M u v Pj; case Ek: (KA _ _ _ _) => [k'|] // [<-] ax ay; prep ed.
case=> a Ha -> Hb; have Pp : P m p by apply: Pn'; rewrite inE.
rewrite at_scale //; case Ev: (evk _ _ _ _) => [A|] // [<-].
have [e1 e2 e3] := K (leqnn n) Pp Pj Ek ax ay Ha Hb Ev.
split=> [||i j0] /=; rewrite ?size_map // => li lj.
by rewrite !vget_map // covZ e3.
Qed.
Lemma left_fun p f : left_ok (DFun p f).
Proof.
start ed => j k x y M u v Pj; case Ek: (KA _ _ _ _) => [k'|] // [<-] ax ay; prep ed.
case=> fa [a [Fa Ha sa ->]] Hb.
have Pp : P m p by apply: Pn'; case: (f) => *; rewrite !inE ?eqxx.
have Pf m' q : f = FMean m' q -> P m q by move=> ef; apply: Pn'; rewrite ef !inE eqxx orbT.
rewrite at_mul //; case Et: (evk n (KTensor f FOnes) x y) => [T|] //=; case Ev: (evk n k' x y) => [A|] //=.
case: (inv_tensor ax ay Et) => n1 [ga [gb [e1 Ea Eb ->]]].
have [c1 c2 c3] := K (leqnn n) Pp Pj Ek ax ay Ha Hb Ev.
have le : (n1 <= n)%N by lia.
have eb : gb = nseq (ne y) 1 by case: (n1) Eb => // n2; rewrite at_fones => -[].
rewrite (fval le ax Pf Ea Fa) /dmul /dmap2 /same_shape /= c1 c2 sa eqxx /= eb size_nseq.
case: eqP => // e [<-].
split=> [||i j0] /=; rewrite ?size_zipw ?sa // => li lj.
by rewrite !nth_scalev ?sa // covZ c3 // nth_nseq e lj mulr1.
Qed.
Lemma left_map p t t0 : left_ok (DMap p t t0).
Proof.
start ed => j k x y M u v Pj; case Ek: (KA _ _ _ _) => [k'|] // [<-] ax ay; prep ed.
case=> xs -> Ha Hb; have Pp : P m p by apply: Pn'; rewrite inE.
rewrite at_kmap //=; have := idmaps_ext E (Wi m); rewrite ed.
case: t0 ed => [f|] ed /=; last by move=> _ Ev; apply: (K (leqnn n) Pp Pj Ek _ _ Ha Hb Ev).
move=> Hf; case: y ay Hb => // ys ay Hb /=.
rewrite (eq_map Hf) map_id => Ev; apply: (K (leqnn n) Pp Pj Ek _ _ Ha Hb Ev) => //.
Qed.

Lemma own_all : own_ok d.
Proof.
case ed: d => [mu k|mu k lr|p|p c|p f|p q|p c|p f|p t t0|p dd|ps].
- exact: own_ind. - exact: own_user.
- exact: own_copy. - exact: own_addc. - exact: own_addf. - exact: own_sum. - exact: own_scale.
- exact: own_fun. - exact: own_map. - exact: own_diff. - exact: own_cross.
Qed.
Lemma left_all : left_ok d.
Proof.
case ed: d => [mu k|mu k lr|p|p c|p f|p q|p c|p f|p t t0|p dd|ps].
- exact: left_ind. - exact: left_user.
- exact: left_copy. - exact: left_addc. - exact: left_addf. - exact: left_sum. - exact: left_scale.
- exact: left_fun. - exact: left_map. - exact: left_diff. - exact: left_cross.
Qed.
End Add.

Lemma oka_add n r d rest : (forall n', (n' <= n)%N -> okk n') -> (forall n', (n' <= n)%N -> okm n') ->
  oka n.+1 rest -> oka n.+1 (HAdd r d rest).
Proof.
move=> Hk Hm IHh m p q k x y M u v lt E Pp Pq EK ax ay.
have Er := ext_tail E.
rewrite /=; move: (EK) => /=; case: (p =P r) => [ep|np]; case: (q =P r) => [eq|nq].
- subst p q => Ek Hu Hv; exact: (own_all lt E Hk Hm IHh Pp erefl).
- subst p; case: ifP => // _ Ek Hu Hv; exact: (left_all lt E Hk Hm IHh Pp erefl Pq Ek ax ay Hu Hv).
- subst q; case: ifP => // Hp; move=> Ek Hu Hv Ev.
  suff : [\/ exists2 k', k = KRev k' & KA m (HAdd r d rest) r p = Some k',
             (exists mu k0, d = DInd mu k0) /\ k = KZero |
             exists2 p', d = DCopy p' & KA m rest p p' = Some k].
    case=> [[k' e Ek']|[[mu [k0 ed]] e]|[p' ed Ek']].
    + subst k; move: Ev; rewrite at_rev //; case Ev: (evk n k' y x) => [A|] // [<-]; apply: cm_tr.
      apply: (Hk _ (leqnn n) _ _ _ _ _ _ _ _ _ _ lt E Pq Pp Ek' _ _ Ev); apply/at_denotes => //=.
        by rewrite eqxx.
      by case: eqP.
    + subst k; move: Ev; rewrite at_zero // => -[<-].
      rewrite -[dzero _ _ _]/(dtr (dzero R (ne y) (ne x))); apply: cm_tr.
      apply: (@left_all n m r d rest lt E Hk Hm IHh Pq erefl p KZero y x _ v u Pp _ ay ax Hv Hu).
        by rewrite ed.
      by rewrite at_zero.
    + move: Hv; rewrite ed /= => Hv.
      apply: (IHh _ _ _ _ _ _ _ _ _ lt Er Pp _ Ek' ax ay Hu Hv Ev).
      by apply: (vd_needs Va) lt E Pq _; rewrite ed inE.
  have gen : pint (onk m (fun a b => if a == r then pint (onk m (KA m rest)) (@noM R) (left_of m d b)
                                else KA m rest a b)) (@noM R) (let* a := rk R m r p in Ret (KRev a)) = Some k ->
      exists2 k', k = KRev k' & KA m (HAdd r d rest) r p = Some k'.
    rewrite /= /onk /onm !eqxx Hp; case: (p =P r) => // _.
    by case Ek': (pint _ _ _) => [k'|] // [<-]; exists k'.
  move: Ek; rewrite /right_of; case ed: d gen => [mu k0|mu k0 lr|p0|p0 c|p0 f|p0 q0|p0 c|p0 f|p0 t t0|p0 dd|ps] gen;
    try (by move/gen; constructor 1).
    by case=> <-; constructor 2; split=> //; exists mu, k0.
  rewrite /= /onk /onm eqxx; case: (p =P r) => // _; case Ek': (KA m rest p p0) => [k'|] // [<-].
  by constructor 3; exists p0.
- move=> EK' Hu Hv; exact: IHh lt Er Pp Pq EK' ax ay Hu Hv.
Qed.

Lemma oka_all n : (forall n', (n' <= n)%N -> okk n') -> (forall n', (n' <= n)%N -> okm n') -> forall h, oka n.+1 h.
Proof.
move=> Hk Hm; elim=> [|pm par IH o|r d rest IH] //; last exact: oka_add.
by apply: oka_post => //; apply: Hk.
Qed.

Lemma okk_step n : (forall n', (n' <= n)%N -> okk n') -> (forall n', (n' <= n)%N -> okm n') -> okk n.+1.
Proof.
move=> Hk Hm m h p q k x y M u v lt E Pp Pq Ek Hu Hv.
have Kn := Hk n (leqnn n) m h p q k; have at1 := @at_denotes m h.
case ax: (atom x); case ay: (atom y).
- by move=> Ev; apply: (oka_all Hk Hm lt E Pp Pq Ek ax ay _ _ Ev); apply/at_denotes.
- case: y ay Hv => // ys _ Hv; rewrite at_tupr // => Ev; apply: (Kn _ _ _ _ _ lt E Pp Pq Ek _ _ Ev) => //.
  exact: lift1.
- case: x ax Hu => // xs _ Hu; rewrite at_tupl // => Ev; apply: (Kn _ _ _ _ _ lt E Pp Pq Ek _ _ Ev) => //.
  exact: lift1.
case: x ax Hu => // xs _ Hu; case: y ay Hv => // ys _ Hv; rewrite at_tup.
case/lift_tup_inv: Hu => us Fu ->; case/lift_tup_inv: Hv => vs Fv ->.
apply: (cm_block (P := denotes m h p) (Q := denotes m h q)) => // x y u0 v0 B Hu Hv Ev.
exact: (Kn _ _ _ _ _ lt E Pp Pq Ek Hu Hv Ev).
Qed.

(* Means. *)
Lemma vmap2_nth f (a b e : seq R) : vmap2 f a b = Some e -> [/\ size b = size a, size e = size a &
  forall i, (i < size a)%N -> nth 0 e i = f (nth 0 a i) (nth 0 b i)].
Proof. by rewrite /vmap2; case: eqP => // s [<-]; split=> [||i li]; rewrite ?size_mkseq ?nth_mkseq. Qed.
Lemma ex_nth (e : seq R) u : size e = size u -> (forall i, (i < size u)%N -> nth 0 e i = Ex (vget u i)) -> e = map Ex u.
Proof.
move=> s H; apply: (@eq_from_nth _ 0); rewrite ?size_map // => i li.
by rewrite (nth_map (rone W)) -?s // H -?s.
Qed.
Lemma nth_Ex u i : (i < size u)%N -> nth 0 (map Ex u) i = Ex (vget u i).
Proof. by move=> li; rewrite (nth_map (rone W)). Qed.

Definition okmh n h := forall m p mu x u (e : seq R), (m < nm)%N -> ext h (l m) -> P m p ->
  MA m h p = Some mu -> denotes m h p x u -> evm n mu x = Some e -> e = map Ex u.

Lemma sub_mean m pm par o d p x K0 K C Kx B wz wx u (dif mu : seq R) i :
  (m < nm)%N -> base (l m) = Some (pm, par, o) -> o_data o = Some d -> d_method d <> FITC ->
  denotes pm par (o_p o) (o_x o) wz -> denotes pm par (d_p d) (d_x d) wx -> denotes pm par p x u ->
  covmat K0 wz wz -> dadd K0 (o_noise o) = Some K -> (nr C = size wz -> nc C = size wx -> covmat C wz wx) ->
  nr Kx = size wx -> pseudo_mu (d_method d) (d_noise d) K C Kx dif = Some mu ->
  covmat B wz u -> (i < size u)%N ->
  (forall j, (j < size wx)%N -> nth 0 dif j = nth 0 (d_y d) j - Ex (vget wx j)) ->
  Ex (given (noise_of o (eps m)) (values o) (map (project (eps m) wz) wx) (vget u i)) =
  Ex (vget u i) + ((\row_(k < size wz) ent B k i) *m invmx (mx_at K (size wz) (size wz)) *m
     (\col_(k < size wz) nth 0 mu k)) 0 0.
Proof.
move=> lt eb Eo nF Hz Hx Hu c0 eK cC eKx eM [b1 b2 b3] li Hd.
have N i0 := (null_nth _ _).1 (eps_null i0 lt eb Hz).
have [He Hno] := vd_noise Va lt eb; have [Hp1 Hp2] := vd_pseudo Va lt eb Eo.
have [a b c] := c0.
move: eK; rewrite /dadd /dmap2 /same_shape; case: andP => // -[/eqP n1 /eqP n2] [eK].
have K1 : nr K = size wz by rewrite -eK.
have ES : mx_at K (size wz) (size wz) = gS (eps m) wz.
  apply/matrixP => s t; rewrite !mxE -eK /= c // -Hno -?n1 -?n2 ?a ?b // covD !covDr (covC (vget wz s) (eps m t)) !N //.
  by rewrite addr0 add0r.
have [US UA [en sm] nx0 Em] := pseudo_mu_numbers nF K1 ES eKx cC eM.
have sg : size (map (project (eps m) wz) wx) = size wx by rewrite size_map.
have Ni : nr (o_noise o) = size wz by rewrite -n1.
rewrite (@pseudo_Ex _ _ (eps m) (noise_of o (eps m)) (values o) wz wx (nth 0 (d_noise d))) ?sg //; first last.
- by move=> j _; rewrite /noise_of Eo.
- exact: (silent_at lt eb Hu li).
- move=> s t ls lt'; rewrite /noise_of Eo; apply: Hp2; by rewrite en.
- by move=> s t ls lt'; rewrite /noise_of Eo; apply: Hp1; rewrite Ni.
- by move=> s ls; apply: (silent_at lt eb Hx).
- by move=> s ls; apply: (silent_at lt eb Hz).
have r1 : (\row_(k < size wz) ent B k i) = \row_k cov (vget wz k) (vget u i) by apply/rowP => s; rewrite !mxE b3.
have r2 : (\col_(k < size wx) nth 0 dif k) = \col_(k < size wx) (nth 0 (values o) k - Ex (vget wx k)).
  by apply/colP => j; rewrite !mxE Hd // /values Eo.
by rewrite Em ES /pmean r1 r2 !mulmxA (mulmxKV US).
Qed.

Lemma okm_post n pm par o : okk n -> okm n -> okmh n.+1 par -> okmh n.+1 (HPost pm par o).
Proof.
move=> Hk Hm IHh m p mu x u e lt E Pp /=; case: ifP => // Hp.
have eb : base (l m) = Some (pm, par, o) by rewrite (ext_base E).
have [lp Ep _] := l_base (v_log I.1) lt eb; have ltp := ltn_trans lp lt.
have [Pp' Po] := vd_base Va lt eb Pp Hp.
have Po' := Po _ (mem_head _ _).
move=> Ek D0; have [u0 Du Fu] := lift_rel (fun _ _ H => H) D0.
move: Ek; rewrite /post_m; case Eo: (o_data o) => [d|].
  have Pd : P pm (d_p d) by apply: Po; rewrite /o_pids Eo !inE eqxx orbT.
  rewrite /post_m2 /= /onk /onM /onm !eqxx.
  case Emi: (MA pm par p) => [mi|] //=; case Emz: (MA pm par (o_p o)) => [mz|] //=.
  case Ekzi: (KA pm par (o_p o) p) => [kzi|] //=; case Ekzx: (KA pm par (o_p o) (d_p d)) => [kzx|] //=.
  case Ekz: (KA pm par (o_p o) (o_p o)) => [kz|] //=; case Ekx: (KA pm par (d_p d) (d_p d)) => [kx|] //=.
  case Emx: (MA pm par (d_p d)) => [mx|] //= [<-].
  rewrite at_msub; case Ei: (evm n mi x) => [vi|] //=.
  case Ez: (evk n kz _ _) => [K0|] //=; case EK: (dadd K0 _) => [K|] //=.
  rewrite /pseudo_mean /=; case Ezx: (evk n kzx _ _) => [C|] //=; case Exx: (evk n kx _ _) => [Kx|] //=.
  case Emxv: (evm n mx _) => [mxv|] //=; case Emzv: (evm n mz _) => [mzv|] //=.
  case Edif: (vmap2 _ (d_y d) mxv) => [dif|] //=; case Emu: (pseudo_mu _ _ _ _ _ _) => [mu'|] //=.
  case Epm: (vmap2 _ mzv mu') => [pv|] //=; case Edf: (vmap2 _ pv mzv) => [df|] //=.
  case Ezi: (evk n kzi _ _) => [B|] //=; case EQ: (iqf K B _) => [Q|] //=.
  case Ec: (col_seq Q) => [cs|] //= Ea.
  have vE := Hm _ _ _ _ _ _ _ ltp Ep Pp' Emi Du Ei.
  case/vmap2_nth: Ea; rewrite vE size_map => sc se He; have su := Forall2_size Fu.
  apply: ex_nth => [|i]; rewrite ?se -su // => li; rewrite He // nth_Ex //.
  have [dat H1 h1] := Forall2_nth (rone W) (rone W) Fu li; rewrite /vget h1.
  move: H1; rewrite /data Eo => -[nF [wz [wx [Hz Hx ->]]]].
  have cz := Hk _ _ _ _ _ _ _ _ _ _ ltp Ep Po' Po' Ekz Hz Hz Ez.
  have cc := Hk _ _ _ _ _ _ _ _ _ _ ltp Ep Po' Pd Ekzx Hz Hx Ezx.
  have [B1 B2 B3] := Hk _ _ _ _ _ _ _ _ _ _ ltp Ep Po' Pp' Ekzi Hz Du Ezi.
  have [X1 _ _] := Hk _ _ _ _ _ _ _ _ _ _ ltp Ep Pd Pd Ekx Hx Hx Exx.
  have mxE_ := Hm _ _ _ _ _ _ _ ltp Ep Pd Emx Hx Emxv.
  rewrite -[nth (rone W) u0 i]/(vget u0 i).
  rewrite (sub_mean lt eb Eo nF Hz Hx Du cz EK (fun _ _ => cc) X1 Emu (And3 B1 B2 B3) li); last first.
    move=> j lj; have [d1 d2 d3] := vmap2_nth Edif.
    by rewrite d3 -?d1 ?mxE_ ?size_map // nth_Ex.
  congr (_ + _).
  have K1 : nr K = size wz by move: EK; rewrite /dadd /dmap2; case: ifP => // _ [<-]; case: cz.
  have [[q1 q2 q3 q4] [_ U HQ]] := iqf_ent EQ K1.
  have ec : nth 0 cs i = ent Q i 0.
    by move: Ec; rewrite /col_seq; case: eqP => // _ [<-]; rewrite nth_mkseq // q3 B2.
  have [p1 p2 p3] := vmap2_nth Epm; have [p1' p2' p3'] := vmap2_nth Edf.
  have sm : size mu' = size wz by rewrite -[RHS]q2 /= p2' p2 p1.
  have r : (\col_(k < size wz) ent (dcol df) k 0) = \col_(k < size wz) nth 0 mu' k.
    apply/colP => s; have ls : (s < size mzv)%N by rewrite -p1 sm.
    by rewrite !mxE /= p3' ?p2 // p3 // addrC addKr.
  by rewrite ec HQ ?B2 // r.
rewrite /data /noise_of /values Eo in Fu; move: Po' => {}Po; rewrite /post_m1 => Ek.
have su := Forall2_size Fu.
move: Ek; case: eqP => [z0|_].
  rewrite /= /onk /onM /onm eqxx; case Ek: (MA pm par p) => [k'|] //= [<-] Ev.
  rewrite (IHh _ _ _ _ _ _ ltp Ep Pp' Ek Du Ev).
  apply: ex_nth; rewrite ?size_map // -su => i li; rewrite nth_Ex //.
  have [d1 H1 e1] := Forall2_nth (rone W) (rone W) Fu li.
  have n1 : d1 = [::] by apply: (lift_ne0 _ H1 z0) => ? ?; apply: at_ne0.
  by rewrite /vget e1 n1 (given_nil _ _ _).1.
rewrite /= /onk /onM /onm !eqxx.
case Emi: (MA pm par p) => [mi|] //=; case Emz: (MA pm par (o_p o)) => [mz|] //=.
case Ekzi: (KA pm par (o_p o) p) => [kzi|] //=.
case Ekz: (KA pm par (o_p o) (o_p o)) => [kz|] //= [<-].
rewrite at_mpost; case Ei: (evm n mi x) => [vi|] //=.
case Ez: (evk n kz _ _) => [K0|] //=; case EK: (dadd K0 _) => [K|] //=.
case Ezm: (evm n mz _) => [mzv|] //=; case Edif: (vmap2 _ _ _) => [dif|] //=.
case Ezi: (evk n kzi _ _) => [A|] //=; case EQ: (iqf K A _) => [Q|] //=.
case Ec: (col_seq Q) => [cs|] //= Ea.
have vE := Hm _ _ _ _ _ _ _ ltp Ep Pp' Emi Du Ei.
case/vmap2_nth: Ea; rewrite vE size_map => sc se He.
apply: ex_nth => [|i]; rewrite ?se -su // => li; rewrite He // nth_Ex //.
have [dat H1 h1] := Forall2_nth (rone W) (rone W) Fu li.
have [A1 A2 A3] := Hk _ _ _ _ _ _ _ _ _ _ ltp Ep Po Pp' Ekzi H1 Du Ezi.
have KS s t := data_cov s t Hk lt eb Po H1 Ekz Ez EK.
have [K1 K2 _] := KS 0%N 0%N.
have [_ [_ U HQ]] := iqf_ent EQ K1.
have ES : mx_at K (size dat) (size dat) = gS (eps m) dat.
  by apply/matrixP => s t; rewrite !mxE; have [_ _ ->] := KS s t.
have [dE1 dE2 dE3] := vmap2_nth Edif.
have [[q1 q2 q3 q4] _] := iqf_ent EQ K1.
have ec : nth 0 cs i = ent Q i 0.
  move: Ec; rewrite /col_seq; case: eqP => // _ [<-]; rewrite nth_mkseq // q3 A2 //.
rewrite /vget h1 given_Ex ec HQ ?A2 // -/(vget u0 i) -ES; congr (_ + (_ *m _ *m _) 0 0).
  by apply/rowP => s; rewrite !mxE A3 // (cross_cov _ _ lt eb Du li).
apply/colP => s; rewrite !mxE /= dE3; last first.
  have : (s < size dif)%N by have := ltn_ord s; rewrite -[X in (_ < X)%N]q2.
  by rewrite dE2.
rewrite (Hm _ _ _ _ _ _ _ ltp Ep Po Emz H1 Ezm) nth_Ex // ExD.
by have [-> _] := vd_noise Va lt eb; rewrite addr0.
Qed.

Lemma mean_cat (g : input -> option (seq R)) xs us e :
  Forall2 (fun x u => forall e, g x = Some e -> e = map Ex u) xs us ->
  ofold1 (fun s t => Some (s ++ t)) (map g xs) = Some e -> e = map Ex (flatten us).
Proof.
move=> F; elim: F e => [|x u xs' us' H F IH] e //.
case: F IH => [|x2 v2 xs2 us2 H2 F] IH.
  by rewrite /= cats0 => /H.
rewrite [map _ _]/= ofold1_cons; case E: (g x) => [A|] //=.
rewrite -[match _ with [::] => _ | _ => _ end]/(ofold1 (fun s t => Some (s ++ t)) (map g (x2 :: xs2))).
by case E2: (ofold1 _ _) => [B|] //= [<-]; rewrite (H _ E) (IH _ E2) -map_cat.
Qed.

Lemma lift_eq (A B : input -> seq V -> Prop) x u : A = B -> lift A x u -> lift B x u.
Proof. by move=> ->. Qed.

Lemma zipw_mapl (A B C T : Type) (f : A -> B -> C) (g : T -> A) s t : zipw f (map g s) t = zipw (fun a b => f (g a) b) s t.
Proof. by elim: s t => [|a s IH] [|b t] //; rewrite /zipw /= -[X in _ = _ :: X]IH. Qed.

Lemma okm_add n r d rest : (forall n', (n' <= n)%N -> okk n') -> (forall n', (n' <= n)%N -> okm n') ->
  okmh n.+1 rest -> okmh n.+1 (HAdd r d rest).
Proof.
move=> Hk Hm IHh m p mu x u e lt E Pp EM Du.
have Er := ext_tail E; have EM' := EM; move: EM => /=; case: (p =P r) => [ep|np]; last first.
  move=> Ek; apply: (IHh _ _ _ _ _ _ lt Er Pp Ek).
  by apply: lift_eq Du; apply: functional_extensionality => z /=; case: eqP.
subst p.
have {}Du : lift (equation D G m (at_ m rest) r d) x u.
  by apply: lift_eq Du; apply: functional_extensionality => z /=; rewrite eqxx.
have HM n' p mu' x' u' e' : (n' <= n)%N -> P m p -> MA m rest p = Some mu' -> denotes m rest p x' u' ->
    evm n' mu' x' = Some e' -> e' = map Ex u'.
  by move=> le Pq; apply: (Hm _ le) lt Er Pq.
have Pn q : q \in needs d -> P m q by apply: (vd_needs Va) lt E Pp.
case ed: d Du Pn E EM' => [mu0 k0|mu0 k0 lr|p0|p0 c|p0 f|p0 q0|p0 c|p0 f|p0 t t0|p0 dd|ps] Du Pn E EM'.
- case=> <-; apply: (vd_mean Va lt E Pp _); rewrite (full lt E) ?inE ?eqxx //.
  by apply: lift_eq Du; apply: functional_extensionality => z /=; rewrite eqxx.
- case=> <-; apply: (vd_user_mean Va lt E Pp _); rewrite (full lt E) ?inE ?eqxx //.
  by apply: lift_eq Du; apply: functional_extensionality => z /=; rewrite eqxx.
- rewrite /= /onM /onm eqxx; case Ek: (MA m rest p0) => [k'|] //= [<-].
  by apply: (IHh _ _ _ _ _ _ lt Er _ Ek Du); apply: Pn; rewrite inE.
- rewrite /= /onM /onm eqxx; case Ek: (MA m rest p0) => [k'|] //= [<-].
  have [a Da ->] := lift_map (fun _ _ H => H) Du.
  rewrite at_madd; case Ea: (evm n k' x) => [ea|] //=; case Eb: (evm n (MScale _ _) x) => [eb|] //= /vmap2_nth [s1 s2 He].
  have Pp0 : P m p0 by apply: Pn; rewrite inE.
  have ea' := HM _ _ _ _ _ _ (leqnn n) Pp0 Ek Da Ea.
  rewrite ea' size_map in s1 s2 He; apply: ex_nth; rewrite size_map // => i li.
  rewrite He // vget_map // ExD Ex_const nth_Ex //; congr (_ + _).
  case: (n) Eb => // n1; rewrite at_mscale; case: (n1) => // n2; rewrite at_mone => -[eb']; move: s1.
  by rewrite -eb' size_map size_nseq => s1; rewrite map_nseq nth_nseq s1 li mulr1.
- rewrite /= /onM /onm eqxx; case Ek: (MA m rest p0) => [k'|] //= [<-].
  rewrite at_madd; case Ea: (evm n k' x) => [ea|] //=; case Eb: (evm n (MFun _) x) => [eb|] //= /vmap2_nth [s1 s2 He].
  case: (n) Eb => // n1; rewrite at_mfun; case: (n1) => // n2; case: x Du Ea => // xs Du Ea [eb'].
  case/lift_num_inv: Du => ys [a [[<-] Da sa ->]].
  have Pp0 : P m p0 by apply: Pn; rewrite inE.
  have ea' := HM _ _ _ _ _ _ (leqnn n) Pp0 Ek (lift_num Da) Ea.
  rewrite ea' size_map in s1 s2 He; apply: ex_nth; rewrite size_zipw // => i li.
  by rewrite He // nth_addf // ExD Ex_const nth_Ex // -eb' (nth_map [::]) -?sa.
- rewrite /= /onM /onm eqxx; case Ek: (MA m rest p0) => [k'|] //=; rewrite ?eqxx.
  case Ek2: (MA m rest q0) => [k2|] //= [<-].
  have [a [b [Da Db sab ->]]] := lift_zip (fun _ _ H => H) Du.
  rewrite at_madd; case Ea: (evm n k' x) => [ea|] //=; case Eb: (evm n k2 x) => [eb|] //= /vmap2_nth [s1 s2 He].
  have Pp0 : P m p0 by apply: Pn; rewrite !inE eqxx.
  have Pq0 : P m q0 by apply: Pn; rewrite !inE eqxx orbT.
  have ea' := HM _ _ _ _ _ _ (leqnn n) Pp0 Ek Da Ea; have eb' := HM _ _ _ _ _ _ (leqnn n) Pq0 Ek2 Db Eb.
  rewrite ea' size_map in s1 s2 He; apply: ex_nth; rewrite size_zipw // => i li.
  by rewrite He // eb' !nth_Ex -?sab // nth_addv // ExD.
- rewrite /= /onM /onm eqxx; case Ek: (MA m rest p0) => [k'|] //= [<-].
  have [a Da ->] := lift_map (fun _ _ H => H) Du.
  rewrite at_mscale; case Ea: (evm n k' x) => [ea|] //= [<-].
  have Pp0 : P m p0 by apply: Pn; rewrite inE.
  rewrite (HM _ _ _ _ _ _ (leqnn n) Pp0 Ek Da Ea) -!map_comp; apply: eq_map => z /=; by rewrite ExZ.
- rewrite /= /onM /onm eqxx; case Ek: (MA m rest p0) => [k'|] //= [<-].
  have Pp0 : P m p0 by apply: Pn; case: (f) => *; rewrite !inE ?eqxx.
  rewrite at_mmul; case Ef: (evm n (MFun f) x) => [fa|] //=; case Ea: (evm n k' x) => [ea|] //= /vmap2_nth [s1 s2 He].
  have [fv [a [Da sa -> efa]]] : exists fv a, [/\ denotes m rest p0 x a, size fv = size a, u = zipw (@rscale _ W) fv a & fa = fv].
    case en: n Ef => [|n1] //; rewrite at_mfun; case en1: n1 => [|n2] // Ef.
    case: f ed Du Pn E EM' Ef => [g|//|m' q0] ed Du Pn E EM' Ef.
    + case: x Du Ea Ef => // xs Du Ea [<-].
      case/lift_num_inv: Du => fv [a [[ys [<-] ->] Da sa ->]].
      by exists (map g xs), a; split=> //; apply: lift_num.
    + by have := idmaps_ext E (Wi m).
    + have /= em := idmaps_ext E (Wi m); subst m'.
      have H x0 u0 : equation D G m (at_ m rest) r (DFun p0 (FMean m q0)) x0 u0 ->
          exists b a, [/\ at_ m rest q0 x0 b, at_ m rest p0 x0 a, size b = size a & u0 = zipw (fun s t => rscale (Ex s) t) b a].
        case=> fv [a [[_ [b Hb efv]] Ha sa ->]]; exists b, a; split=> //; first by rewrite -sa efv size_map.
        by rewrite efv zipw_mapl.
      have [b [a [Db Da sab eu]]] := lift_zip H Du.
      exists (map Ex b), a; rewrite size_map; split=> //.
        by rewrite eu zipw_mapl.
      move: Ef; rewrite at_fmean; case Es: (see_m w m q0) => [mu'|] //= Ev.
      have Pq0 : P m q0 by apply: Pn; rewrite !inE eqxx orbT.
      have Db' : denotes m (l m) q0 x b.
        by apply: lift_impl Db => x1 u1 H1; rewrite (at_ext _ _ _ _ Er (wf lt) (at_pids H1)).
      apply: (Hm n2 _ m (l m) q0 mu' x b fa lt (ext_refl _) Pq0 _ Db' Ev); first by lia.
      by move: Es; rewrite see_m_log // lt.
  have ea' := HM _ _ _ _ _ _ (leqnn n) Pp0 Ek Da Ea.
  rewrite efa in s1 s2 He; apply: ex_nth; rewrite size_zipw // => i li.
  by rewrite He // ea' nth_Ex -?sa // nth_scalev // ExZ.
- rewrite /= /onM /onm eqxx; case Ek: (MA m rest p0) => [k'|] //= [<-].
  have Pp0 : P m p0 by apply: Pn; rewrite inE.
  rewrite at_mmap; case: x Du => // xs /lift_num_inv [ys [<-] Da].
  by apply: (HM _ _ _ _ _ _ (leqnn n) Pp0 Ek); apply: lift_num.
- rewrite /= /onM /onm eqxx; case Ek: (MA m rest p0) => [k'|] //= [<-].
  have Pp0 : P m p0 by apply: Pn; rewrite inE.
  case: x Du => // xs /lift_num_inv [ys [F [dF [[<-] HF [de _] ->]]]].
  rewrite at_mdiff; case: ifP => // Hall [<-]; rewrite -map_comp.
  case: xs Hall => [|x1 xs] //; move=> /andP [R1 _].
  have C1 a : head0 (evm n k' (Num [:: a])) = Ex (F a).
    have := evm_shape (see_k w) (see_m w) D n k' (erefl : skel (Num [:: a]) = skel (Num [:: x1])).
    move: R1; case: (evm _ _ (Num [:: x1])) => // B _; case e1: (evm _ _ _) => [A|] // _.
    by rewrite (HM _ _ _ _ _ _ (leqnn n) Pp0 Ek (lift_num (HF a)) e1).
  apply: eq_map => a; rewrite /= de; congr (D _ _ _).
  by apply: functional_extensionality => b; rewrite C1.
- case=> emu; subst mu.
  have ips a : a \in ps -> a \in pids rest by move=> Ha; apply: (Hargs lt E).
  case: x Du => [xs|a x|xs] Du.
  + case/lift_num_inv: Du => us F ->; rewrite at_mom_n.
    apply: (Hm _ (leqnn n) _ _ _ _ _ _ _ lt E Pp EM').
    exact: (cross_tup r erefl F erefl).
  + case/lift_fdd_inv: Du => Ha Da; rewrite at_mom_f; case Es: (see_m w m a) => [mu'|] //= Ev.
    have Pa := Pn a Ha.
    exact: (HM _ _ _ _ _ _ (leqnn n) Pa (read_m lt Er Es (ips a Ha)) Da Ev).
  + case/lift_tup_inv: Du => us F ->; rewrite at_mom_t; apply: mean_cat.
    elim: F => [|x u0 xs' us' H F IH]; constructor => // e0.
    apply: (Hm _ (leqnn n) _ _ _ _ _ _ _ lt E Pp EM').
    by apply: lift_eq H; apply: functional_extensionality => z /=; rewrite eqxx.
Qed.

Theorem sound n : okk n /\ okm n.
Proof.
elim/ltn_ind: n => -[|n] IH; first by split.
have Hk n' : (n' <= n)%N -> okk n' by move=> le; case: (IH n' le).
have Hm n' : (n' <= n)%N -> okm n' by move=> le; case: (IH n' le).
split; first exact: okk_step.
move=> m h; elim: h m => [|pm par IHh o|r d rest IHh] m p mu x u e //.
  by apply: okm_post => //; [exact: Hk | exact: Hm].
exact: okm_add.
Qed.

Theorem sound_k n m p q x y M u v : (m < nm)%N -> P m p -> P m q ->
  kernel_at D n w m p q x y = Some M -> denotes m (l m) p x u -> denotes m (l m) q y v -> covmat M u v.
Proof.
move=> lt Pp Pq; rewrite /kernel_at; case Es: (see_k w m p q) => [k|] //= Ev Hu Hv.
have [H _] := sound n; apply: (H _ _ _ _ _ _ _ _ _ _ lt (ext_refl _) Pp Pq _ Hu Hv Ev).
by move: Es; rewrite see_k_log // lt.
Qed.
Theorem sound_m n m p x e u : (m < nm)%N -> P m p ->
  mean_at D n w m p x = Some e -> denotes m (l m) p x u -> e = map Ex u.
Proof.
move=> lt Pp; rewrite /mean_at; case Es: (see_m w m p) => [mu|] //= Ev Hu.
have [_ H] := sound n; apply: (H _ _ _ _ _ _ _ lt (ext_refl _) Pp _ Hu Ev).
by move: Es; rewrite see_m_log // lt.
Qed.
End Sound.
