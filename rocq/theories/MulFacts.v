(* Products of processes: what the measure computes, and the moments of products. *)
From Coq Require Import List.
From mathcomp Require Import all_ssreflect all_algebra.
From mathcomp Require Import ring zify.
From Verif Require Import Graph Machine Refine Worlds Eval GraphSpec GraphProofs GraphOps GraphFacts RV Sound ModelSpec MulSpec.
Set Implicit Arguments. Unset Strict Implicit. Unset Printing Implicit Defensive.
Import GRing.Theory.
Local Open Scope ring_scope.

Section Moments.
Variables (R : fieldType) (A : comAlgType R) (E : A -> R).
Hypothesis HE : expectation E.
Let ED a b : E (a + b) = E a + E b. Proof. by case: HE. Qed.
Let EZ c a : E (c *: a) = c * E a. Proof. by case: HE. Qed.
Let E1 : E 1 = 1. Proof. by case: HE. Qed.
Let EA c : E c%:A = c. Proof. by rewrite EZ E1 mulr1. Qed.
Let E0 : E 0 = 0. Proof. by have := EZ 0 0; rewrite scaler0 mul0r. Qed.
Lemma E_centred a : E (centred E a) = 0.
Proof. by rewrite /centred -scaleN1r ED EZ EA mulN1r subrr. Qed.
Lemma split_centred a : a = centred E a + (E a)%:A. Proof. by rewrite subrK. Qed.
Let El c a : E (c%:A * a) = c * E a. Proof. by rewrite mulr_algl EZ. Qed.
Lemma covar_centred a b : covar E a b = E (centred E a * centred E b).
Proof.
rewrite /covar; have -> : E (a * b) = E (centred E a * centred E b + ((E a)%:A * centred E b + ((E b)%:A * centred E a + (E a)%:A * (E b)%:A))).
  congr E; rewrite {1}(split_centred a) {1}(split_centred b); ring.
rewrite !(ED, El, EA, E_centred); ring.
Qed.
Lemma covarC a b : covar E a b = covar E b a. Proof. by rewrite /covar mulrC [E b * _]mulrC. Qed.

(* The expectation and the covariance of products, and their covariance with a third variable. *)
Lemma product_mean a b : E (a * b) = E a * E b + covar E a b.
Proof. by rewrite /covar addrC subrK. Qed.
Let E2 a b : E (centred E a * centred E b) = covar E a b. Proof. by rewrite covar_centred. Qed.
Lemma product_cross S a b c : gaussian E S -> S a -> S b -> S c ->
  covar E (a * b) c = E a * covar E b c + E b * covar E a c.
Proof.
move=> [G3 _] Sa Sb Sc; rewrite {1}/covar (product_mean a b).
set x := centred E a; set y := centred E b; set z := centred E c.
have -> : E (a * b * c) = E (x * y * z + ((E a)%:A * (y * z) + ((E b)%:A * (x * z) + ((E c)%:A * (x * y) +
   ((E a)%:A * ((E b)%:A * z) + ((E a)%:A * ((E c)%:A * y) + ((E b)%:A * ((E c)%:A * x) + (E a)%:A * ((E b)%:A * (E c)%:A)))))))).
  congr E; rewrite {1}(split_centred a) {1}(split_centred b) {1}(split_centred c) -/x -/y -/z; ring.
have h3 : E (x * y * z) = 0 by apply: G3.
have [h1 h2 h4] : [/\ E x = 0, E y = 0 & E z = 0] by rewrite /x /y /z !E_centred.
have [h5 h6 h7] : [/\ E (y * z) = covar E b c, E (x * z) = covar E a c & E (x * y) = covar E a b] by rewrite /x /y /z !E2.
clearbody x y z; rewrite !(ED, El, EA, h1, h2, h3, h4, h5, h6, h7); ring.
Qed.
Lemma product_cov S a b c d : gaussian E S -> S a -> S b -> S c -> S d ->
  covar E (a * b) (c * d) = E a * E c * covar E b d + E a * E d * covar E b c +
    E b * E c * covar E a d + E b * E d * covar E a c + covar E a c * covar E b d + covar E a d * covar E b c.
Proof.
move=> [G3 G4] Sa Sb Sc Sd; rewrite {1}/covar (product_mean a b) (product_mean c d).
set x := centred E a; set y := centred E b; set z := centred E c; set u := centred E d.
have -> : E (a * b * (c * d)) = E (x * y * z * u + ((E a)%:A * (y * z * u) + ((E b)%:A * (x * z * u) + ((E c)%:A * (x * y * u) +
   ((E d)%:A * (x * y * z) +
   ((E a)%:A * ((E b)%:A * (z * u)) + ((E a)%:A * ((E c)%:A * (y * u)) + ((E a)%:A * ((E d)%:A * (y * z)) +
   ((E b)%:A * ((E c)%:A * (x * u)) + ((E b)%:A * ((E d)%:A * (x * z)) + ((E c)%:A * ((E d)%:A * (x * y)) +
   ((E a)%:A * ((E b)%:A * ((E c)%:A * u)) + ((E a)%:A * ((E b)%:A * ((E d)%:A * z)) +
   ((E a)%:A * ((E c)%:A * ((E d)%:A * y)) + ((E b)%:A * ((E c)%:A * ((E d)%:A * x)) +
   (E a)%:A * ((E b)%:A * ((E c)%:A * (E d)%:A))))))))))))))))).
  congr E; rewrite {1}(split_centred a) {1}(split_centred b) {1}(split_centred c) {1}(split_centred d) -/x -/y -/z -/u; ring.
have [t1 t2 t3 t4] : [/\ E (y * z * u) = 0, E (x * z * u) = 0, E (x * y * u) = 0 & E (x * y * z) = 0] by split; apply: G3.
have f0 : E (x * y * z * u) = _ := G4 a b c d Sa Sb Sc Sd.
have [h1 h2 h3 h4] : [/\ E x = 0, E y = 0, E z = 0 & E u = 0] by rewrite /x /y /z /u !E_centred.
have [p1 p2 p3] : [/\ E (z * u) = covar E c d, E (y * u) = covar E b d & E (y * z) = covar E b c] by rewrite /x /y /z /u !E2.
have [p4 p5 p6] : [/\ E (x * u) = covar E a d, E (x * z) = covar E a c & E (x * y) = covar E a b] by rewrite /x /y /z /u !E2.
clearbody x y z u; rewrite !(ED, El, EA, f0, t1, t2, t3, t4, h1, h2, h3, h4, p1, p2, p3, p4, p5, p6); ring.
Qed.
End Moments.

(* Values of expressions, whatever the fuel. *)
Section Values.
Variables (R : fieldType) (rdk : mid -> pid -> pid -> option (kexp R)) (rdm : mid -> pid -> option (mexp R)).
Variable D : nat -> (point R -> R) -> point R -> R.
Definition vk k x y M : Prop := exists n, evk rdk rdm D n k x y = Some M.
Definition vm mu x e : Prop := exists n, evm rdk rdm D n mu x = Some e.
Definition vf f x e : Prop := exists n, evf rdk rdm D n f x = Some e.
Lemma vk_fun k x y M M' : vk k x y M -> vk k x y M' -> M = M'.
Proof.
move=> [n H] [n' H']; have h := @evk_fuel _ rdk rdm D n (maxn n n') k x y (leq_maxl _ _) _ H.
by have := @evk_fuel _ rdk rdm D n' (maxn n n') k x y (leq_maxr _ _) _ H'; rewrite h => -[].
Qed.
Lemma vm_fun mu x e e' : vm mu x e -> vm mu x e' -> e = e'.
Proof.
move=> [n H] [n' H']; have h := @evm_fuel _ rdk rdm D n (maxn n n') mu x (leq_maxl _ _) _ H.
by have := @evm_fuel _ rdk rdm D n' (maxn n n') mu x (leq_maxr _ _) _ H'; rewrite h => -[].
Qed.
Section Atoms.
Variables (x y : input R).
Hypotheses (ax : atom x) (ay : atom y).
Lemma vk_add k1 k2 M : vk (KAdd k1 k2) x y M -> exists A B, [/\ vk k1 x y A, vk k2 x y B & dadd A B = Some M].
Proof.
case=> -[|n] //; rewrite at_add //; case E1: (evk _ _ _ _ _ _ _) => [A|] //=; case E2: (evk _ _ _ _ _ _ _) => [B|] //= H.
by exists A, B; split=> //; exists n.
Qed.
Lemma vk_mul k1 k2 M : vk (KMul k1 k2) x y M -> exists A B, [/\ vk k1 x y A, vk k2 x y B & dmul A B = Some M].
Proof.
case=> -[|n] //; rewrite at_mul //; case E1: (evk _ _ _ _ _ _ _) => [A|] //=; case E2: (evk _ _ _ _ _ _ _) => [B|] //= H.
by exists A, B; split=> //; exists n.
Qed.
Lemma vk_tensor f g M : vk (KTensor f g) x y M -> exists a b, [/\ vf f x a, vf g y b & M = douter a b].
Proof.
case=> -[|n] //; rewrite at_tensor //; case E1: (evf _ _ _ _ _ _) => [A|] //=; case E2: (evf _ _ _ _ _ _) => [B|] //= [<-].
by exists A, B; split=> //; exists n.
Qed.
Lemma vk_zero M : vk KZero x y M -> M = dzero R (ne x) (ne y).
Proof. by case=> -[|n] //; rewrite at_zero // => -[]. Qed.
Lemma vk_rev k M : vk (KRev k) x y M -> exists2 M', vk k y x M' & M = dtr M'.
Proof.
case=> -[|n] //; rewrite at_rev //; case E1: (evk _ _ _ _ _ _ _) => [A|] //= [<-].
by exists A => //; exists n.
Qed.
End Atoms.
Lemma vf_mean m p x e : vf (FMean m p) x e -> exists2 mu, rdm m p = Some mu & vm mu x e.
Proof. by case=> -[|n] //; rewrite at_fmean; case E: (rdm m p) => [mu|] //= H; exists mu => //; exists n. Qed.
Lemma vf_ones x e : vf FOnes x e -> e = nseq (ne x) 1.
Proof. by case=> -[|n] //; rewrite at_fones => -[<-]. Qed.
Lemma vm_add a b x e : vm (MAdd a b) x e -> exists u v, [/\ vm a x u, vm b x v & vmap2 (fun a b => a + b) u v = Some e].
Proof.
case=> -[|n] //; rewrite at_madd; case E1: (evm _ _ _ _ _ _) => [u|] //=; case E2: (evm _ _ _ _ _ _) => [v|] //= H.
by exists u, v; split=> //; exists n.
Qed.
Lemma vm_mul a b x e : vm (MMul a b) x e -> exists u v, [/\ vm a x u, vm b x v & vmap2 (fun a b => a * b) u v = Some e].
Proof.
case=> -[|n] //; rewrite at_mmul; case E1: (evm _ _ _ _ _ _) => [u|] //=; case E2: (evm _ _ _ _ _ _) => [v|] //= H.
by exists u, v; split=> //; exists n.
Qed.
Lemma vm_scale c a x e : vm (MScale c a) x e -> exists2 u, vm a x u & e = map (fun z => c * z) u.
Proof. by case=> -[|n] //; rewrite at_mscale; case E1: (evm _ _ _ _ _ _) => [u|] //= [<-]; exists u => //; exists n. Qed.
Lemma vm_of_fun f x e : vm (MFun f) x e -> vf f x e.
Proof. by case=> -[|n] //; rewrite at_mfun => H; exists n. Qed.
End Values.

(* What a measure stores for the product of [p] and [q]. *)
Section Stored.
Variable R : fieldType.
Notation hist := (hist R). Notation kexp := (kexp R).
Section Steps.
Variables (m : mid) (h : hist) (r : pid).
Lemma KA_skip d i j : (i == r) = false -> (j == r) = false -> KA m (HAdd r d h) i j = KA m h i j.
Proof. by rewrite /= => -> ->. Qed.
Lemma MA_skip d i : (i == r) = false -> MA m (HAdd r d h) i = MA m h i.
Proof. by rewrite /= => ->. Qed.
Lemma KA_fun q f k : KA m h q q = Some k -> KA m (HAdd r (DFun q f) h) r r = Some (KMul (KTensor f f) k).
Proof. by rewrite /= eqxx /onk /onm eqxx => ->. Qed.
Lemma MA_fun q f a : MA m h q = Some a -> MA m (HAdd r (DFun q f) h) r = Some (MMul (MFun f) a).
Proof. by rewrite /= eqxx /onM /onm eqxx => ->. Qed.
Lemma KA_funl q f j k : (j == r) = false -> j \in pids h -> KA m h q j = Some k ->
  KA m (HAdd r (DFun q f) h) r j = Some (KMul (KTensor f FOnes) k).
Proof. by rewrite /= eqxx => -> ->; rewrite /onk /onm eqxx => ->. Qed.
Lemma KA_funr q f j k : (j == r) = false -> j \in pids h -> KA m h q j = Some k ->
  KA m (HAdd r (DFun q f) h) j r = Some (KRev (KMul (KTensor f FOnes) k)).
Proof. by rewrite /= eqxx => -> ->; rewrite /onk /onm !eqxx => ->. Qed.
Lemma KA_sum p q a b c d : KA m h p p = Some a -> KA m h q q = Some b -> KA m h p q = Some c -> KA m h q p = Some d ->
  KA m (HAdd r (DSum p q) h) r r = Some (KAdd (KAdd (KAdd a b) c) d).
Proof. by move=> H1 H2 H3 H4; rewrite /= eqxx /onk /onm !eqxx H1 H2 H3 H4. Qed.
Lemma KA_suml p q j a b : (j == r) = false -> j \in pids h -> KA m h p j = Some a -> KA m h q j = Some b ->
  KA m (HAdd r (DSum p q) h) r j = Some (KAdd a b).
Proof. by rewrite /= eqxx => -> -> H1 H2; rewrite /onk /onm !eqxx H1 H2. Qed.
Lemma KA_funl_inv q f j k : (j == r) = false -> j \in pids h -> KA m (HAdd r (DFun q f) h) r j = Some k ->
  exists k', KA m h q j = Some k'.
Proof. by rewrite /= eqxx => -> ->; rewrite /onk /onm eqxx; case: (KA m h q j) => // k' _; exists k'. Qed.
Lemma KA_suml_inv p q j k : (j == r) = false -> j \in pids h -> KA m (HAdd r (DSum p q) h) r j = Some k ->
  exists a b, KA m h p j = Some a /\ KA m h q j = Some b.
Proof.
rewrite /= eqxx => -> ->; rewrite /onk /onm !eqxx; case: (KA m h p j) => // a; case: (KA m h q j) => // b _.
by exists a, b.
Qed.
Lemma MA_sum p q a b : MA m h p = Some a -> MA m h q = Some b -> MA m (HAdd r (DSum p q) h) r = Some (MAdd a b).
Proof. by move=> H1 H2; rewrite /= eqxx /onM /onm !eqxx H1 H2. Qed.
Lemma KA_ind mu k : KA m (HAdd r (DInd mu k) h) r r = Some k.
Proof. by rewrite /= eqxx. Qed.
Lemma KA_indl mu k j : (j == r) = false -> j \in pids h -> KA m (HAdd r (DInd mu k) h) r j = Some KZero.
Proof. by rewrite /= eqxx => -> ->. Qed.
Lemma KA_indr mu k j : (j == r) = false -> j \in pids h -> KA m (HAdd r (DInd mu k) h) j r = Some KZero.
Proof. by rewrite /= eqxx => -> ->. Qed.
Lemma MA_ind mu k : MA m (HAdd r (DInd mu k) h) r = Some mu.
Proof. by rewrite /= eqxx. Qed.
End Steps.

Definition fsum (m : mid) (p q : pid) (kpp kqq kqp : kexp) : kexp :=
  let cr := KMul (KTensor (FMean m q) FOnes) (KRev (KMul (KTensor (FMean m p) FOnes) kqp)) in
  KAdd (KAdd (KAdd (KMul (KTensor (FMean m p) (FMean m p)) kqq) (KMul (KTensor (FMean m q) (FMean m q)) kpp))
             (KRev cr)) cr.
Lemma mul_log m (h h' : hist) r p q : wfh h' -> addedmul r p q m h h' -> (p < r)%N -> (q < r)%N ->
  ext h h' /\ exists a b kpp kqq kpq kqp,
  [/\ MA m h p = Some a /\ MA m h q = Some b, KA m h p p = Some kpp /\ KA m h q q = Some kqq,
      KA m h p q = Some kpq /\ KA m h q p = Some kqp,
      MA m h' r = Some (MAdd (MAdd (MMul (MFun (FMean m p)) b) (MMul (MFun (FMean m q)) a)) (MMul (MScale (-1) a) b)) &
      KA m h' r r = Some (KAdd (KAdd (KAdd (fsum m p q kpp kqq kqp) (mulk kpp kqq kpq kqp)) KZero) KZero) /\
      forall s k, s \in pids h -> KA m h' r s = Some k -> exists ks kq, [/\ KA m h p s = Some ks, KA m h q s = Some kq &
        k = KAdd (KAdd (KMul (KTensor (FMean m p) FOnes) kq) (KMul (KTensor (FMean m q) FOnes) ks)) KZero]].
Proof.
move=> Wf [t [a [b [kpp [kqq [kpq [kqp [[[Ha Hb] [Hpp Hqq] [Hpq Hqp] E] lt]]]]]]]] lp lq.
have X : ext h h' by rewrite E /mul3; do 5 apply: ext_add; apply: ext_refl.
have X3 : ext h (mul3 m p q t h) by rewrite /mul3; do 3 apply: ext_add; apply: ext_refl.
have Wf3 : wfh (mul3 m p q t h) by apply: wfh_ext Wf; rewrite E; do 2 apply: ext_add; apply: ext_refl.
move: (Wf3); rewrite /mul3 => /and3P [_ _ /and3P [_ Dp /and3P [_ Dq _]]].
have Hq : q \in pids h by move: Dq; rewrite /= andbT.
have Hp : p \in pids h.
  move: Dp; rewrite /= inE andbT => /orP [/eqP e|//].
  by move: lp lt; rewrite e; lia.
split=> //; exists a, b, kpp, kqq, kpq, kqp.
have OK i j : i \in pids h -> j \in pids h -> KA m (mul3 m p q t h) i j = KA m h i j.
  by move=> Hi Hj; have [-> _] := KA_ext m X3 Wf3 (ext_old X3 Hi) (ext_old X3 Hj).
have OM i : i \in pids h -> MA m (mul3 m p q t h) i = MA m h i by move=> Hi; apply: (MA_ext _ X3 Wf3 (ext_old X3 Hi)).
rewrite !OK // in Hpp Hqq Hpq Hqp; rewrite !OM // in Ha Hb.
have N i j : (i < j)%N -> (i == j) = false by move=> l; apply/eqP => e; move: l; rewrite e ltnn.
have N' i j : (i < j)%N -> (j == i) = false by move=> l; rewrite eq_sym N.
move: E; rewrite /mul3; set h1 := HAdd t _ h; set h2 := HAdd t.+1 _ h1; set h3 := HAdd t.+2 _ h2.
set h4 := HAdd t.+3 _ h3 => E; subst h'.
have new z d g i : wfh (HAdd z d g) -> ext h g -> i \in pids h -> (i == z) = false.
  by move=> /and3P [zn _ _] Xg Hi; apply/eqP => e; case/negP: zn; rewrite -e; apply: (ext_pids Xg).
have [W4 W2] : wfh h4 /\ wfh h2 by split; [case/and3P: Wf | case/and3P: Wf3].
have W1 : wfh h1 by case/and3P: W2.
have X1 : ext h h1 by apply: ext_add; apply: ext_refl.
have X2 : ext h h2 by apply: ext_add.
have X4 : ext h h4 by apply: ext_add.
have n0 i (Hi : i \in pids h) := new _ _ _ i W1 (ext_refl _) Hi.
have n1 i (Hi : i \in pids h) := new _ _ _ i W2 X1 Hi.
have n2 i (Hi : i \in pids h) := new _ _ _ i Wf3 X2 Hi.
have n3 i (Hi : i \in pids h) := new _ _ _ i W4 X3 Hi.
have nr i (Hi : i \in pids h) := new _ _ _ i Wf X4 Hi.
have i1 i : i \in pids h -> i \in pids h1 := ext_pids X1 (x := i).
have i2 i : i \in pids h -> i \in pids h2 := ext_pids X2 (x := i).
have i3 i : i \in pids h -> i \in pids h3 := ext_pids X3 (x := i).
have i4 i : i \in pids h -> i \in pids h4 := ext_pids X4 (x := i).
have t2 : t.+2 \in pids h3 by rewrite inE eqxx.
have t1 : t \in pids h1 by rewrite inE eqxx.
have e01 : (t == t.+1) = false by apply: N.
have e02 : (t == t.+2) = false by apply: N.
have e12 : (t.+1 == t.+2) = false by apply: N.
have e23 : (t.+2 == t.+3) = false by apply: N.
have e23' : (t.+3 == t.+2) = false by apply: N'.
pose Fp := @FMean R m p; pose Fq := @FMean R m q.
(* h1 *)
have a1 : KA m h1 t t = Some (KMul (KTensor Fp Fp) kqq) by apply: KA_fun.
have a2 s ks : s \in pids h -> KA m h q s = Some ks -> KA m h1 t s = Some (KMul (KTensor Fp FOnes) ks).
  by move=> Hs; apply: KA_funl; rewrite // n0.
have a3 : KA m h1 p t = Some (KRev (KMul (KTensor Fp FOnes) kqp)) by apply: KA_funr; rewrite // n0.
have a4 i j : i \in pids h -> j \in pids h -> KA m h1 i j = KA m h i j by move=> Hi Hj; apply: KA_skip; rewrite n0.
(* h2 *)
pose cr := KMul (KTensor Fq FOnes) (KRev (KMul (KTensor Fp FOnes) kqp)).
have b1 : KA m h2 t.+1 t.+1 = Some (KMul (KTensor Fq Fq) kpp) by apply: KA_fun; rewrite a4.
have b2 : KA m h2 t t = Some (KMul (KTensor Fp Fp) kqq) by rewrite KA_skip.
have b3 : KA m h2 t.+1 t = Some cr by apply: KA_funl.
have b4 : KA m h2 t t.+1 = Some (KRev cr) by apply: KA_funr.
have b5 s ks : s \in pids h -> KA m h p s = Some ks -> KA m h2 t.+1 s = Some (KMul (KTensor Fq FOnes) ks).
  by move=> Hs Hk; apply: KA_funl; rewrite ?n1 ?i1 ?a4.
have b6 s ks : s \in pids h -> KA m h q s = Some ks -> KA m h2 t s = Some (KMul (KTensor Fp FOnes) ks).
  by move=> Hs Hk; rewrite KA_skip ?e01 ?(n1 s Hs) //; apply: a2.
(* h3 *)
have c1 : KA m h3 t.+2 t.+2 = Some (fsum m p q kpp kqq kqp) by apply: KA_sum.
have c2 s ks kq : s \in pids h -> KA m h p s = Some ks -> KA m h q s = Some kq ->
  KA m h3 t.+2 s = Some (KAdd (KMul (KTensor Fp FOnes) kq) (KMul (KTensor Fq FOnes) ks)).
  by move=> Hs H1 H2; apply: KA_suml; rewrite ?n2 ?i2 //; [apply: b6 | apply: b5].
(* h4 *)
have d1 : KA m h4 t.+2 t.+2 = Some (fsum m p q kpp kqq kqp) by rewrite KA_skip.
have d2 : KA m h4 t.+3 t.+3 = Some (mulk kpp kqq kpq kqp) by apply: KA_ind.
have d3 : KA m h4 t.+2 t.+3 = Some KZero by apply: KA_indr.
have d4 : KA m h4 t.+3 t.+2 = Some KZero by apply: KA_indl.
split=> //.
- apply: MA_sum; last exact: MA_ind.
  rewrite MA_skip //; apply: MA_sum.
    by rewrite MA_skip //; apply: MA_fun.
  by apply: MA_fun; rewrite MA_skip ?n0.
split; first by apply: KA_sum.
have F s ks kq : s \in pids h -> KA m h p s = Some ks -> KA m h q s = Some kq -> KA m (HAdd r (DSum t.+2 t.+3) h4) r s =
    Some (KAdd (KAdd (KMul (KTensor Fp FOnes) kq) (KMul (KTensor Fq FOnes) ks)) KZero).
  move=> Hs H1 H2; apply: KA_suml; rewrite ?nr ?i4 //.
    by rewrite KA_skip ?e23 ?(n3 s Hs) //; apply: c2.
  by apply: KA_indl; rewrite ?n3 ?i3.
move=> s k Hs Hk.
have [k1 [_ [+ _]]] := KA_suml_inv (nr s Hs) (i4 s Hs) Hk; rewrite KA_skip ?e23 ?(n3 s Hs) // => Hk1.
have [k2 [k3 [+ Hk3]]] := KA_suml_inv (n2 s Hs) (i2 s Hs) Hk1; rewrite KA_skip ?e01 ?(n1 s Hs) // => Hk2.
have [kq Hkq] := KA_funl_inv (n0 s Hs) Hs Hk2.
have [ks +] := KA_funl_inv (n1 s Hs) (i1 s Hs) Hk3; rewrite a4 // => Hks.
by exists ks, kq; split=> //; move: Hk; rewrite (F s ks kq) // => -[].
Qed.
End Stored.

Section World.
Variable R : fieldType.
Notation kexp := (kexp R).
Lemma mul_seen ops p q ord w1 r ops' m : step (run_ops ops) (OMul p q ord) = (w1, ROk (RPid R r)) ->
  let w := run_from w1 ops' in r \in members w1 m ->
  exists a b kpp kqq kpq kqp,
  [/\ see_m w m p = Some a /\ see_m w m q = Some b, see_k w m p p = Some kpp /\ see_k w m q q = Some kqq,
      see_k w m p q = Some kpq /\ see_k w m q p = Some kqp,
      see_m w m r = Some (MAdd (MAdd (MMul (MFun (FMean m p)) b) (MMul (MFun (FMean m q)) a)) (MMul (MScale (-1) a) b)) &
      see_k w m r r = Some (KAdd (KAdd (KAdd (fsum m p q kpp kqq kqp) (mulk kpp kqq kpq kqp)) KZero) KZero) /\
      forall s k, s \in members (run_ops ops) m -> see_k w m r s = Some k ->
        exists ks kq, [/\ see_k w m p s = Some ks, see_k w m q s = Some kq &
        k = KAdd (KAdd (KMul (KTensor (FMean m p) FOnes) kq) (KMul (KTensor (FMean m q) FOnes) ks)) KZero]].
Proof.
move=> E w Hr; set o := OMul p q ord in E; have I : winv (run_ops ops) := winv_run ops.
have I1 : winv w1 by have := winv_step o I; rewrite E.
have I' : winv w by apply: winv_from.
have L : later w1 w by apply: later_from.
have L0 : later (run_ops ops) w1 by have := later_step o I; rewrite E.
have [[er] [_ [ms [un sc A]]]] := creates_spec I E isT; subst r.
have lt1 : (m < w_nm w1)%N by move: Hr; rewrite /members; case: ifP.
have lt0 : (m < w_nm (run_ops ops))%N by have <- : w_nm w1 = w_nm (run_ops ops) := ad_nm A.
have Hm : m \in ms.
  have : m \in w_gm w1 (w_np (run_ops ops)) by rewrite mem_gm // lt1.
  by have := ad_res A; rewrite /= gm_new // => ->.
have [ex _] := step_ok I E.
have [lp lq] : (p < w_np (run_ops ops))%N /\ (q < w_np (run_ops ops))%N by move: ex; rewrite /op_exists /=; case: (p < _)%N => //; case: (q < _)%N => //; rewrite ?andbF.
have [X [a [b [kpp [kqq [kpq [kqp [[Ha Hb] [Kpp Kqq] [Kpq Kqp] Hmr [Krr Krs]]]]]]]]] :=
  mul_log (l_wf (v_log I1.1) lt1) (ad_in A Hm) lp lq.
have Hp : p \in pids (w_log (run_ops ops) m) by apply: (@MA_pids _ m); rewrite /= in Ha *; rewrite Ha.
have Hq : q \in pids (w_log (run_ops ops) m) by apply: (@MA_pids _ m); rewrite /= in Hb *; rewrite Hb.
have M i : (i \in pids (w_log (run_ops ops) m)) = (i \in members (run_ops ops) m) by rewrite members_log // mem_rev.
rewrite !M in Hp Hq.
have V0 i j (Hi : i \in members (run_ops ops) m) (Hj : j \in members (run_ops ops) m) := later_view I I' (later_trans L0 L) Hi Hj.
have S0k i j : i \in members (run_ops ops) m -> j \in members (run_ops ops) m -> see_k w m i j = KA m (w_log (run_ops ops) m) i j.
  by move=> Hi Hj; have [_ -> _] := V0 i j Hi Hj; rewrite see_k_log // lt0.
have S0m i : i \in members (run_ops ops) m -> see_m w m i = MA m (w_log (run_ops ops) m) i.
  by move=> Hi; have [_ _ ->] := V0 i i Hi Hi; rewrite see_m_log // lt0.
exists a, b, kpp, kqq, kpq, kqp; rewrite (S0k p p) // (S0k q q) // (S0k p q) // (S0k q p) // (S0m p) // (S0m q) //; split=> //.
  by have [_ _ ->] := later_view I1 I' L Hr Hr; rewrite see_m_log // lt1.
split; first by have [_ -> _] := later_view I1 I' L Hr Hr; rewrite see_k_log // lt1.
move=> s k Hs; have [Hs1 _ _] := later_view I I1 L0 Hs Hs.
have [_ -> _] := later_view I1 I' L Hr Hs1; rewrite see_k_log // lt1 => H.
by have [|ks [kq [h1 h2 h3]]] := Krs s k _ H; [rewrite M | exists ks, kq; rewrite !S0k].
Qed.
End World.

(* The numbers. *)
Section Numbers.
Variable R : fieldType.
Lemma cov_isP D (w : world R) m i j x y M : cov_is D w m i j x y M <->
  exists2 k, see_k w m i j = Some k & vk (see_k w) (see_m w) D k x y M.
Proof.
split=> [[n]|[k E [n H]]]; last by exists n; rewrite /kernel_at E.
by rewrite /kernel_at; case E: (see_k w m i j) => [k|] //= H; exists k => //; exists n.
Qed.
Lemma mean_isP D (w : world R) m i x e : mean_is D w m i x e <->
  exists2 mu, see_m w m i = Some mu & vm (see_k w) (see_m w) D mu x e.
Proof.
split=> [[n]|[k E [n H]]]; last by exists n; rewrite /mean_at E.
by rewrite /mean_at; case E: (see_m w m i) => [k|] //= H; exists k => //; exists n.
Qed.
Lemma dmap2E f (a b c : dmat R) : dmap2 f a b = Some c ->
  [/\ nr a = nr c, nc a = nc c, nr b = nr c, nc b = nc c & forall i j, ent c i j = f (ent a i j) (ent b i j)].
Proof. by rewrite /dmap2 /same_shape; case: ifP => // /andP [/eqP e1 /eqP e2] [<-]; split. Qed.
Lemma vmap2E f (a b c : seq R) : vmap2 f a b = Some c ->
  [/\ size a = size c, size b = size c & forall i, (i < size c)%N -> nth 0 c i = f (nth 0 a i) (nth 0 b i)].
Proof.
rewrite /vmap2; case: ifP => // /eqP e [<-]; rewrite size_mkseq; split=> // i lt; by rewrite nth_mkseq.
Qed.

Variables (A : comAlgType R) (E : A -> R).
Variable D : nat -> (point R -> R) -> point R -> R.
Variables (ops : seq (op R)) (p q r : pid) (ord : seq mid) (w1 : world R) (ops' : seq (op R)) (m : mid).
Hypothesis St : step (run_ops ops) (OMul p q ord) = (w1, ROk (RPid R r)).
Hypothesis Hr : r \in members w1 m.
Let w := run_from w1 ops'.
Variables (ps : seq pid) (X : pid -> input R -> nat -> A).
Hypotheses (HE : expectation E) (Re : realises E D w m ps X) (Gs : jointly_gaussian E ps X).
Hypotheses (Hp : p \in ps) (Hq : q \in ps).

Let Sx s x i : s \in ps -> exists p0 x0 i0, p0 \in ps /\ X s x i = X p0 x0 i0.
Proof. by exists s, x, i. Qed.

Lemma mul_cov x y M : atom x -> atom y -> cov_is D w m r r x y M ->
  forall i j, (i < nr M)%N -> (j < nc M)%N ->
  ent M i j = covar E (X p x i * X q x i) (X p y j * X q y j).
Proof.
move=> ax ay /cov_isP [k Ek V] i j li lj.
have [a [b [kpp [kqq [kpq [kqp [[Sa Sb] [Spp Sqq] [Spq Sqp] _ [Srr _]]]]]]]] := mul_seen ops' St Hr.
rewrite -/w in Sa Sb Spp Sqq Spq Sqp Srr; move: Ek; rewrite Srr => -[ek]; subst k.
have [V1 [Z1 [V1k /vk_zero Z1k /dmap2E [r1 c1 _ _ e1]]]] := vk_add ax ay V.
have [V2 [Z2 [V2k /vk_zero Z2k /dmap2E [r2 c2 _ _ e2]]]] := vk_add ax ay V1k.
have [F [T [Fk Tk /dmap2E [r3 c3 r3' c3' e3]]]] := vk_add ax ay V2k.
rewrite e1 e2 (Z1k ax ay) (Z2k ax ay) /= !addr0 e3.
have [R1 C1] : nr V2 = nr M /\ nc V2 = nc M by rewrite r2 c2 r1 c1.
rewrite R1 in r3 r3'; rewrite C1 in c3 c3'.
(* the independent part *)
have [T1 [T2 [T1k T2k /dmap2E [ra ca rb cb eT]]]] := vk_add ax ay Tk.
have [Kpp [Kqq [Kppk Kqqk /dmap2E [rpp cpp rqq cqq e4]]]] := vk_mul ax ay T1k.
have [Kpq [Kqp [Kpqk Kqpk /dmap2E [rpq cpq rqp cqp e5]]]] := vk_mul ax ay T2k.
rewrite eT e4 e5.
(* the other part *)
have [F1 [F2 [F1k F2k /dmap2E [rf1 cf1 rf2 cf2 eF]]]] := vk_add ax ay Fk.
have [F3 [F4 [F3k F4k /dmap2E [rf3 cf3 rf4 cf4 eF1]]]] := vk_add ax ay F1k.
have [F5 [F6 [F5k F6k /dmap2E [rf5 cf5 rf6 cf6 eF3]]]] := vk_add ax ay F3k.
rewrite eF eF1 eF3.
have [t1 [Kqq' [t1k Kqqk' /dmap2E [rt1 ct1 _ _ et1]]]] := vk_mul ax ay F5k.
have [t2 [Kpp' [t2k Kppk' /dmap2E [rt2 ct2 _ _ et2]]]] := vk_mul ax ay F6k.
rewrite (vk_fun Kqqk' Kqqk) in et1; rewrite (vk_fun Kppk' Kppk) in et2; clear Kqqk' Kppk'.
have [mx [my [/vf_mean [a' Sa1 mxv] /vf_mean [a'' Sa2 myv] et]]] := vk_tensor ax ay t1k; subst t1.
have [qx [qy [/vf_mean [b' Sb1 qxv] /vf_mean [b'' Sb2 qyv] et]]] := vk_tensor ax ay t2k; subst t2.
move: Sa1 Sa2 Sb1 Sb2; rewrite Sa Sb => -[e'] [e''] [e'''] [e'''']; subst a' a'' b' b''.
(* the transposed terms *)
have [cr crk eF4] := vk_rev ax ay F4k.
have [u [v [uk vk' /dmap2E [ru cu rv cv ecr]]]] := vk_mul ay ax crk.
have [v' v'k ev] := vk_rev ay ax vk'; subst v F4.
have [u2 [Kqp' [u2k Kqpk' /dmap2E [ru2 cu2 _ _ ev']]]] := vk_mul ax ay v'k.
rewrite (vk_fun Kqpk' Kqpk) in ev'.
have [g [o1 [/vf_mean [b1 Sb1 gv] /vf_ones o1v eu]]] := vk_tensor ay ax uk; subst u.
have [g2 [o2 [/vf_mean [a1 Sa1 g2v] /vf_ones o2v eu]]] := vk_tensor ax ay u2k; subst u2.
move: Sa1 Sb1; rewrite Sa Sb => -[ea] [eb]; subst a1 b1.
have [u3 [v3 [u3k v3k /dmap2E [ru3 cu3 rv3 cv3 ecr3]]]] := vk_mul ax ay F2k.
have [v4 v4k ev] := vk_rev ax ay v3k; subst v3.
have [u4 [Lqp [u4k Lqpk /dmap2E [ru4 cu4 rL cL ev4]]]] := vk_mul ay ax v4k.
have [g3 [o3 [/vf_mean [b1 Sb1 g3v] /vf_ones o3v eu]]] := vk_tensor ax ay u3k; subst u3.
have [g4 [o4 [/vf_mean [a1 Sa1 g4v] /vf_ones o4v eu]]] := vk_tensor ay ax u4k; subst u4.
move: Sa1 Sb1; rewrite Sa Sb => -[ea] [eb]; subst a1 b1.
rewrite (vm_fun gv qyv) (vm_fun g3v qxv) ?(vm_fun g2v mxv) ?(vm_fun g4v myv) in ecr ru cu rv cv ev' ru2 cu2 ecr3 ru3 cu3 ev4 ru4 cu4 *.
rewrite /= in rf1 cf1 rf2 cf2 rf3 cf3 rf4 cf4 rt1 ct1 rt2 ct2 ru cu rv cv ru2 cu2 ru3 cu3 rv3 cv3 ru4 cu4 ecr ecr3 ev' ev4 et1 et2 *.
have [n1 n2] : size mx = nr M /\ size my = nc M by lia.
have [n3 n4] : size qx = nr M /\ size qy = nc M by lia.
have one n k : (k < n)%N -> nth 0 (nseq n 1) k = 1 :> R by move=> lt; rewrite nth_nseq lt.
have [so2 so4] : size o2 = nc M /\ size o4 = nr M by lia.
have [so1 so3] : size o1 = nr M /\ size o3 = nc M by lia.
rewrite o1v o2v o3v o4v !size_nseq in so1 so2 so3 so4.
rewrite et1 et2 ecr ecr3 ev' ev4 o1v o2v o3v o4v /= !one; try by rewrite ?so1 ?so2 ?so3 ?so4.
have [Rm Rc] := Re.
rewrite (product_cov HE Gs (a := X p x i) (b := X q x i) (c := X p y j) (d := X q y j)); try exact: Sx.
have mP x0 e0 i0 : atom x0 -> vm (see_k w) (see_m w) D a x0 e0 -> (i0 < size e0)%N -> E (X p x0 i0) = nth 0 e0 i0.
  by move=> ax0 V0; apply: Rm => //; apply/mean_isP; exists a.
have mQ x0 e0 i0 : atom x0 -> vm (see_k w) (see_m w) D b x0 e0 -> (i0 < size e0)%N -> E (X q x0 i0) = nth 0 e0 i0.
  by move=> ax0 V0; apply: Rm => //; apply/mean_isP; exists b.
rewrite (mP x mx) ?n1 // (mP y my) ?n2 // (mQ x qx) ?n3 // (mQ y qy) ?n4 //.
have H1 : covar E (X p x i) (X p y j) = ent Kpp i j by apply: Rc => //; [apply/cov_isP; exists kpp | lia | lia].
have H2 : covar E (X q x i) (X q y j) = ent Kqq i j by apply: Rc => //; [apply/cov_isP; exists kqq | lia | lia].
have H3 : covar E (X p x i) (X q y j) = ent Kpq i j by apply: Rc => //; [apply/cov_isP; exists kpq | lia | lia].
have H4 : covar E (X q x i) (X p y j) = ent Kqp i j by apply: Rc => //; [apply/cov_isP; exists kqp | lia | lia].
have H5 : covar E (X p x i) (X q y j) = ent Lqp j i by rewrite covarC; apply: Rc => //; [apply/cov_isP; exists kqp | lia | lia].
rewrite -H5 H1 H2 H4 H3.
move: (nth 0 mx i) (nth 0 my j) (nth 0 qx i) (nth 0 qy j) (ent Kpp i j) (ent Kqq i j) (ent Kpq i j) (ent Kqp i j) => *; ring.
Qed.

Lemma mul_cross s x y M : s \in members (run_ops ops) m -> s \in ps -> atom x -> atom y -> cov_is D w m r s x y M ->
  forall i j, (i < nr M)%N -> (j < nc M)%N ->
  ent M i j = covar E (X p x i * X q x i) (X s y j).
Proof.
move=> Hs Ss ax ay /cov_isP [k Ek V] i j li lj.
have [a [b [kpp [kqq [kpq [kqp [[Sa Sb] [Spp Sqq] [Spq Sqp] _ [_ Srs]]]]]]]] := mul_seen ops' St Hr.
rewrite -/w in Sa Sb Srs; have [kps [kqs [Kps Kqs ek]]] := Srs s k Hs Ek; subst k.
have [V1 [Z1 [V1k /vk_zero Z1k /dmap2E [r1 c1 _ _ e1]]]] := vk_add ax ay V.
have [F [T [Fk Tk /dmap2E [r3 c3 r3' c3' e3]]]] := vk_add ax ay V1k.
rewrite e1 (Z1k ax ay) /= !addr0 e3.
have [t1 [A1 [t1k A1k /dmap2E [rt1 ct1 ra1 ca1 et1]]]] := vk_mul ax ay Fk.
have [t2 [A2 [t2k A2k /dmap2E [rt2 ct2 ra2 ca2 et2]]]] := vk_mul ax ay Tk.
have [mx [o1 [/vf_mean [a' Sa1 mxv] /vf_ones o1v et]]] := vk_tensor ax ay t1k; subst t1.
have [qx [o2 [/vf_mean [b' Sb1 qxv] /vf_ones o2v et]]] := vk_tensor ax ay t2k; subst t2.
move: Sa1 Sb1; rewrite Sa Sb => -[ea] [eb]; subst a' b'.
rewrite /= in rt1 ct1 rt2 ct2 et1 et2; rewrite et1 et2.
have [so1 so2] : size o1 = nc M /\ size o2 = nc M by lia.
rewrite o1v o2v !size_nseq in so1 so2; rewrite o1v o2v !nth_nseq so1 lj.
have [Rm Rc] := Re.
rewrite (product_cross HE Gs (a := X p x i) (b := X q x i) (c := X s y j)); try exact: Sx.
rewrite !mulr1; congr (_ * _ + _ * _).
- by apply/esym; apply: (Rm p x mx) => //; [apply/mean_isP; exists a | lia].
- by apply/esym; apply: Rc => //; [apply/cov_isP; exists kqs | lia | lia].
- by apply/esym; apply: (Rm q x qx) => //; [apply/mean_isP; exists b | lia].
- by apply/esym; apply: Rc => //; [apply/cov_isP; exists kps | lia | lia].
Qed.

Lemma mul_mean x e : mean_is D w m r x e -> atom x ->
  forall i, (i < size e)%N -> nth 0 e i = E (X p x i) * E (X q x i).
Proof.
move=> /mean_isP [k Ek V] ax i li.
have [a [b [kpp [kqq [kpq [kqp [[Sa Sb] _ _ Sr _]]]]]]] := mul_seen ops' St Hr.
rewrite -/w in Sa Sb Sr; move: Ek; rewrite Sr => -[ek]; subst k.
have [u [v [uk vk' /vmap2E [su sv e1]]]] := vm_add V.
have [u1 [u2 [u1k u2k /vmap2E [su1 su2 e2]]]] := vm_add uk.
have [c1 [d1 [/vm_of_fun/vf_mean [a' Sa1 c1k] d1k /vmap2E [sc1 sd1 e3]]]] := vm_mul u1k.
have [c2 [d2 [/vm_of_fun/vf_mean [b' Sb1 c2k] d2k /vmap2E [sc2 sd2 e4]]]] := vm_mul u2k.
have [c3 [d3 [/vm_scale [c4 c4k ec] d3k /vmap2E [sc3 sd3 e5]]]] := vm_mul vk'.
move: Sa1 Sb1; rewrite Sa Sb => -[ea] [eb]; subst a' b' c3.
move: sc3; rewrite size_map => sc3.
rewrite e1 // e2 ?e3 ?e4 ?e5; try lia.
have l4 : (i < size c4)%N by rewrite sc3 sv.
rewrite (nth_map 0) //.
rewrite (vm_fun c4k c1k) (vm_fun d2k c1k) (vm_fun c2k d1k) (vm_fun d3k d1k).
have [Rm _] := Re.
rewrite (Rm p x c1) //; [|apply/mean_isP; by exists a|lia].
rewrite (Rm q x d1) //; [by move: (nth 0 c1 i) (nth 0 d1 i) => *; ring|apply/mean_isP; by exists b|lia].
Qed.
Lemma mul_mean_covar x e : mean_is D w m r x e -> atom x -> forall i, (i < size e)%N ->
  nth 0 e i = E (X p x i * X q x i) - covar E (X p x i) (X q x i).
Proof. by move=> H ax i li; rewrite (mul_mean H ax li) /covar opprB addrC subrK. Qed.
End Numbers.
