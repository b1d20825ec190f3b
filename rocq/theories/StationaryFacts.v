From mathcomp Require Import all_ssreflect all_algebra.
From Verif Require Import Graph Machine Refine Worlds GraphProofs GraphOps GraphSpec Stationary.
Set Implicit Arguments. Unset Strict Implicit. Unset Printing Implicit Defensive.
Import GRing.Theory.
Local Open Scope ring_scope.

Section Facts.
Variable R : fieldType.
Notation point := (point R).
Variables (S : (point -> point -> R) -> Prop).
Hypothesis sound : forall f, S f -> invariant f.

Lemma size_feat (f : nat -> R -> R) x : size (feat f x) = size x.
Proof. by rewrite /feat size_map size_zip size_iota minnn. Qed.
Lemma nth_feat (f : nat -> R -> R) x i : (i < size x)%N -> nth 0 (feat f x) i = f i (nth 0 x i).
Proof.
move=> lt; rewrite /feat (nth_map (0%N, 0)) ?size_zip ?size_iota ?minnn //.
by rewrite nth_zip ?size_iota //= nth_iota.
Qed.
Lemma feat_comp (f g : nat -> R -> R) x : feat f (feat g x) = feat (fun i a => f i (g i a)) x.
Proof.
apply: (@eq_from_nth _ 0) => [|i]; rewrite !size_feat // => lt.
by rewrite !nth_feat ?size_feat.
Qed.
Lemma eq_feat (f g : nat -> R -> R) x : (forall i a, f i a = g i a) -> feat f x = feat g x.
Proof. by move=> H; apply: eq_map => -[i a]; apply: H. Qed.

Lemma equivariant (t : point -> point) n (d : nat -> R) : one_map (Some t) (Some t) ->
  exists n' d', forall x, size x = n -> size (t x) = n' /\ t (translate d x) = translate d' (t x).
Proof.
case=> t' [[<-] _ [[c ->]|[s ->]|[dims ->]]].
- exists n, d => x sx; rewrite /shiftX size_feat; split=> //.
  by rewrite /translate !feat_comp; apply: eq_feat => i a; rewrite addrAC.
- exists n, (fun i => d i / s i) => x sx; rewrite /stretchX size_feat; split=> //.
  by rewrite /translate !feat_comp; apply: eq_feat => i a; rewrite mulrDl.
exists (size dims), (fun i => if (nth 0%N dims i < n)%N then d (nth 0%N dims i) else 0) => x sx.
rewrite /selectX size_map; split=> //.
apply: (@eq_from_nth _ 0) => [|i]; rewrite ?size_feat !size_map // => lt.
rewrite nth_feat ?size_map // !(nth_map 0%N) //; case: ifP => l.
  by rewrite nth_feat ?sx.
have le : (size x <= nth 0%N dims i)%N by rewrite sx leqNgt l.
by rewrite addr0 (nth_default 0 le) (nth_default 0) // size_feat.
Qed.

Lemma same_dmap2 f (A B A' B' M : dmat R) : dmap2 f A B = Some M -> same_matrix A A' -> same_matrix B B' ->
  exists2 M', dmap2 f A' B' = Some M' & same_matrix M M'.
Proof.
rewrite /dmap2 /same_shape; case: ifP => // /andP [/eqP e1 /eqP e2] [<-] [a1 a2 a3] [b1 b2 b3].
rewrite a1 b1 a2 b2 e1 e2 !eqxx /=; eexists; [reflexivity|].
by split=> //= i j li lj; rewrite a3 ?b3 ?e1 ?e2.
Qed.

Variables (rdk : mid -> pid -> pid -> option (kexp R)) (rdm : mid -> pid -> option (mexp R)).
Variable D : nat -> (point -> R) -> point -> R.
Notation evk := (evk rdk rdm D).

Lemma evAdd b k1 k2 xs ys : evk b.+1 (KAdd k1 k2) (Num xs) (Num ys) =
  obind2 (@dadd R) (evk b k1 (Num xs) (Num ys)) (evk b k2 (Num xs) (Num ys)).
Proof. by []. Qed.
Lemma evMul b k1 k2 xs ys : evk b.+1 (KMul k1 k2) (Num xs) (Num ys) =
  obind2 (@dmul R) (evk b k1 (Num xs) (Num ys)) (evk b k2 (Num xs) (Num ys)).
Proof. by []. Qed.
Lemma evScale b c k xs ys : evk b.+1 (KScale c k) (Num xs) (Num ys) = omap (dscale c) (evk b k (Num xs) (Num ys)).
Proof. by []. Qed.
Lemma evRev b k xs ys : evk b.+1 (KRev k) (Num xs) (Num ys) = omap (@dtr R) (evk b k (Num ys) (Num xs)).
Proof. by []. Qed.
Lemma evMap b t t' k xs ys : evk b.+1 (KMap (Some t) (Some t') k) (Num xs) (Num ys) =
  evk b k (Num (map t xs)) (Num (map t' ys)).
Proof. by []. Qed.
Lemma evAdk b k xs ys : evk b.+1 (KAdk k) (Num xs) (Num ys) = evk b k (Num xs) (Num ys).
Proof. by []. Qed.

Lemma stationary_invariant b k : stationary S k -> invariant_on_arrays (evk b k).
Proof.
elim: b k => [|b IH] k // Hk n d xs ys M Hx Hy.
case: k Hk => [f| | |k1 k2|k1 k2|c k1|f g|k1|t1 t2 k1|dx dy k1|m ps|j k1|k1|kij kzi kzj kz z nz|kzi kzj kz kzx kx z nz xd nx me] //=.
- move=> Sf [<-]; eexists; [reflexivity|].
  split=> /=; rewrite ?size_map // => i j li lj; rewrite !(nth_map [::]) //.
  have sx : size (nth [::] xs i) = n by apply/eqP; have /all_nthP := Hx; apply.
  have sy : size (nth [::] ys j) = n by apply/eqP; have /all_nthP := Hy; apply.
  exact: (sound Sf d sx sy).
- by move=> _ [<-]; eexists; [reflexivity|]; split=> //=; rewrite size_map.
- by move=> _ [<-]; eexists; [reflexivity|]; split=> //=; rewrite size_map.
- case=> H1 H2; rewrite !evAdd /obind2; case E1: (evk b k1 (Num xs) (Num ys)) => [A|] //=; case E2: (evk b k2 (Num xs) (Num ys)) => [B|] //= EM.
  have [A' -> SA] := IH _ H1 _ d _ _ _ Hx Hy E1; have [B' -> SB] := IH _ H2 _ d _ _ _ Hx Hy E2.
  exact: same_dmap2 EM SA SB.
- case=> H1 H2; rewrite !evMul /obind2; case E1: (evk b k1 (Num xs) (Num ys)) => [A|] //=; case E2: (evk b k2 (Num xs) (Num ys)) => [B|] //= EM.
  have [A' -> SA] := IH _ H1 _ d _ _ _ Hx Hy E1; have [B' -> SB] := IH _ H2 _ d _ _ _ Hx Hy E2.
  exact: same_dmap2 EM SA SB.
- move=> H1; rewrite !evScale; case E1: (evk b k1 (Num xs) (Num ys)) => [A|] //= [<-].
  have [A' -> [a1 a2 a3]] := IH _ H1 _ d _ _ _ Hx Hy E1; eexists; [reflexivity|].
  by split=> //= i j li lj; rewrite a3.
- move=> H1; rewrite !evRev; case E1: (evk b k1 (Num ys) (Num xs)) => [A|] //= [<-].
  have [A' -> [a1 a2 a3]] := IH _ H1 _ d _ _ _ Hy Hx E1; eexists; [reflexivity|].
  by split=> //= i j li lj; rewrite a3.
- case=> -[t [-> -> Ht]] H1; rewrite !evMap => E1.
  have [n' [d' Heq]] := @equivariant t n d (ex_intro _ t (And3 erefl erefl Ht)).
  have K zs : all (fun x => size x == n) zs -> all (fun x => size x == n') (map t zs) /\
      map t (map (translate d) zs) = map (translate d') (map t zs).
    elim: zs => //= z zs IHz /andP [/eqP sz /IHz [-> ->]]; have [-> ->] := Heq _ sz.
    by rewrite eqxx.
  have [Kx ex] := K _ Hx; have [Ky ey] := K _ Hy.
  by rewrite ex ey; apply: (IH _ H1 _ d' _ _ _ Kx Ky E1).
by move=> H1; rewrite !evAdk; apply: (IH _ H1 _ d _ _ _ Hx Hy).
Qed.
End Facts.

Section Processes.
Variable R : fieldType.
Notation point := (point R).
Variables (S : (point -> point -> R) -> Prop).

(* C63 *)
Lemma says_invariant w m p D b : (forall f, S f -> invariant f) -> says S w m p ->
  invariant_on_arrays (kernel_at D b w m p p).
Proof.
move=> sound; rewrite /says /kernel_at; case: (see_k _ _ _ _) => [k|] // H n d xs ys M.
exact: (@stationary_invariant _ S sound (see_k w) (see_m w) D b k H n d xs ys M).
Qed.

Lemma gp_invariant w m p D b : (forall f, S f -> invariant f) -> home w p = Some m -> gp_stationary S w p ->
  invariant_on_arrays (kernel_at D b w m p p).
Proof. by move=> sound E; rewrite /gp_stationary E; apply: says_invariant. Qed.

Lemma translate_to (x y : point) : size x = size y -> translate (fun i => nth 0 y i - nth 0 x i) x = y.
Proof.
move=> e; apply: (@eq_from_nth _ 0) => [|i]; rewrite size_feat // => lt.
by rewrite nth_feat // addrC subrK.
Qed.

Lemma constant_variance w m p D b x y M : (forall f, S f -> invariant f) -> home w p = Some m ->
  gp_stationary S w p -> size x = size y -> kernel_at D b w m p p (Num [:: x]) (Num [:: x]) = Some M ->
  exists2 M', kernel_at D b w m p p (Num [:: y]) (Num [:: y]) = Some M' & same_matrix M M'.
Proof.
move=> sound Eh H e E; have A : all (fun z : point => size z == size x) [:: x] by rewrite /= eqxx.
have := gp_invariant (D := D) (b := b) sound Eh H (n := size x) (fun i => nth 0 y i - nth 0 x i) A A E.
by rewrite /= translate_to.
Qed.

(* Which processes say so. *)
Lemma new_own w o d w' res m : winv w -> step w o = (w', ROk res) -> odef o = Some d ->
  m \in w_gm w' (w_np w) ->
  [/\ res = RPid R (w_np w), (m < w_nm w)%N & see_k w' m (w_np w) (w_np w) = pint (onk m (KA m (w_log w m))) (@noM R) (own_of m d)].
Proof.
move=> I E od gr; have I' : winv w' by have := winv_step o I; rewrite E.
have cr : creates o by case: (o) od.
have [er _] := creates_spec I E cr; have [lm [lm' e]] := new_def I E od gr.
by split=> //; rewrite see_k_log // lm' e /= eqxx.
Qed.

Lemma says_derived w o p w' r m : winv w -> step w o = (w', ROk (RPid R r)) -> keeps_stationary o = Some p ->
  m \in w_gm w' r -> (says S w' m r <-> says S w m p).
Proof.
move=> I E kp gr.
have [d od] : exists d, odef o = Some d by case: (o) kp => //= *; eexists.
have cr : creates o by case: (o) od.
have [[er] _] := creates_spec I E cr; subst r.
have [_ lm e] := new_own I E od gr; rewrite /says e see_k_log // lm.
case: (o) kp od => //= [mm q|q c|q f|q c|q c|q c|q dims]; last by
  case=> <- [<-] /=; rewrite /onk /onm eqxx; case: (KA _ _ _ _) => //= k; split=> [[]|H] //; split=> //;
  exists (selectX dims); split=> //; apply: Or33; exists dims.
- by case=> <- [<-] /=; rewrite /onk /onm eqxx; case: (KA _ _ _ _).
- by case=> <- [<-] /=; rewrite /onk /onm eqxx; case: (KA _ _ _ _).
- by case=> <- [<-] /=; rewrite /onk /onm eqxx; case: (KA _ _ _ _).
- by case: ifP => // _ [<-] [<-] /=; rewrite /onk /onm eqxx; case: (KA _ _ _ _).
- case=> <- [<-] /=; rewrite /onk /onm eqxx; case: (KA _ _ _ _) => //= k; split=> [[]|H] //; split=> //.
  by exists (shiftX c); split=> //; apply: Or31; exists c.
case=> <- [<-] /=; rewrite /onk /onm eqxx; case: (KA _ _ _ _) => //= k; split=> [[]|H] //; split=> //.
by exists (stretchX c); split=> //; apply: Or32; exists c.
Qed.

Lemma says_gp w m mu k w' r : winv w -> step w (OGP m mu k) = (w', ROk (RPid R r)) ->
  (says S w' m r <-> stationary S k).
Proof.
by move=> I E; have [[er] _ H _] := indep_rules I E; rewrite /says er H.
Qed.

Lemma says_sum w p q ord w' r m : winv w -> step w (OSum p q ord) = (w', ROk (RPid R r)) -> m \in w_gm w' r ->
  see_k w m p q = Some KZero -> see_k w m q p = Some KZero -> (says S w' m r <-> says S w m p /\ says S w m q).
Proof.
move=> I E gr z1 z2.
have [[er] _] := creates_spec I E isT; subst r.
have [_ lm e] := new_own I E (erefl : odef (OSum p q ord) = Some (DSum p q)) gr.
rewrite /says e; move: z1 z2; rewrite !see_k_log // lm /= /onk /onm !eqxx => z1 z2.
case: (KA m _ p p) => [a|]; last by split=> // -[].
case: (KA m _ q q) => [b|]; last by split=> // -[].
by rewrite z1 z2 /=; split=> [[[]]|[]].
Qed.

Lemma says_posterior w m ob w' m' p : winv w -> step w (OCond m ob) = (w', ROk (RMid R m')) ->
  (o_data ob = None -> ne (o_x ob) <> 0%N) -> ~ says S w' m' p.
Proof.
move=> I E nz; have ex : op_exists w (OCond m ob) by move: E; rewrite /step; case: ifP.
have [w2 [[E2 I' nm np lg] gm]] := cond_view I ex; move: E; rewrite E2 => -[e1 e2]; subst w2 m'.
rewrite /says see_k_log // nm ltnSn lg /=; case: ifP => _; last by case.
rewrite /post_k; case: (o_data ob) nz => [d _|/(_ erefl)/eqP/negPf nz].
  rewrite /= /onk /onm !eqxx; by do ![case: (KA _ _ _ _) => //= ?]; case.
rewrite /post_k1 nz /= /onk /onm !eqxx; by do ![case: (KA _ _ _ _) => //= ?].
Qed.

Section Runs.
Variable ops : seq (op R).
Let w := run_ops ops.
Let I : winv w := winv_run ops.

Lemma derived_run o p w' r m : step w o = (w', ROk (RPid R r)) -> keeps_stationary o = Some p ->
  m \in w_gm w' r -> (says S w' m r <-> says S w m p).
Proof. exact: says_derived. Qed.
Lemma sum_run p q ord w' r m : step w (OSum p q ord) = (w', ROk (RPid R r)) -> m \in w_gm w' r ->
  see_k w m p q = Some KZero -> see_k w m q p = Some KZero -> (says S w' m r <-> says S w m p /\ says S w m q).
Proof. exact: says_sum. Qed.
Lemma gp_run m mu k w' r : step w (OGP m mu k) = (w', ROk (RPid R r)) -> (says S w' m r <-> stationary S k).
Proof. exact: says_gp. Qed.
Lemma posterior_run m ob w' m' p : step w (OCond m ob) = (w', ROk (RMid R m')) ->
  (o_data ob = None -> ne (o_x ob) <> 0%N) -> ~ says S w' m' p.
Proof. exact: says_posterior. Qed.
End Runs.
End Processes.
