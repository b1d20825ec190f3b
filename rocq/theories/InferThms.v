(* Sizes, diagonals, masks and missing values, in numbers. *)
From Coq Require Import List.
From mathcomp Require Import all_ssreflect all_algebra.
From mathcomp Require Import zify.
From Verif Require Import Graph Machine Refine Worlds Eval GraphSpec GraphProofs GraphOps GraphFacts RV RVProofs Sound Typing ModelSpec ModelFacts Cond CondFacts CrossFacts Combine Infer InferSpec ElwiseFacts InferFacts.
Set Implicit Arguments. Unset Strict Implicit. Unset Printing Implicit Defensive.
Import GRing.Theory.
Local Open Scope ring_scope.

Lemma selectedE mu : selected mu = rows mu.
Proof.
rewrite /selected /rows.
have H t : [seq i <- iota t (size mu) | nth false mu (i - t)] = mask mu (iota t (size mu)).
  elim: mu t => [|b mu IH] t //=; rewrite subnn -(IH t.+1) /=.
  have -> : [seq i <- iota t.+1 (size mu) | nth false (b :: mu) (i - t)] = [seq i <- iota t.+1 (size mu) | nth false mu (i - t.+1)].
    by apply: eq_in_filter => i; rewrite mem_iota => /andP [l1 _]; rewrite -[(i - t)%N]/((i.+1 - t.+1)%N) subSn.
  by case: b.
by rewrite -(H 0%N); apply: eq_filter => i; rewrite subn0.
Qed.
Lemma mask_selected (T : Type) (x0 : T) mu (u : seq T) : size mu = size u -> mask mu u = [seq nth x0 u i | i <- selected mu].
Proof. by move=> s; rewrite selectedE /rows map_mask s map_nth_iota0 // take_size. Qed.
Lemma selected_lt mu i : i \in selected mu -> (i < size mu)%N.
Proof. by rewrite mem_filter mem_iota => /and3P []. Qed.
Lemma selected_nth mu i : (i < size (selected mu))%N -> (nth 0%N (selected mu) i < size mu)%N.
Proof. by move=> li; apply: selected_lt; apply: mem_nth. Qed.

Section InferThms.
Variables (R : fieldType) (W : space R).
Variable D : nat -> (point R -> R) -> point R -> R.
Variables (G : pid -> point R -> rv W) (eps : mid -> nat -> rv W).
Notation V := (rv W). Notation Ex := (@Ex R W). Notation cov := (@cov R W).
Variables (ops : seq (op R)) (P : mid -> pid -> Prop).
Let w := run_ops ops.
Variable CV : mid -> pid -> pid -> input R -> input R -> dmat R -> Prop.
Hypothesis Mo : sound D G eps w P CV.
Notation is_at := (is_at D G eps w). Notation meant := (meant D G eps w P).
Notation cov_is := CV. Notation mean_is := (mean_is D w).
Implicit Types (u v d : seq V) (K M N : dmat R) (mu : seq bool).

Let I : winv w. Proof. exact: winv_run. Qed.

(* C49 *)
Lemma size_rows m p k x s M : flat (fun=> True) (w_log w m) p -> see_k w m p p = Some k -> infer_size k x = Some s ->
  meant m p x -> cov_is m p p x x M -> nr M = s.
Proof.
move=> F Es Ei [Pp [u Hu]] E; have [-> _ _] := is_k Mo Pp Pp Hu Hu E.
by case: Hu => lt Hu; move: Es; rewrite see_k_log // lt => Ek; apply: infer_den F Ek Hu Ei.
Qed.

(* C50 *)
Section C50.
Hypothesis Mod : model D G eps w P.
Lemma elwise_diag m p q x y e M : (forall m p (d : pdef R), defined w m p d -> P m p -> basic_def d) ->
  meant m p x -> meant m q y -> elwise_is D w m p q x y e -> ModelSpec.cov_is D w m p q x y M -> diagonal M e.
Proof.
move=> Ba [Pp [u Hu]] [Pq [v Hv]] [k Es [n Ev]] E.
have [a1 a2 a3] := is_k (model_sound Mod) Pp Pq Hu Hv E.
have Ba' m0 p0 (d : pdef R) rest : (m0 < w_nm w)%N -> ext (HAdd p0 d rest) (w_log w m0) -> P m0 p0 -> basic_def d.
  move=> lt E0; apply: (Ba m0); split=> //.
  by elim: E0 => [|q0 d0 h0 _ IH] /=; [left | right].
have [b1 b2 b3] := @sound_el _ W D G eps w P I (winvid_run ops) Mod.1 Mod.2 Ba' n m p q k x y e u v Hu.1 Pp Pq Es Ev Hu.2 Hv.2.
by split=> [||i li]; rewrite ?a1 ?a2 ?b1 ?b2 // b3 // a3 ?b1 ?b2.
Qed.
Lemma var_diag_diag m f n n' e M : (forall m p (d : pdef R), defined w m p d -> P m p -> basic_def d) ->
  home w (f_p f) = Some m -> meant m (f_p f) (f_x f) ->
  fdd_var_diag D n w f = Some e -> fdd_var D n' w f = Some M -> diagonal M e.
Proof.
move=> Ba Eh H; rewrite /fdd_var_diag /fdd_var /own_kernel Eh /=; case Es: (see_k w m _ _) => [k|] //=.
case Ev: (elk _ _ _ _ _ _ _) => [e0|] //=; rewrite /diag; case: eqP => //= sN.
case EK: (evk _ _ _ _ _ _ _) => [K|] //=.
rewrite /vmap2 /dadd /dmap2 /same_shape; case: eqP => //; rewrite size_mkseq => se [<-]; case: andP => // -[/eqP nN /eqP cN] [<-].
have [a1 a2 a3] : diagonal K e0.
  apply: (elwise_diag Ba H H) (ex_intro2 _ _ k Es (ex_intro _ n Ev)) _.
  by exists n'; rewrite /kernel_at Es.
split=> [||i]; rewrite size_mkseq //= => li; rewrite nth_mkseq // nth_mkseq -?se //.
by rewrite a3.
Qed.
End C50.

(* C51 *)
Lemma take_at m p k n x mu x' u : well_settled w m p -> own_kernel w p = Some k -> take_x (own_kernel w) n k x mu = Some x' ->
  is_at m p x u -> size mu = size u -> is_at m p x' (mask mu u).
Proof.
move=> [S F] Ek Et [lt Hu] su; split=> //.
exact: (@tk_all _ W D G eps w m I lt n _ _ _ _ _ S F Ek Et m _ u (st_refl _) (flat_pids F) Hu su).
Qed.
Lemma take_fddE n f mu f' : take_fdd (own_kernel w) n f mu = Some f' -> exists k x N,
  [/\ own_kernel w (f_p f) = Some k, take_x (own_kernel w) n k (f_x f) mu = Some x, submatrix (f_noise f) mu = Some N &
      f' = MkFdd (f_p f) x N].
Proof.
rewrite /take_fdd; case Ek: (own_kernel w _) => [k|] //=; case Ex: (take_x _ _ _ _ _) => [x|] //=.
case EN: (submatrix _ _) => [N|] //=; case: (infer_size _ _) => //= s [<-]; by exists k, x, N.
Qed.
Lemma take_fdd_at m n f mu f' u : well_settled w m (f_p f) -> take_fdd (own_kernel w) n f mu = Some f' ->
  is_at m (f_p f) (f_x f) u -> size mu = size u -> is_at m (f_p f') (f_x f') (mask mu u).
Proof. by move=> S /take_fddE [k [x [N [Ek Ex _ ->]]]] Hu su; apply: take_at S Ek Ex Hu su. Qed.

Section C51.
Variables (m : mid) (n : nat) (f f' : fdd R) (mu : seq bool) (K : dmat R).
Hypotheses (S : well_settled w m (f_p f)) (T : take_fdd (own_kernel w) n f mu = Some f').
Hypotheses (Me : meant m (f_p f) (f_x f)) (EK : cov_is m (f_p f) (f_p f) (f_x f) (f_x f) K) (sm : size mu = nr K).
Lemma take_vec : exists2 u, is_at m (f_p f) (f_x f) u & size mu = size u.
Proof. by case: Me => Pp [u Hu]; exists u => //; have [<- _ _] := is_k Mo Pp Pp Hu Hu EK. Qed.
Lemma take_pid : f_p f' = f_p f.
Proof. by have [k [x [N [_ _ _ ->]]]] := take_fddE T. Qed.
Lemma take_meant : meant m (f_p f') (f_x f').
Proof.
have [u Hu su] := take_vec; split; first by rewrite take_pid; case: Me.
by exists (mask mu u); apply: take_fdd_at S T Hu su.
Qed.
Lemma take_mean e e' : mean_is m (f_p f) (f_x f) e -> mean_is m (f_p f') (f_x f') e' -> e' = mask mu e.
Proof.
have [u Hu su] := take_vec; have Hu' := take_fdd_at S T Hu su; case: (Me) => Pp _.
by move=> /(is_m Mo Pp Hu) -> /(is_m Mo _ Hu') ->; rewrite ?map_mask // take_pid.
Qed.
Lemma vget_mask u i : size mu = size u -> (i < size (selected mu))%N -> vget (mask mu u) i = vget u (nth 0%N (selected mu) i).
Proof. by move=> su li; rewrite (mask_selected (rone W) su) /vget (nth_map 0%N). Qed.
Lemma size_mask_sel u : size mu = size u -> size (mask mu u) = size (selected mu).
Proof. by move=> su; rewrite (mask_selected (rone W) su) size_map. Qed.
Lemma take_var K' : cov_is m (f_p f') (f_p f') (f_x f') (f_x f') K' -> masked mu K K'.
Proof.
have [u Hu su] := take_vec; have Hu' := take_fdd_at S T Hu su; case: (Me) => Pp _.
have [a1 a2 a3] := is_k Mo Pp Pp Hu Hu EK; rewrite take_pid in Hu' * => /(is_k Mo Pp Pp Hu' Hu') [b1 b2 b3].
have ss := size_mask_sel su; split; rewrite ?b1 ?b2 ?ss // => i j li lj.
by rewrite b3 ?ss // !vget_mask // a3 // -?su selected_nth.
Qed.
Lemma take_cov q y M M' : meant m q y -> cov_is m (f_p f) q (f_x f) y M -> cov_is m (f_p f') q (f_x f') y M' -> masked_rows mu M M'.
Proof.
have [u Hu su] := take_vec; have Hu' := take_fdd_at S T Hu su; case: (Me) => Pp _ [Pq [v Hv]].
move=> /(is_k Mo Pp Pq Hu Hv) [a1 a2 a3]; rewrite take_pid in Hu' * => /(is_k Mo Pp Pq Hu' Hv) [b1 b2 b3].
have ss := size_mask_sel su; split; rewrite ?b1 ?b2 ?ss ?a2 // => i j li lj.
by rewrite b3 ?ss // vget_mask // a3 // -?su selected_nth.
Qed.
Lemma take_noise : masked mu (f_noise f) (f_noise f').
Proof.
have [k [x [N [_ _ EN ->]]]] := take_fddE T; move: EN; rewrite /submatrix; case: ifP => // _ [<-].
by split; rewrite -?selectedE // => i j /=; rewrite -selectedE.
Qed.
End C51.

(* C47 *)
Lemma only_fdds_size Q m h p x u : flat Q h p -> only_fdds x -> denotes D G eps m h p x u -> size u = ne x.
Proof.
move=> F O L; elim: L O => [xs v|q y v /(at_size F)|_|y xs a b _ IH1 _ IH2] //=.
by case/andP=> /IH1 e1 /IH2 e2; rewrite size_cat e1 e2.
Qed.
Lemma block_size m f K : flat (fun=> True) (w_log w m) (f_p f) -> outputs (w_log w m) (f_p f) = 1%N \/ only_fdds (f_x f) ->
  meant m (f_p f) (f_x f) -> cov_is m (f_p f) (f_p f) (f_x f) (f_x f) K -> nr K = ne (f_x f).
Proof.
move=> F Or [Pp [u Hu]] E; have [-> _ _] := is_k Mo Pp Pp Hu Hu E; case: Hu => _ Hu.
case: Or => [o1|O]; last exact: only_fdds_size F O Hu.
by apply: lift_ne Hu => x v /(at_size F); rewrite o1.
Qed.
Lemma unpack_reshape (T : Type) (ns : seq nat) (s : seq T) i : unpack_from i ns s = reshape ns (drop i s).
Proof. by elim: ns i => //= n ns IH i; rewrite IH addnC -drop_drop. Qed.
Lemma sample_blocks (T : Type) m (fs : seq (fdd R)) (ns : seq nat) (s : seq T) :
  Forall2 (fun f n => [/\ flat (fun=> True) (w_log w m) (f_p f), outputs (w_log w m) (f_p f) = 1%N \/ only_fdds (f_x f),
    meant m (f_p f) (f_x f) & exists2 K, cov_is m (f_p f) (f_p f) (f_x f) (f_x f) K & nr K = n]) fs ns ->
  unpack fs s = reshape ns s.
Proof.
move=> F; rewrite /unpack unpack_reshape drop0; congr (reshape _ _).
by elim: F => //= f n fs' ns' [Fl Or Me [K E <-]] _ ->; rewrite (block_size Fl Or Me E).
Qed.

(* C34 *)
Lemma pmap_mask (T : Type) (x0 : T) (y : seq (option T)) : pmap id (mask (map isSome y) y) = [seq odflt x0 (nth None y i) | i <- selected (map isSome y)].
Proof.
have H : pmap id (mask (map isSome y) y) = [seq odflt x0 o | o <- mask (map isSome y) y] by elim: y => //= -[a|] y IH //=; rewrite IH.
by rewrite H (mask_selected None) ?size_map // -map_comp.
Qed.
Lemma observed m n f y o d : well_settled w m (f_p f) -> observe (own_kernel w) n f y = Some o ->
  is_at m (f_p f) (f_x f) d -> size y = size d -> nr (f_noise f) = size d -> nc (f_noise f) = size d ->
  let s := selected (map isSome y) in
  [/\ o_p o = f_p f, is_at m (f_p f) (o_x o) (map (vget d) s),
      nr (o_noise o) = size s /\ nc (o_noise o) = size s,
      forall i j, (i < size s)%N -> (j < size s)%N -> ent (o_noise o) i j = ent (f_noise f) (nth 0%N s i) (nth 0%N s j) &
      o_y o = [seq odflt 0 (nth None y i) | i <- s]].
Proof.
have ss : size y = size (map isSome y) by rewrite size_map.
have sel (z : seq V) : size z = size y -> map (vget z) (selected (map isSome y)) = mask (map isSome y) z.
  by move=> e; rewrite (mask_selected (rone W)) // -ss e.
move=> S; rewrite /observe; set s := selected _; case: ifP => [A|_] E Hd sy N1 N2.
  have av : map isSome y = nseq (size y) true by rewrite ss; apply/all_pred1P; apply: sub_all A => -[].
  have mt (T : Type) (z : seq T) : size z = size y -> mask (map isSome y) z = z.
    by move=> sz; rewrite av -sz mask_true.
  have es : s = iota 0 (size d).
    by rewrite /s selectedE /rows -ss mt ?size_iota ?sy.
  move: E => [<-] /=; split=> //; rewrite ?es ?size_iota //.
  - by rewrite -[map _ _]/(mkseq (fun i => vget d i) (size d)) mkseq_nth.
  - by move=> i j li lj; rewrite !nth_iota.
  - by rewrite -es /s -pmap_mask mt.
move: E; case ET: (take_fdd _ _ _ _) => [f'|] //= [<-] /=.
have sd : size (map isSome y) = size d by rewrite -ss.
have Hd' := take_fdd_at S ET Hd sd; have [k [x [N [_ _ EN eF]]]] := take_fddE ET.
have [m1 m2 m3] := take_noise ET; split=> //; first by rewrite eF.
- by rewrite sel -?sy //; move: Hd'; rewrite {1}eF.
- by move=> i j li lj; apply: m3; rewrite ?m1 ?m2.
- exact: pmap_mask.
Qed.

Section C34.
Variables (m' m : mid) (ps : seq pid) (n : nat) (f : fdd R) (y : seq (option R)) (o : obs R) (Kz : dmat R).
Hypotheses (S : well_settled w m (f_p f)) (O : observe (own_kernel w) n f y = Some o).
Hypotheses (C : conditioned w m' m o ps) (Hz : f_p f \in ps) (Me : meant m (f_p f) (f_x f)).
Hypotheses (EKz : cov_is m (f_p f) (f_p f) (f_x f) (f_x f) Kz) (sy : size y = nr Kz).
Hypotheses (N1 : nr (f_noise f) = nr Kz) (N2 : nc (f_noise f) = nr Kz).
Let s := selected (map isSome y).
Hypothesis (U : block Kz s + block (f_noise f) s \in unitmx).
Let Pz := Me.1.
Let vec : exists2 d, is_at m (f_p f) (f_x f) d & size y = size d.
Proof. by case: Me => Pp [d Hd]; exists d => //; have [<- _ _] := is_k Mo Pp Pp Hd Hd EKz. Qed.
Let s_lt d k : size y = size d -> (k < size s)%N -> (nth 0%N s k < size d)%N.
Proof. by move=> <- lk; have := selected_nth lk; rewrite size_map. Qed.
Let sel d := map (vget d) s.
Let sel_size d : size (sel d) = size s. Proof. by rewrite size_map. Qed.
Let selE d k : (k < size s)%N -> vget (sel d) k = vget d (nth 0%N s k).
Proof. by move=> lk; rewrite /vget (nth_map 0%N). Qed.
Let obsd d : is_at m (f_p f) (f_x f) d -> size y = size d ->
  [/\ o_p o = f_p f, is_at m (o_p o) (o_x o) (sel d), nr (o_noise o) = size (sel d), nc (o_noise o) = size (sel d) &
      (forall i j, (i < size s)%N -> (j < size s)%N -> vary o (sel d) i j = ent Kz (nth 0%N s i) (nth 0%N s j) + ent (f_noise f) (nth 0%N s i) (nth 0%N s j))
      /\ o_y o = [seq odflt 0 (nth None y i) | i <- s]].
Proof.
move=> Hd sd; have [nE1 nE2] : nr (f_noise f) = size d /\ nc (f_noise f) = size d by rewrite N1 N2 -sy.
have [a1 a2 [a3 a4] a5 a6] := observed S O Hd sd nE1 nE2; rewrite a1 sel_size; split=> //; split=> // i j li lj.
by have [_ _ k3] := is_k Mo Pz Pz Hd Hd EKz; rewrite /vary a5 // !selE // k3 // s_lt.
Qed.
Let inv_sel d : is_at m (f_p f) (f_x f) d -> size y = size d -> inv_at (size (sel d)) (vary o (sel d)).
Proof.
move=> Hd sd; have [_ _ _ _ [v _]] := obsd Hd sd; rewrite /inv_at sel_size; move: U; set A := _ + _; set B := \matrix_(i, j) _.
suff -> : B = A by []; by apply/matrixP => i j; rewrite !mxE v.
Qed.

Lemma missing_cov p q x z K Kp Kq K' : p \in ps -> q \in ps -> P m' p -> P m' q -> meant m p x -> meant m q z ->
  cov_is m p q x z K -> cov_is m p (f_p f) x (f_x f) Kp -> cov_is m q (f_p f) z (f_x f) Kq -> cov_is m' p q x z K' ->
  [/\ nr K' = nr K, nc K' = nc K &
      exists2 B : 'M_(nr K, size s), B *m (block Kz s + block (f_noise f) s) = columns Kp (nr K) s &
        mx_at K' (nr K) (nc K) = mx_at K (nr K) (nc K) - B *m (columns Kq (nc K) s)^T].
Proof.
move=> Hp Hq Pp Pq [Pp' [u Hu]] [Pq' [v Hv]] EK EKp EKq EK'; have [d Hd sd] := vec.
have [o1 o2 o3 o4 [o5 _]] := obsd Hd sd; have Uv := inv_sel Hd sd.
have [k1 k2 k3] := is_k Mo Pp' Pq' Hu Hv EK; have [p1 p2 p3] := is_k Mo Pp' Pz Hu Hd EKp.
have [q1 q2 q3] := is_k Mo Pq' Pz Hv Hd EKq.
have Ho : o_p o \in ps by rewrite o1.
have [e1 e2 e3] := post_cov Mo C Ho o2 o3 o4 Uv Hp Hq Pp Pq Hu Hv EK'.
split; rewrite ?e1 ?e2 ?k1 ?k2 //.
exists (columns Kp (size u) s *m invmx (block Kz s + block (f_noise f) s)); first by rewrite mulmxKV.
apply/matrixP => i j; rewrite !mxE e3 // k3 //; congr (_ - _).
rewrite /pc sel_size !mxE; apply: eq_bigr => a _; rewrite !mxE q3 // ?s_lt // selE //; congr (_ * _).
apply: eq_bigr => b _; rewrite !mxE p3 // ?s_lt // selE //; congr (_ * invmx _ _ _).
by apply/matrixP => t t'; rewrite !mxE o5.
Qed.
Lemma missing_mean p x e ez Kp e' : p \in ps -> P m' p -> meant m p x ->
  mean_is m p x e -> mean_is m (f_p f) (f_x f) ez -> cov_is m p (f_p f) x (f_x f) Kp -> mean_is m' p x e' ->
  size e' = size e /\
  exists2 B : 'M_(size e, size s), B *m (block Kz s + block (f_noise f) s) = columns Kp (size e) s &
    forall i : 'I_(size e), nth 0 e' i = nth 0 e i +
      \sum_k B i k * (odflt 0 (nth None y (nth 0%N s k)) - nth 0 ez (nth 0%N s k)).
Proof.
move=> Hp Pp [Pp' [u Hu]] Ee Eez EKp Ee'; have [d Hd sd] := vec.
have [o1 o2 o3 o4 [o5 o6]] := obsd Hd sd; have Uv := inv_sel Hd sd.
have e0 := is_m Mo Pp' Hu Ee; have ez0 := is_m Mo Pz Hd Eez; have [p1 p2 p3] := is_k Mo Pp' Pz Hu Hd EKp.
have Ho : o_p o \in ps by rewrite o1.
have [e1 e2] := post_mean Mo C Ho o2 o3 o4 Hp Pp Hu Ee'; have se : size e = size u by rewrite e0 size_map.
split; rewrite ?e1 ?se //.
exists (columns Kp (size u) s *m invmx (block Kz s + block (f_noise f) s)); first by rewrite mulmxKV.
move=> i; rewrite e2 // e0 map_nth_Ex //; congr (_ + _).
rewrite /pc sel_size !mxE; apply: eq_bigr => a _; rewrite !mxE ez0 map_nth_Ex ?s_lt // selE // o6 (nth_map 0%N) //; congr (_ * _).
apply: eq_bigr => b _; rewrite !mxE p3 // ?s_lt // selE //; congr (_ * invmx _ _ _).
by apply/matrixP => t t'; rewrite !mxE o5.
Qed.
End C34.
End InferThms.
