(* Reads of the machine, characterised without memoisation and without rules.

   [KA m h i j] and [MA m h i] are the kernel and mean expressions that the history [h] of
   measure [m] determines, by structural recursion on [h].  The main results say that in
   every reachable world reading the lazy containers gives exactly these. *)
From mathcomp Require Import all_ssreflect all_algebra.
From mathcomp Require Import zify.
From Verif Require Lazy.
From Verif Require Import Graph Machine.
Set Implicit Arguments. Unset Strict Implicit. Unset Printing Implicit Defensive.
Import GRing.Theory.

Section Refine.
Variable R : fieldType.
Notation kexp := (kexp R). Notation mexp := (mexp R). Notation hist := (hist R).
Notation pdef := (pdef R). Notation world := (world R). Notation heap := (heap R).

(* Evaluate a program given total knowledge of kernels and means. *)
Section Pint.
Variables (rk : mid -> pid -> pid -> option kexp) (rm : mid -> pid -> option mexp).
Fixpoint pint A (c : prog R A) : option A :=
  match c with
  | Ret a => Some a
  | Fail => None
  | GetK m i j f => if rk m i j is Some k then pint (f k) else None
  | GetM m i f => if rm m i is Some k then pint (f k) else None
  end.
End Pint.

Definition onm T (m : mid) (f : pid -> T) (dflt : T) : mid -> pid -> T :=
  fun m' i => if m' == m then f i else dflt.
Definition onk (m : mid) (f : pid -> pid -> option kexp) := onm m f (fun _ => None).
Definition onM (m : mid) (f : pid -> option mexp) := onm m f None.
Definition noM : mid -> pid -> option mexp := fun _ _ => None.

Fixpoint pids (h : hist) : seq pid :=
  match h with
  | HRoot => [::]
  | HPost _ par _ => pids par
  | HAdd p _ rest => p :: pids rest
  end.

Fixpoint KA (m : mid) (h : hist) (i j : pid) : option kexp :=
  match h with
  | HRoot => None
  | HPost pm par o =>
    if (i \in pids par) && (j \in pids par)
    then pint (onk pm (KA pm par)) noM (post_k pm o i j) else None
  | HAdd p d rest =>
    if i == p then
      if j == p then pint (onk m (KA m rest)) noM (own_of m d)
      else if j \in pids rest then pint (onk m (KA m rest)) noM (left_of m d j) else None
    else if j == p then
      if i \in pids rest then
        pint (onk m (fun a b => if a == p then pint (onk m (KA m rest)) noM (left_of m d b)
                                else KA m rest a b)) noM (right_of m p d i)
      else None
    else KA m rest i j
  end.

Fixpoint MA (m : mid) (h : hist) (i : pid) : option mexp :=
  match h with
  | HRoot => None
  | HPost pm par o =>
    if i \in pids par then pint (onk pm (KA pm par)) (onM pm (MA pm par)) (post_m pm o i)
    else None
  | HAdd p d rest =>
    if i == p then pint (fun _ _ _ => None) (onM m (MA m rest)) (mean_of m d)
    else MA m rest i
  end.

Definition dargs (d : pdef) : seq pid :=
  match d with
  | DInd _ _ | DUser _ _ _ => [::]
  | DCopy p | DAddC p _ | DAddF p _ | DScale p _ | DFun p _ | DMap p _ _ | DDiff p _ => [:: p]
  | DSum p q => [:: p; q]
  | DCross ps => ps
  end.

Fixpoint wfh (h : hist) : bool :=
  match h with
  | HRoot => true
  | HPost _ par _ => wfh par
  | HAdd p d rest => [&& p \notin pids rest, all (fun q => q \in pids rest) (dargs d) & wfh rest]
  end.

(* [ext h h']: [h'] is [h] with further processes added. *)
Inductive ext (h : hist) : hist -> Prop :=
| ext_refl : ext h h
| ext_add p d h' : ext h h' -> ext h (HAdd p d h').

Fixpoint base (h : hist) : option (mid * hist * obs R) :=
  match h with
  | HRoot => None
  | HPost pm par o => Some (pm, par, o)
  | HAdd _ _ rest => base rest
  end.

(* Size of a history, an upper bound for the depth of reads. *)
Fixpoint hsz (h : hist) : nat :=
  match h with
  | HRoot => 1
  | HPost _ par _ => (hsz par).+1
  | HAdd _ _ rest => (hsz rest).+2
  end.

(* Depth of the read [i, j]. *)
Fixpoint rkk (h : hist) (i j : pid) : nat :=
  match h with
  | HRoot => 0
  | HPost _ par _ => hsz par
  | HAdd p _ rest =>
    if i == p then (hsz rest) else if j == p then (hsz rest).+1 else rkk rest i j
  end.
Fixpoint rkm (h : hist) : nat :=
  match h with
  | HRoot => 0
  | HPost _ par _ => hsz par
  | HAdd p _ rest => rkm rest
  end.

Lemma rkk_lt h i j : rkk h i j < hsz h.
Proof. elim: h => //= p d h IH; case: ifP => _; first by lia. by case: ifP => _; lia. Qed.
Lemma rkm_lt h : rkm h < hsz h.
Proof. elim: h => //= p d h IH; lia. Qed.

Lemma ext_pids h h' : ext h h' -> {subset pids h <= pids h'}.
Proof. by elim=> // p d h2 _ IH i /IH; rewrite inE => ->; rewrite orbT. Qed.

Lemma ext_base h h' : ext h h' -> base h' = base h.
Proof. by elim. Qed.

Lemma KA_pids m h i j : KA m h i j -> (i \in pids h) && (j \in pids h).
Proof.
elim: h i j => [|pm par _ o|p d h IH] i j //=; first by case: ifP.
rewrite !inE; case: eqP => [->|_].
  case: eqP => [->|_] //=; by case: ifP => //=; rewrite ?eqxx.
by case: eqP => [->|_] /=; [case: ifP => //=; rewrite ?orbT | move=> /IH ->].
Qed.

Lemma MA_pids m h i : MA m h i -> i \in pids h.
Proof.
elim: h i => [|pm par _ o|p d h IH] i //=; first by case: ifP.
by rewrite inE; case: eqP => //= _ /IH.
Qed.

Definition old (h h' : hist) (i : pid) := i \in pids h' -> i \in pids h.

Lemma old_add h p d h' i : ext h h' -> wfh (HAdd p d h') -> old h (HAdd p d h') i ->
  i != p /\ old h h' i.
Proof.
move=> E /= /and3P [pn _ _] O; split.
  by apply/eqP => ip; subst i; case/negP: pn; apply: (ext_pids E); apply: O; rewrite /= inE eqxx.
by move=> H; apply: O; rewrite /= inE H orbT.
Qed.

Lemma KA_ext m h h' i j : ext h h' -> wfh h' -> old h h' i -> old h h' j ->
  KA m h' i j = KA m h i j /\ rkk h' i j = rkk h i j.
Proof.
elim=> // p d h2 E IH W oi oj.
have [ip oi'] := old_add E W oi; have [jp oj'] := old_add E W oj.
by rewrite /= (negbTE ip) (negbTE jp); apply: IH => //; case/and3P: W.
Qed.

Lemma MA_ext m h h' i : ext h h' -> wfh h' -> old h h' i -> MA m h' i = MA m h i.
Proof.
elim=> // p d h2 E IH W oi; have [ip oi'] := old_add E W oi.
by rewrite /= (negbTE ip); apply: IH => //; case/and3P: W.
Qed.

Lemma rkm_ext h h' : ext h h' -> rkm h' = rkm h.
Proof. by elim. Qed.

Lemma wfh_ext h h' : ext h h' -> wfh h' -> wfh h.
Proof. by elim=> // p d h2 _ IH /= /and3P [_ _ /IH]. Qed.

(* Which reads a program may do. *)
Fixpoint only A (m : mid) (Pk : pid -> pid -> Prop) (Pm : pid -> Prop) (c : prog R A) : Prop :=
  match c with
  | Ret _ | Fail => True
  | GetK m' i j f => [/\ m' = m, Pk i j & forall k, only m Pk Pm (f k)]
  | GetM m' i f => [/\ m' = m, Pm i & forall k, only m Pk Pm (f k)]
  end.

Lemma only_sub A m (Pk Pk' : pid -> pid -> Prop) (Pm Pm' : pid -> Prop) (c : prog R A) :
  (forall i j, Pk i j -> Pk' i j) -> (forall i, Pm i -> Pm' i) ->
  only m Pk Pm c -> only m Pk' Pm' c.
Proof.
move=> Hk Hm; elim: c => //= [m' i j f IH|m' i f IH] [-> P H]; split=> //; try (by move=> k; apply: IH).
  exact: Hk.
exact: Hm.
Qed.

Lemma pint_ext A m Pk Pm (c : prog R A) rk rm rk' rm' :
  only m Pk Pm c ->
  (forall i j, Pk i j -> rk m i j = rk' m i j) -> (forall i, Pm i -> rm m i = rm' m i) ->
  pint rk rm c = pint rk' rm' c.
Proof.
move=> H Hk Hm; elim: c H => //= [m' i j f IH|m' i f IH] [-> P H].
  by rewrite (Hk _ _ P); case: (rk' m i j) => // k; apply: IH.
by rewrite (Hm _ P); case: (rm' m i) => // k; apply: IH.
Qed.

Lemma only_mean m d : only m (fun _ _ => False) (fun a => a \in dargs d) (mean_of m d).
Proof. by case: d => //= *; repeat split; rewrite ?inE ?eqxx ?orbT //. Qed.
Lemma only_own m d :
  only m (fun a b => a \in dargs d /\ b \in dargs d) (fun _ => False) (own_of m d).
Proof. by case: d => //= *; repeat split; rewrite ?inE ?eqxx ?orbT //. Qed.
Lemma only_left m d j :
  only m (fun a b => a \in dargs d /\ b = j) (fun _ => False) (left_of m d j).
Proof.
case: d => //= *; repeat split; rewrite ?inE ?eqxx ?orbT //.
by case: (_ j).
Qed.
Lemma only_right m p d i :
  only m (fun a b => (a = p /\ b = i) \/ (a = i /\ b \in dargs d)) (fun _ => False)
    (right_of m p d i).
Proof. by case: d => //= *; repeat split; rewrite ?inE ?eqxx ?orbT //; (try by left); right. Qed.
Lemma only_post_k m o i j :
  only m (fun a b => a \in i :: o_pids o /\ b \in [:: i, j & o_pids o]) (fun _ => False)
    (post_k m o i j).
Proof.
rewrite /post_k /post_k1 /o_pids; case: (o_data o) => [d|] /=; last case: ifP => _ /=;
  by repeat split; rewrite ?inE ?eqxx ?orbT.
Qed.
Lemma only_post_m m o i :
  only m (fun a b => a \in o_pids o /\ b \in i :: o_pids o) (fun a => a \in i :: o_pids o)
    (post_m m o i).
Proof.
rewrite /post_m /post_m1 /o_pids; case: (o_data o) => [d|] /=; last case: ifP => _ /=;
  by repeat split; rewrite ?inE ?eqxx ?orbT.
Qed.

(* The rules that a history has produced. *)
Fixpoint left_rules (m : mid) (h : hist) : seq (Lazy.srule nat_eqType (prog R kexp)) :=
  if h is HAdd p d rest then
    rcons (left_rules m rest)
      (Lazy.SRule p (fun i : nat_eqType => i \in rev (pids rest)) (fun j => Some (left_of m d j)))
  else [::].
Fixpoint right_rules (m : mid) (h : hist) : seq (Lazy.srule nat_eqType (prog R kexp)) :=
  if h is HAdd p d rest then
    rcons (right_rules m rest)
      (Lazy.SRule p (fun i : nat_eqType => i \in rev (pids rest)) (fun j => Some (right_of m p d j)))
  else [::].
Fixpoint uni_rules (h : hist) : seq (Lazy.urule nat_eqType (prog R kexp)) :=
  match h with
  | HRoot => [::]
  | HPost pm par o =>
    [:: Lazy.URule (fun i : nat_eqType => i \in rev (pids par)) (fun i j => Some (post_k pm o i j))]
  | HAdd _ _ rest => uni_rules rest
  end.
Fixpoint mean_rules (h : hist) : seq (Lazy.vrule nat_eqType (prog R mexp)) :=
  match h with
  | HRoot => [::]
  | HPost pm par o =>
    [:: Lazy.VRule (fun i : nat_eqType => i \in rev (pids par)) (fun i => Some (post_m pm o i))]
  | HAdd _ _ rest => mean_rules rest
  end.

Definition stored (m : mid) (h : hist) (s : mstate R) : Prop :=
  (forall i j k, s_kval s i j = Some k -> KA m h i j = Some k) /\
  (forall i k, s_mval s i = Some k -> MA m h i = Some k).

(* Elements assigned when a process was added. *)
Fixpoint assigned (h : hist) : seq pid :=
  if h is HAdd p _ rest then p :: assigned rest else [::].

Record inv_ms (m : mid) (h : hist) (s : mstate R) : Prop := InvMs {
  i_ps : s_ps s = rev (pids h);
  i_left : Lazy.m_left (s_krules s) = left_rules m h;
  i_right : Lazy.m_right (s_krules s) = right_rules m h;
  i_uni : Lazy.m_rules (s_krules s) = uni_rules h;
  i_mean : Lazy.v_rules (s_mrules s) = mean_rules h;
  i_st : stored m h s;
  i_ask : {in assigned h, forall i, s_kval s i i <> None};
  i_asm : {in assigned h, forall i, s_mval s i <> None} }.

(* Invariants of the log. *)
Record inv_log (nm : nat) (l : mid -> hist) : Prop := InvLog {
  l_wf : forall m, m < nm -> wfh (l m);
  l_base : forall m pm par o, m < nm -> base (l m) = Some (pm, par, o) ->
     [/\ pm < m, ext par (l pm) & forall a, a \in o_pids o -> a \in pids (l pm) -> a \in pids par] }.

Definition inv_heap (nm : nat) (l : mid -> hist) (h : heap) : Prop :=
  forall m, m < nm -> inv_ms m (l m) (h m).

(* Scanning the rules of a history. *)
Lemma lscan_rcons (I : eqType) A rs (r : Lazy.srule I A) i j k :
  Lazy.lscan (rcons rs r) i j k =
  Lazy.lscan rs i j (if (i == Lazy.sr_idx r) && Lazy.sr_dom r j then Lazy.call (Lazy.sr_fun r j) else k).
Proof. by elim: rs => //= a rs IH; case: ifP. Qed.
Lemma rscan_rcons (I : eqType) A rs (r : Lazy.srule I A) i j k :
  Lazy.rscan (rcons rs r) i j k =
  Lazy.rscan rs i j (if Lazy.sr_dom r i && (j == Lazy.sr_idx r) then Lazy.call (Lazy.sr_fun r i) else k).
Proof. by elim: rs => //= a rs IH; case: ifP. Qed.

Notation call := (@Lazy.call _).

Fixpoint hleft (m : mid) (h : hist) (i j : pid) : option (prog R kexp) :=
  if h is HAdd p d rest then
    if (i == p) && (j \in pids rest) then Some (left_of m d j) else hleft m rest i j
  else None.
Fixpoint hright (m : mid) (h : hist) (i j : pid) : option (prog R kexp) :=
  if h is HAdd p d rest then
    if (i \in pids rest) && (j == p) then Some (right_of m p d i) else hright m rest i j
  else None.
Fixpoint huni (h : hist) (i j : pid) : option (prog R kexp) :=
  match h with
  | HRoot => None
  | HPost pm par o => if (i \in pids par) && (j \in pids par) then Some (post_k pm o i j) else None
  | HAdd _ _ rest => huni rest i j
  end.
Fixpoint hmean (h : hist) (i : pid) : option (prog R mexp) :=
  match h with
  | HRoot => None
  | HPost pm par o => if i \in pids par then Some (post_m pm o i) else None
  | HAdd _ _ rest => hmean rest i
  end.

Lemma hleft_pids m h i j c : hleft m h i j = Some c -> i \in pids h.
Proof.
elim: h => //= p d h IH; rewrite inE; case: eqP => //= _ /IH //.
Qed.
Lemma hright_pids m h i j c : hright m h i j = Some c -> j \in pids h.
Proof.
elim: h => //= p d h IH; rewrite inE andbC; case: eqP => //= _ /IH //.
Qed.

Lemma lscan_hist m h i j k : wfh h ->
  Lazy.lscan (left_rules m h) i j k = if hleft m h i j is Some c then Lazy.Ok c else k.
Proof.
elim: h k => //= p d h IH k /and3P [pn _ W]; rewrite lscan_rcons IH //= mem_rev.
case E: (hleft m h i j) => [c|]; last by case: ifP.
have ip : i != p by apply: contraNneq pn => <-; apply: hleft_pids E.
by rewrite (negbTE ip).
Qed.
Lemma rscan_hist m h i j k : wfh h ->
  Lazy.rscan (right_rules m h) i j k = if hright m h i j is Some c then Lazy.Ok c else k.
Proof.
elim: h k => //= p d h IH k /and3P [pn _ W]; rewrite rscan_rcons IH //= mem_rev.
case E: (hright m h i j) => [c|]; last by case: ifP.
have jp : j != p by apply: contraNneq pn => <-; apply: hright_pids E.
by rewrite (negbTE jp) andbF.
Qed.
Lemma uscan_hist h i j k :
  Lazy.uscan (uni_rules h) i j k = if huni h i j is Some c then Lazy.Ok c else k.
Proof. by elim: h => //= pm par _ o; rewrite !mem_rev; case: ifP. Qed.
Lemma vscan_hist h i :
  Lazy.vscan (mean_rules h) i = if hmean h i is Some c then Lazy.Ok c else Lazy.Err _ Lazy.ENoRule.
Proof. by elim: h => //= pm par _ o; rewrite !mem_rev; case: ifP. Qed.

(* The program that builds the element [i, j]. *)
Fixpoint hrule (m : mid) (h : hist) (i j : pid) : option (prog R kexp) :=
  match h with
  | HRoot => None
  | HPost pm par o => if (i \in pids par) && (j \in pids par) then Some (post_k pm o i j) else None
  | HAdd p d rest =>
    if i == p then if j \in pids rest then Some (left_of m d j) else None
    else if j == p then if i \in pids rest then Some (right_of m p d i) else None
    else hrule m rest i j
  end.

Lemma huni_pids h i j c : huni h i j = Some c -> (i \in pids h) && (j \in pids h).
Proof.
elim: h => //= [pm par _ o|p d h IH /IH]; first by case: ifP.
by rewrite !inE => /andP [-> ->]; rewrite !orbT.
Qed.
Lemma hleft_pids2 m h i j c : hleft m h i j = Some c -> j \in pids h.
Proof.
elim: h => //= p d h IH; rewrite inE; case: ifP => [/andP [_ ->]|_ /IH ->]; by rewrite orbT.
Qed.
Lemma hright_pids2 m h i j c : hright m h i j = Some c -> i \in pids h.
Proof.
elim: h => //= p d h IH; rewrite inE; case: ifP => [/andP [-> _]|_ /IH ->]; by rewrite orbT.
Qed.

Lemma mbuild_hist m h s i j : wfh h -> inv_ms m h s ->
  Lazy.mbuild (s_krules s) [:: i; j] =
  if hrule m h i j is Some c then Lazy.Ok c else Lazy.Err _ Lazy.ENoRule.
Proof.
move=> W [_ El Er Eu _ _ _ _]; rewrite /Lazy.mbuild El Er Eu uscan_hist lscan_hist // rscan_hist //.
elim: h W {El Er Eu} => [|pm par _ o|p d h IH] /=; [by []|by case: ifP|].
case/and3P=> pn _ W.
have [->|ip] := eqVneq i p => /=.
  case E: (huni h p j) => [c|]; first by case/andP: (huni_pids E); rewrite (negbTE pn).
  case: (j \in pids h) => //.
  case E1: (hleft m h p j) => [c|]; first by rewrite (hleft_pids E1) in pn.
  rewrite (negbTE pn) /=.
  by case E2: (hright m h p j) => [c|] //; rewrite (hright_pids2 E2) in pn.
have [->|jp] := eqVneq j p => /=; last by rewrite andbF -(IH W).
case E: (huni h i p) => [c|]; first by case/andP: (huni_pids E); rewrite (negbTE pn).
case E1: (hleft m h i p) => [c|]; first by rewrite (hleft_pids2 E1) in pn.
rewrite andbT; case: (i \in pids h) => //.
by case E2: (hright m h i p) => [c|] //; rewrite (hright_pids E2) in pn.
Qed.

Lemma vbuild_hist m h s i : inv_ms m h s ->
  Lazy.vbuild (s_mrules s) [:: i] =
  if hmean h i is Some c then Lazy.Ok c else Lazy.Err _ Lazy.ENoRule.
Proof. by case=> _ _ _ _ Em _ _ _; rewrite /Lazy.vbuild Em vscan_hist. Qed.

(* What a read has to deliver. *)
Definition expect T (v : option T) : out T := if v is Some a then ROk a else RErr T.
Definition good T nm l (v : option T) (x : heap * out T) : Prop :=
  inv_heap nm l x.1 /\ x.2 = expect v.

Section Reads.
Variables (nm : nat) (l : mid -> hist).
Hypothesis IL : inv_log nm l.

Definition gk m i j := KA m (l m) i j.
Definition gm m i := MA m (l m) i.

Lemma run_good A n m (Pk : pid -> pid -> Prop) (Pm : pid -> Prop) (c : prog R A) h :
  (forall h i j, inv_heap nm l h -> Pk i j -> good nm l (gk m i j) (getk n h m i j)) ->
  (forall h i, inv_heap nm l h -> Pm i -> good nm l (gm m i) (getm n h m i)) ->
  inv_heap nm l h -> only m Pk Pm c ->
  good nm l (pint gk gm c) (run (getk n) (getm n) c h).
Proof.
move=> Hk Hm; elim: c h => [a|| m' i j f IH | m' i f IH] h Ih //=.
- by case=> -> P H; case: (Hk h i j Ih P); case: (getk n h m i j) => h1 r /= I1 ->; case: (gk m i j) => //= k; apply: IH.
- by case=> -> P H; case: (Hm h i Ih P); case: (getm n h m i) => h1 r /= I1 ->; case: (gm m i) => //= k; apply: IH.
Qed.

Lemma inv_hset h m s : inv_heap nm l h -> inv_ms m (l m) s -> inv_heap nm l (hset h m s).
Proof. by move=> I H m' lt; rewrite /hset; case: eqP => [->|_] //; apply: I. Qed.

Lemma inv_set_k h m i j k : m < nm -> inv_heap nm l h -> gk m i j = Some k ->
  inv_heap nm l (hset h m (set_k (h m) i j k)).
Proof.
move=> lt I E; apply: inv_hset => //; case: (I m lt) => i1 i2 i3 i4 i5 [i6 i6'] i7 i8.
split=> //=; last first.
- by move=> a /i7 H; rewrite /upd2; case: ifP.
- split=> //= a b k'; rewrite /upd2; case: ifP => [/andP [/eqP -> /eqP ->] [<-] //|_]; exact: i6.
Qed.
Lemma inv_set_m h m i k : m < nm -> inv_heap nm l h -> gm m i = Some k ->
  inv_heap nm l (hset h m (set_m (h m) i k)).
Proof.
move=> lt I E; apply: inv_hset => //; case: (I m lt) => i1 i2 i3 i4 i5 [i6 i6'] i7 i8.
split=> //=; last first.
- by move=> a /i8 H; rewrite /upd1; case: ifP.
- split=> //= a k'; rewrite /upd1; case: ifP => [/eqP -> [<-] //|_]; exact: i6'.
Qed.

Lemma hrule_good m i j h : m < nm -> ext h (l m) ->
  if hrule m h i j is Some c then
    exists m' Pk Pm, [/\ m' < nm, only m' Pk Pm c,
      forall a b, Pk a b -> rkk (l m') a b < rkk h i j,
      forall a, Pm a -> rkm (l m') < rkk h i j &
      pint gk gm c = KA m h i j]
  else KA m h i j = None \/ (i = j /\ i \in assigned h).
Proof.
move=> lt; have W := l_wf IL lt; elim: h => [|pm par _ o|p d h IH] E /=; first by left.
- have [lt' E' zo] := l_base IL lt (etrans (ext_base E) erefl).
  have W' := l_wf IL (ltn_trans lt' lt).
  case: ifP => [/andP [ii jj]|_]; last by left.
  have O a : a \in [:: i, j & o_pids o] -> old par (l pm) a.
    by rewrite 2!in_cons => /or3P [/eqP ->|/eqP ->|/zo].
  exists pm, (fun a b => a \in i :: o_pids o /\ b \in [:: i, j & o_pids o]), (fun _ => False).
  have O2 a b : a \in i :: o_pids o /\ b \in [:: i, j & o_pids o] -> old par (l pm) a /\ old par (l pm) b.
    by case=> aa bb; split; apply: O => //; move: aa; rewrite !in_cons => /orP [] ->; rewrite ?orbT.
  split=> //; first exact: ltn_trans lt.
  + exact: only_post_k.
  + by move=> a b /O2 [oa ob]; rewrite (KA_ext pm E' W' oa ob).2; apply: rkk_lt.
  + apply: (pint_ext (only_post_k _ _ _ _)) => // a b /O2 [oa ob].
    by rewrite /gk /onk /onm eqxx (KA_ext pm E' W' oa ob).1.
- have E0 : ext h (l m).
    by clear -E; elim: E => [|p' d' h' _ IH]; constructor; [constructor|].
  have /and3P [pn da Wh] := wfh_ext E W.
  have Oh a : a \in pids h -> old h (l m) a by move=> H _.
  have Op : old (HAdd p d h) (l m) p by move=> _; rewrite /= inE eqxx.
  have Oda a : a \in dargs d -> a \in pids h by move/(allP da).
  have [->|/eqP ip] := eqP.
    case: ifP => jj; last first.
      case: eqP => [->|_]; last by left.
      by right; rewrite inE eqxx.
    have jp : j != p by apply: contraNneq pn => <-.
    exists m, (fun a b => a \in dargs d /\ b = j), (fun _ => False); split=> //.
    + exact: only_left.
    + move=> a b [/Oda aa ->]; rewrite (KA_ext m E0 W (Oh _ aa) (Oh _ jj)).2; exact: rkk_lt.
    + rewrite (negbTE jp); apply: (pint_ext (only_left _ _ _)) => // a b [/Oda aa ->].
      by rewrite /gk /onk /onm eqxx (KA_ext m E0 W (Oh _ aa) (Oh _ jj)).1.
  have [->|/eqP jp] := eqP; last first.
    move: (IH E0); case: (hrule m h i j) => // -[]; first by left.
    by case=> -> ii; right; rewrite inE ii orbT.
  case: ifP => ii; last by left.
  have Kp b : b \in pids h -> KA m (l m) p b = pint (onk m (KA m h)) noM (left_of m d b) /\
                            rkk (l m) p b = hsz h.
    move=> bb; have ob : old (HAdd p d h) (l m) b by move=> _; rewrite /= inE bb orbT.
    case: (KA_ext m E W Op ob) => -> ->; rewrite /= eqxx.
    by rewrite bb; case: eqP => // bp; rewrite -bp bb in pn.
  exists m, (fun a b => (a = p /\ b = i) \/ (a = i /\ b \in dargs d)), (fun _ => False); split=> //.
  + exact: only_right.
  + move=> a b [] [-> bb].
      by rewrite bb (Kp _ ii).2.
    by rewrite (KA_ext m E0 W (Oh _ ii) (Oh _ (Oda _ bb))).2 ltnS ltnW // rkk_lt.
  + apply: (pint_ext (only_right _ _ _ _)) => // a b [] [-> bb].
      by rewrite bb /gk (Kp _ ii).1 /onk /onm !eqxx.
    rewrite /gk /onk /onm eqxx (negbTE ip).
    by rewrite (KA_ext m E0 W (Oh _ ii) (Oh _ (Oda _ bb))).1.
Qed.

Lemma hmean_good m i h : m < nm -> ext h (l m) ->
  if hmean h i is Some c then i \notin assigned h ->
    exists m' Pk Pm, [/\ m' < nm, only m' Pk Pm c,
      forall a b, Pk a b -> rkk (l m') a b < rkm h,
      forall a, Pm a -> rkm (l m') < rkm h &
      pint gk gm c = MA m h i]
  else MA m h i = None \/ i \in assigned h.
Proof.
move=> lt; have W := l_wf IL lt; elim: h => [|pm par _ o|p d h IH] E /=; first by left.
- have [lt' E' zo] := l_base IL lt (etrans (ext_base E) erefl).
  have W' := l_wf IL (ltn_trans lt' lt).
  case: ifP => [ii _|_]; last by left.
  have O a : a \in i :: o_pids o -> old par (l pm) a.
    by rewrite in_cons => /orP [/eqP ->|/zo].
  exists pm, (fun a b => a \in o_pids o /\ b \in i :: o_pids o), (fun a => a \in i :: o_pids o).
  have O2 a b : a \in o_pids o /\ b \in i :: o_pids o -> old par (l pm) a /\ old par (l pm) b.
    by case=> aa bb; split; apply: O => //; rewrite in_cons aa orbT.
  split=> //; first exact: ltn_trans lt.
  + exact: only_post_m.
  + by move=> a b /O2 [oa ob]; rewrite (KA_ext pm E' W' oa ob).2; apply: rkk_lt.
  + by move=> a _; rewrite (rkm_ext E'); apply: rkm_lt.
  + apply: (pint_ext (only_post_m _ _ _)).
      by move=> a b /O2 [oa ob]; rewrite /gk /onk /onm eqxx (KA_ext pm E' W' oa ob).1.
    by move=> a /O oa; rewrite /gm /onM /onm eqxx (MA_ext pm E' W' oa).
- have E0 : ext h (l m).
    by clear -E; elim: E => [|p' d' h' _ IH]; constructor; [constructor|].
  move: (IH E0); rewrite inE; case: (hmean h i) => [c|].
    move=> H; rewrite negb_or => /andP [ip /H]; by rewrite (negbTE ip).
  by case: eqP => [->|_] /=; [right|].
Qed.

Lemma getkE n h m i j : getk (R := R) n.+1 h m i j =
    match s_kval (h m) i j with
    | Some k => (h, ROk k)
    | None =>
      match Lazy.mbuild (s_krules (h m)) [:: i; j] with
      | Lazy.Ok c =>
        let: (h1, r) := run (getk n) (getm n) c h in
        match r with
        | ROk k => (hset h1 m (set_k (h1 m) i j k), ROk k)
        | RErr => (h1, RErr kexp)
        | ROof => (h1, ROof kexp)
        end
      | Lazy.Err _ => (h, RErr kexp)
      end
    end.
Proof. by []. Qed.
Lemma getmE n h m i : getm (R := R) n.+1 h m i =
    match s_mval (h m) i with
    | Some k => (h, ROk k)
    | None =>
      match Lazy.vbuild (s_mrules (h m)) [:: i] with
      | Lazy.Ok c =>
        let: (h1, r) := run (getk n) (getm n) c h in
        match r with
        | ROk k => (hset h1 m (set_m (h1 m) i k), ROk k)
        | RErr => (h1, RErr mexp)
        | ROof => (h1, ROof mexp)
        end
      | Lazy.Err _ => (h, RErr mexp)
      end
    end.
Proof. by []. Qed.

Lemma get_good n :
  (forall h m i j, m < nm -> inv_heap nm l h -> rkk (l m) i j < n ->
     good nm l (gk m i j) (getk n h m i j)) /\
  (forall h m i, m < nm -> inv_heap nm l h -> rkm (l m) < n ->
     good nm l (gm m i) (getm n h m i)).
Proof.
elim: n => [|n [IHk IHm]]; first by split.
split=> h m.
- move=> i j lt I rk; rewrite getkE; have Im := I m lt.
  case Es: (s_kval (h m) i j) => [k|].
    by split=> //=; rewrite /gk ((i_st Im).1 _ _ _ Es).
  rewrite (mbuild_hist _ _ (l_wf IL lt) Im).
  move: (hrule_good i j lt (ext_refl _)); case: (hrule m (l m) i j) => [c|].
    case=> m' [Pk [Pm [lt' O Hk Hm Ep]]].
    have := run_good (n := n) (m := m') (c := c) _ _ I O.
    case: (run _ _ c h) => h1 r; case.
    + move=> h2 a b I2 /Hk H; apply: IHk => //; lia.
    + move=> h2 a I2 /Hm H; apply: IHm => //; lia.
    rewrite Ep -/(gk m i j) /= => I1 ->.
    case Eg: (gk m i j) => [k|] //=; split=> //=; exact: inv_set_k.
  case=> [E|[eij ia]]; first by rewrite /gk E.
  by rewrite -eij in Es; case: (i_ask Im ia).
- move=> i lt I rk; rewrite getmE; have Im := I m lt.
  case Es: (s_mval (h m) i) => [k|].
    by split=> //=; rewrite /gm ((i_st Im).2 _ _ Es).
  rewrite (vbuild_hist _ Im).
  have na : i \notin assigned (l m) by apply/negP => /(i_asm Im); rewrite Es.
  move: (hmean_good i lt (ext_refl _)); case: (hmean (l m) i) => [c|].
    case=> // m' [Pk [Pm [lt' O Hk Hm Ep]]].
    have := run_good (n := n) (m := m') (c := c) _ _ I O.
    case: (run _ _ c h) => h1 r; case.
    + move=> h2 a b I2 /Hk H; apply: IHk => //; lia.
    + move=> h2 a I2 /Hm H; apply: IHm => //; lia.
    rewrite Ep -/(gm m i) /= => I1 ->.
    case Eg: (gm m i) => [k|] //=; split=> //=; exact: inv_set_m.
  by case=> [E|ia]; [rewrite /gm E|rewrite ia in na].
Qed.

End Reads.
End Refine.
