(* Proofs about the caches of observations. *)
From mathcomp Require Import all_ssreflect.
From Verif Require Import Caches CachesSpec.
Set Implicit Arguments. Unset Strict Implicit. Unset Printing Implicit Defensive.

Lemma get_put V (d : dict V) i v j : get (put d i v) j = if i == j then Some v else get d j.
Proof. by rewrite /get /put /=; case: eqP. Qed.
Lemma get_rm V (d : dict V) a j : get [seq e <- d | e.1 != a] j = if j == a then None else get d j.
Proof.
rewrite /get -filter_predI; case: eqP => [->|ne].
  by rewrite (eq_filter (a2 := pred0)) ?filter_pred0 // => e /=; case: eqP.
congr (omap _ (ohead _)); apply: eq_filter => e /=; case: eqP => //= ->; by apply/eqP.
Qed.

Section Histories.
Variables (measure cache call V : Type) (attached : measure -> bool).
Variable request : call -> nat -> measure -> cache -> cache * outcome V.
(* [ok h c]: the cache is right for the heap. [good r a m o]: outcome. *)
Variable ok : (nat -> option measure) -> cache -> Prop.
Variable good : call -> measure -> outcome V -> Prop.
Hypothesis ok_sub : forall h h' c, (forall a m, attached m -> h a = Some m -> h' a = Some m) -> ok h c -> ok h' c.
Hypothesis ok_step : forall h c r a m, h a = Some m -> ok h c ->
  ok h (request r a m c).1 /\ good r m (request r a m c).2.
Lemma history_ind l h c os now : (forall a m, get h a = Some m -> now a = Some m) -> ok (get h) c ->
  run attached request h c l = Some os ->
  List.Forall2 (fun (x : call * nat * option measure) o => exists m, x.2 = Some m /\ good x.1.1 m o) (calls now l) os.
Proof.
elim: l h c os now => [|e l IH] h c os now N O /=; first by case=> <-; constructor.
case: e => [a m|a|r a].
- case G: (get h a) => [//|]; apply: IH => [b n|].
    by rewrite get_put eq_sym; case: eqP => [_ [->] //|_]; apply: N.
  apply: ok_sub O => b n A gb; rewrite get_put; case: eqP => // e; by rewrite e gb in G.
- case G: (get h a) => [m|//]; case A: (attached m) => //; apply: IH => [b n|].
    by rewrite get_rm; case: eqP => // _; apply: N.
  apply: ok_sub O => b n A' gb; rewrite get_rm; case: eqP => // e; move: gb; rewrite e G => -[e'].
  by rewrite -e' A in A'.
- case G: (get h a) => [m|//]; have [O' g] := ok_step r G O.
  case: (request r a m c) O' g => c' o /= O' g; case E: (run _ _ h c' l) => [os'|//] [<-].
  constructor; last exact: (IH _ _ _ _ N O' E).
  by exists m; split=> //=; apply: N.
Qed.
End Histories.

Lemma Forall2_map A B C (f : A -> C) (P : A -> B -> Prop) (g : B -> C) (l : seq A) (r : seq B) :
  (forall a b, P a b -> g b = f a) -> List.Forall2 P l r -> map g r = map f l.
Proof. by move=> H; elim=> //= a b l' r' p _ ->; rewrite (H _ _ p). Qed.

Section Exact.
Variables (measure V : Type) (attached : measure -> bool) (kx : measure -> V).
Definition okd (h : nat -> option measure) (d : dict V) :=
  forall i v, get d i = Some v -> exists m, [/\ h i = Some m, attached m & v = kx m].
Lemma okd_sub h h' c : (forall a m, attached m -> h a = Some m -> h' a = Some m) -> okd h c -> okd h' c.
Proof. by move=> H O i v /O [m [a b ->]]; exists m; split=> //; apply: H. Qed.
Lemma okd_put h d i m : okd h d -> h i = Some m -> attached m -> okd h (put d i (kx m)).
Proof. by move=> O hi A j v; rewrite get_put; case: eqP => [<- [<-]|_ /O //]; exists m. Qed.
Lemma exact_history l os : run attached (K_x attached kx) [::] [::] l = Some os ->
  os = [seq fresh attached kx x.2 | x <- calls (fun=> None) l].
Proof.
move=> E; have := @history_ind _ _ _ _ attached (K_x attached kx) okd (fun _ m o => o = fresh attached kx (Some m)) okd_sub.
move=> /(_ _ l [::] [::] os (fun=> None)) H; rewrite -[LHS]map_id.
apply: Forall2_map; last apply: H => //; first by move=> a b [m [-> ->]].
move=> h c r a m ha O; rewrite /K_x; case G: (get c a) => [v|] /=.
  by split=> //; have [n [e A ->]] := O _ _ G; move: e; rewrite ha => -[->]; rewrite A.
case A: (attached m) => //=; split=> //; exact: okd_put.
Qed.
End Exact.

Section Pseudo.
Variables (measure VK VA VM VE : Type) (attached : measure -> bool).
Variables (kz : measure -> VK) (av : measure -> VA) (mv : measure -> VM) (ev : measure -> VE).
Notation cache := (cache VK VA VM VE).
Notation req diagonal := (pseudo_request attached kz av mv ev diagonal).
Notation ans := (answer kz av mv ev).
Definition okc (h : nat -> option measure) (c : cache) :=
  [/\ okd attached kz h (_K_z c), okd attached av h (_A c), okd attached mv h (_mu c) & okd attached ev h (_elbo c)].
Lemma okc_sub h h' c : (forall a m, attached m -> h a = Some m -> h' a = Some m) -> okc h c -> okc h' c.
Proof. by move=> H [a b d e]; split; apply: okd_sub H _. Qed.
Definition one (a : attribute) (m : measure) : value VK VA VM VE :=
  match a with AKz => IsKz _ _ _ (kz m) | AA => IsA _ _ _ (av m) | AMu => IsMu _ _ _ (mv m) | AElbo => IsElbo _ _ _ (ev m) end.
Lemma lookupP h c a i v m : okc h c -> h i = Some m -> lookup a i c = Some v -> attached m /\ v = one a m.
Proof.
case=> O1 O2 O3 O4 hi; case: a => /=; [move: O1|move: O2|move: O3|move: O4] => O;
  case G: (get _ i) => [w|//] [<-]; have [n [e A ->]] := O _ _ G; by move: e; rewrite hi => -[->].
Qed.

Lemma access_diag h c a i m : okc h c -> h i = Some m ->
  let r := access attached kz av mv ev true a i m c in
  okc h r.1 /\ r.2 = if attached m then Returned (one a m) else Raised RuntimeError.
Proof.
move=> O hi; rewrite /access; case G: (lookup a i c) => [v|].
  by have [A ->] := lookupP O hi G; rewrite A.
rewrite /_compute; case A: (attached m) => //=; split; last by case: (a); rewrite /= get_put eqxx.
case: O => *; split=> /=; exact: okd_put.
Qed.
Lemma pseudo_history l os : run attached (req true) [::] (empty _ _ _ _) l = Some os ->
  os = [seq fresh attached (ans x.1.1) x.2 | x <- calls (fun=> None) l].
Proof.
move=> E; have := @history_ind _ _ _ _ attached (req true) okc (fun r m o => o = fresh attached (ans r) (Some m)) okc_sub.
move=> /(_ _ l [::] (empty _ _ _ _) os (fun=> None)) H; rewrite -[LHS]map_id.
apply: Forall2_map; last apply: H => //; first by move=> a b [m [-> ->]].
move=> h c r a m ha O; rewrite /pseudo_request.
have one_step b c' : okc h c' -> okc h (access_all attached kz av mv ev true [:: b] a m c').1 /\
  (access_all attached kz av mv ev true [:: b] a m c').2 = if attached m then Returned [:: one b m] else Raised RuntimeError.
  move=> O'; have [] := access_diag b O' ha; rewrite /=; case: (access _ _ _ _ _ _ _ _ _ _) => c2 o /= O2 ->.
  by case: (attached m).
have two b1 b2 : okc h (access_all attached kz av mv ev true [:: b1; b2] a m c).1 /\
  (access_all attached kz av mv ev true [:: b1; b2] a m c).2 = if attached m then Returned [:: one b1 m; one b2 m] else Raised RuntimeError.
  have [] := access_diag b1 O ha; rewrite [access_all _ _ _ _ _ _ (b1 :: _) _ _ _]/=.
  case: (access _ _ _ _ _ _ b1 _ _ c) => c2 o /= O2 ->.
  have [] := access_diag b2 O2 ha; case: (access _ _ _ _ _ _ b2 _ _ c2) => c3 o3 /= O3 ->.
  by case: (attached m).
by case: r; rewrite /=; [exact: (one_step AKz)|exact: (one_step AElbo)|exact: (one_step AMu)|exact: (one_step AA)|exact: two|exact: two].
Qed.

(* Noise that is not diagonal. *)
Definition okn (h : nat -> option measure) (c : cache) :=
  [/\ okd attached kz h (_K_z c), _A c = [::], _mu c = [::] & _elbo c = [::]].
Lemma okn_sub h h' c : (forall a m, attached m -> h a = Some m -> h' a = Some m) -> okn h c -> okn h' c.
Proof. by move=> H [a b d e]; split=> //; apply: okd_sub H _. Qed.
Lemma access_nondiag h c a i m : okn h c -> h i = Some m ->
  let r := access attached kz av mv ev false a i m c in
  okn h r.1 /\ (r.2 = Raised RuntimeError \/ a = AKz /\ r.2 = Returned (one AKz m)).
Proof.
move=> O hi; rewrite /access; case G: (lookup a i c) => [v|].
  split=> //; right; case: O G => O1 O2 O3 O4; case: a => /=; rewrite ?O2 ?O3 ?O4 //.
  by case G: (get _ i) => [w|//] [<-]; have [n [e A ->]] := O1 _ _ G; move: e; rewrite hi => -[->].
rewrite /_compute; case A: (attached m) => /=; split; try by [left | ].
by case: O => *; split=> //=; exact: okd_put.
Qed.
Lemma nondiag_history l os : run attached (req false) [::] (empty _ _ _ _) l = Some os ->
  List.Forall2 (fun (x : method_call * nat * option measure) o =>
    o = Raised RuntimeError \/ x.1.1 = CallKz /\ exists m, x.2 = Some m /\ o = Returned [:: IsKz _ _ _ (kz m)])
    (calls (fun=> None) l) os.
Proof.
move=> E; have := @history_ind _ _ _ _ attached (req false) okn
  (fun r m o => o = Raised RuntimeError \/ r = CallKz /\ o = Returned [:: IsKz _ _ _ (kz m)]) okn_sub.
move=> /(_ _ l [::] (empty _ _ _ _) os (fun=> None)) H.
have: List.Forall2 (fun (x : method_call * nat * option measure) o => exists m, x.2 = Some m /\
   (o = Raised RuntimeError \/ x.1.1 = CallKz /\ o = Returned [:: IsKz _ _ _ (kz m)])) (calls (fun=> None) l) os.
  apply: H => // h c r a m ha O; rewrite /pseudo_request.
  have one_step b : let q := access_all attached kz av mv ev false [:: b] a m c in okn h q.1 /\
    (q.2 = Raised RuntimeError \/ b = AKz /\ q.2 = Returned [:: one AKz m]).
    have [] := access_nondiag b O ha; rewrite /=; case: (access _ _ _ _ _ _ _ _ _ _) => c2 o /= O2 [->|[-> ->]] /=.
      by split=> //; left.
    by split=> //; right.
  have two b : b <> AKz -> let q := access_all attached kz av mv ev false [:: AKz; b] a m c in okn h q.1 /\
    q.2 = Raised RuntimeError.
    move=> ne; have [] := access_nondiag AKz O ha; rewrite [access_all _ _ _ _ _ _ _ _ _ _]/=.
    case: (access _ _ _ _ _ _ AKz _ _ c) => c2 o /= O2 [->//|[_ ->]].
    have [] := access_nondiag b O2 ha; case: (access _ _ _ _ _ _ b _ _ c2) => c3 o3 /= O3 [->|[]] //.
  case: r; rewrite [accesses _]/=; [have [I [J|[e J]]] := one_step AKz|have [I [J|[e J]]] := one_step AElbo|
    have [I [J|[e J]]] := one_step AMu|have [I [J|[e J]]] := one_step AA|have [I J] := two AA (fun e => ltac:(by []))|
    have [I J] := two AMu (fun e => ltac:(by []))] => //; split=> //; by [left|right].
elim=> [|x o xs os' [m [e d]] _ I]; constructor=> //; case: d => [->|[-> ->]]; [by left|right]; split=> //; by exists m.
Qed.

(* The first call with an address. *)
Lemma access_keys a i m c (seen : seq nat) : (forall j v, get (_K_z c) j = Some v -> j \in seen) ->
  [/\ _A c = [::], _mu c = [::] & _elbo c = [::]] ->
  let r := access attached kz av mv ev false a i m c in
  [/\ forall j v, get (_K_z r.1) j = Some v -> j \in i :: seen, [/\ _A r.1 = [::], _mu r.1 = [::] & _elbo r.1 = [::]]
    & i \notin seen -> r.2 = Raised RuntimeError].
Proof.
move=> S [e1 e2 e3]; rewrite /access; case G: (lookup a i c) => [v|].
  split=> // [j w /S|ni]; first by rewrite inE => ->; rewrite orbT.
  move: G; case: (a); rewrite /= ?e1 ?e2 ?e3 //.
  by case G: (get _ i) => [w|//]; rewrite (S _ _ G) in ni.
rewrite /_compute; case A: (attached m) => /=; split=> // j w; last by move/S; rewrite inE => ->; rewrite orbT.
by rewrite get_put inE eq_sym; case: eqP => //= _ /S.
Qed.
Lemma all_keys l i m c (seen : seq nat) : (forall j v, get (_K_z c) j = Some v -> j \in i :: seen) ->
  [/\ _A c = [::], _mu c = [::] & _elbo c = [::]] ->
  let r := access_all attached kz av mv ev false l i m c in
  (forall j v, get (_K_z r.1) j = Some v -> j \in i :: seen) /\ [/\ _A r.1 = [::], _mu r.1 = [::] & _elbo r.1 = [::]].
Proof.
elim: l c => [|a l IH] c S E //=; have [] := access_keys a i m S E.
case: (access _ _ _ _ _ _ _ _ _ _) => c1 [v|e] /= K1 K2 _.
  have K1' j w : get (_K_z c1) j = Some w -> j \in i :: seen by move/K1; rewrite !inE; case: eqP.
  have [] := IH c1 K1' K2; case: (access_all _ _ _ _ _ _ _ _ _ _) => c2 [vs|e] //=.
by split=> // j w /K1; rewrite !inE; case: eqP.
Qed.
Lemma request_keys q i m c (seen : seq nat) : (forall j v, get (_K_z c) j = Some v -> j \in seen) ->
  [/\ _A c = [::], _mu c = [::] & _elbo c = [::]] ->
  let r := req false q i m c in
  [/\ forall j v, get (_K_z r.1) j = Some v -> j \in i :: seen, [/\ _A r.1 = [::], _mu r.1 = [::] & _elbo r.1 = [::]]
    & i \notin seen -> r.2 = Raised RuntimeError].
Proof.
move=> S E; have S' j v : get (_K_z c) j = Some v -> j \in i :: seen by move/S; rewrite inE => ->; rewrite orbT.
rewrite /pseudo_request; have [K1 K2] := all_keys (accesses q) m S' E; split=> // ni.
have [a [l e]] : exists a l, accesses q = a :: l by case: (q); do 2 eexists.
rewrite e /=; have [_ _] := access_keys a i m S E; case: (access _ _ _ _ _ _ _ _ _ _) => c1 o /= /(_ ni) -> //.
Qed.
Lemma first_call l h c os now (seen : seq nat) pre r a m post : (forall j v, get (_K_z c) j = Some v -> j \in seen) ->
  [/\ _A c = [::], _mu c = [::] & _elbo c = [::]] ->
  run attached (req false) h c l = Some os -> calls now l = pre ++ (r, a, m) :: post ->
  a \notin seen -> a \notin [seq x.1.2 | x <- pre] ->
  List.nth_error os (size pre) = Some (Raised RuntimeError).
Proof.
elim: l h c os now seen pre => [|e l IH] h c os now seen pre S E /=; first by case: pre.
case: e => [b n|b|q b].
- by case: (get h b) => [//|]; apply: IH S E.
- by case: (get h b) => [n|//]; case: (attached n) => //; apply: IH S E.
case: (get h b) => [n|//]; have [] := request_keys q b n S E.
case: (pseudo_request _ _ _ _ _ _ _ _ _) => c1 o /= K1 K2 K3; case R: (run _ _ h c1 l) => [os'|//] [<-].
case: pre => [|x pre] /= [].
  by move=> _ <- _ _ ni _; rewrite K3.
move=> <- Ec ni; rewrite inE negb_or => /andP [ne np].
by apply: (IH _ _ _ _ _ _ K1 K2 R Ec) => //; rewrite inE negb_or /= ne.
Qed.
Lemma first_call0 l os pre r a m post : run attached (req false) [::] (empty _ _ _ _) l = Some os ->
  calls (fun=> None) l = pre ++ (r, a, m) :: post -> a \notin [seq x.1.2 | x <- pre] ->
  List.nth_error os (size pre) = Some (Raised RuntimeError).
Proof. by move=> R C; apply: (first_call (seen := [::]) _ _ R C). Qed.

Lemma kz_retry m : attached m -> run attached (req false) [::] (empty _ _ _ _) [:: New _ 0 m; Call _ CallKz 0; Call _ CallKz 0] =
  Some [:: Raised RuntimeError; Returned [:: IsKz _ _ _ (kz m)]].
Proof. by move=> A; rewrite /= /pseudo_request /= /access /_compute A. Qed.
End Pseudo.

(* Address 1 is used for two measures, the first without the processes. *)
Definition ex_history : seq (event (bool * nat) method_call) :=
  [:: New _ 0 (true, 5); New _ 1 (false, 6); Call _ CallElbo 1; Call _ CallPosteriorKernel 0; Collect _ _ 1;
      New _ 1 (true, 7); Call _ CallElbo 1; Call _ CallMu 0; Call _ CallElbo 1].
Definition ex_request (diagonal : bool) := pseudo_request (fun m : bool * nat => m.1) (fun m => m.2) (fun m => m.2 + 10) (fun m => m.2 + 20) (fun m => m.2 + 30) diagonal.
Lemma ex_run d : exists os, run (fun m : bool * nat => m.1) (ex_request d) [::] (empty _ _ _ _) ex_history = Some os /\ size os = 5.
Proof. by case: d; eexists; split; [vm_compute; reflexivity | | vm_compute; reflexivity | ]. Qed.
Definition ex_exact : seq (event (bool * nat) unit) :=
  [:: New _ 0 (true, 5); New _ 1 (false, 6); Call _ tt 1; Call _ tt 0; Collect _ _ 1; New _ 1 (true, 7); Call _ tt 1; Call _ tt 0].
Lemma ex_run_exact : exists os, run (fun m : bool * nat => m.1) (K_x (fun m => m.1) (fun m => m.2)) [::] [::] ex_exact = Some os /\ size os = 4.
Proof. by eexists; split; [vm_compute; reflexivity | ]. Qed.
