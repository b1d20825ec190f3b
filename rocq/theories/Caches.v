(* Model of the caches of observations, stheno/model/observations.py:123-141 and 194-336.

   Every cached attribute is a dictionary from ids of measures.  The id of an object is its
   address (CPython), and addresses can be used again for new objects after their object was
   collected.  Histories of creations, collections and calls are modelled with an explicit heap.

   The observations hold their processes (observations.py:80, 184), and processes hold the
   measures to which they are attached (measure.py:98, 383), so that a measure to which the
   processes of the observations are attached is not collected while the observations are
   alive.  A measure to which they are not attached has no kernels for them, and its lookup
   raises (lazy.py:78-83, 150-180). *)
From mathcomp Require Import all_ssreflect.
Set Implicit Arguments. Unset Strict Implicit. Unset Printing Implicit Defensive.

Section Dict.
Variable val : Type.
Definition dict := seq (nat * val).
Definition get (d : dict) (i : nat) : option val := omap snd (ohead [seq e <- d | e.1 == i]).
Definition put (d : dict) (i : nat) (v : val) : dict := (i, v) :: d.
End Dict.

Inductive error := RuntimeError | KeyError.
Inductive outcome (V : Type) := Returned of V | Raised of error.
Arguments Raised {V} e.

(* Histories. *)
Section Histories.
Variables (measure cache call V : Type) (attached : measure -> bool).
Variable request : call -> nat -> measure -> cache -> cache * outcome V.
(* [New a m]: a measure is created at a free address.  [Collect a]: the measure at [a] is
   collected, which needs that the processes of the observations do not hold it.
   [Call c a]: a method of the observations is called with the measure at [a]. *)
Inductive event := New of nat & measure | Collect of nat | Call of call & nat.
(* The outcomes of the calls of a history, if the history is possible. *)
Fixpoint run (h : dict measure) (c : cache) (l : seq event) : option (seq (outcome V)) :=
  match l with
  | [::] => Some [::]
  | New a m :: l' => if get h a is Some _ then None else run (put h a m) c l'
  | Collect a :: l' =>
    if get h a is Some m then if attached m then None else run [seq e <- h | e.1 != a] c l' else None
  | Call r a :: l' =>
    if get h a is Some m then let (c', o) := request r a m c in omap (cons o) (run h c' l') else None
  end.
End Histories.

(* Exact observations. *)
Section Exact.
Variables (measure V : Type) (attached : measure -> bool) (kx : measure -> V).
(* observations.py:127-141 *)
Definition K_x (_ : unit) (i : nat) (m : measure) (c : dict V) : dict V * outcome V :=
  if get c i is Some v then (c, Returned v) else
  if ~~ attached m then (c, Raised RuntimeError) else
  let c' := put c i (kx m) in
  (c', Returned (kx m)).
End Exact.

(* Pseudo-point observations. *)
Section PseudoCaches.
(* [kz], [av], [mv] and [ev] compute the four attributes; [diagonal] tells whether the noise is
   a diagonal matrix. *)
Variables (measure VK VA VM VE : Type) (attached : measure -> bool).
Variables (kz : measure -> VK) (av : measure -> VA) (mv : measure -> VM) (ev : measure -> VE).
Variable diagonal : bool.

Record cache := Cache { _K_z : dict VK; _A : dict VA; _mu : dict VM; _elbo : dict VE }.
(* observations.py:184-188 *)
Definition empty : cache := Cache [::] [::] [::] [::].
Inductive attribute := AKz | AA | AMu | AElbo.
Inductive value := IsKz of VK | IsA of VA | IsMu of VM | IsElbo of VE.

(* observations.py:279-336: looking up the kernels raises for measures that do not have the
   processes; K_z is stored before the noise is checked. *)
Definition _compute (i : nat) (m : measure) (c : cache) : cache * option error :=
  if ~~ attached m then (c, Some RuntimeError) else
  let c := Cache (put (_K_z c) i (kz m)) (_A c) (_mu c) (_elbo c) in
  if ~~ diagonal then (c, Some RuntimeError) else
  let c := Cache (_K_z c) (put (_A c) i (av m)) (_mu c) (_elbo c) in
  let c := Cache (_K_z c) (_A c) (put (_mu c) i (mv m)) (_elbo c) in
  let c := Cache (_K_z c) (_A c) (_mu c) (put (_elbo c) i (ev m)) in
  (c, None).

Definition lookup (a : attribute) (i : nat) (c : cache) : option value :=
  match a with
  | AKz => omap IsKz (get (_K_z c) i)
  | AA => omap IsA (get (_A c) i)
  | AMu => omap IsMu (get (_mu c) i)
  | AElbo => omap IsElbo (get (_elbo c) i)
  end.
(* observations.py:194-253: try to look up, except KeyError compute and look up again. *)
Definition access (a : attribute) (i : nat) (m : measure) (c : cache) : cache * outcome value :=
  if lookup a i c is Some v then (c, Returned v) else
  match _compute i m c with
  | (c', Some e) => (c', Raised e)
  | (c', None) => (c', if lookup a i c' is Some v then Returned v else Raised KeyError)
  end.

(* observations.py:194-277: the methods, with the attributes that they access in order. *)
Inductive method_call := CallKz | CallElbo | CallMu | CallA | CallPosteriorKernel | CallPosteriorMean.
Definition accesses (r : method_call) : seq attribute :=
  match r with
  | CallKz => [:: AKz] | CallElbo => [:: AElbo] | CallMu => [:: AMu] | CallA => [:: AA]
  | CallPosteriorKernel => [:: AKz; AA]
  | CallPosteriorMean => [:: AKz; AMu]
  end.
Fixpoint access_all (l : seq attribute) (i : nat) (m : measure) (c : cache) : cache * outcome (seq value) :=
  if l is a :: l' then
    match access a i m c with
    | (c', Raised e) => (c', Raised e)
    | (c', Returned v) =>
      match access_all l' i m c' with
      | (c'', Raised e) => (c'', Raised e)
      | (c'', Returned vs) => (c'', Returned (v :: vs))
      end
    end
  else (c, Returned [::]).
Definition pseudo_request (r : method_call) (i : nat) (m : measure) (c : cache) : cache * outcome (seq value) :=
  access_all (accesses r) i m c.
End PseudoCaches.
