(* Specification vocabulary for lazy containers: how a history of operations
   determines which rules are in force, independently of how [Lazy.v] stores or
   scans them. *)
From mathcomp Require Import all_ssreflect.
From Verif Require Import Lazy.
Set Implicit Arguments. Unset Strict Implicit. Unset Printing Implicit Defensive.

Section LazySpec.
Variables (I Obj : eqType) (addr : Obj -> I) (A : Type).
Notation mop := (mop I Obj A).
Notation vop := (vop I Obj A).

(* [r] is the first element of [l] satisfying [covers]. *)
Definition first_match (T : Type) (covers : T -> bool) (l : seq T) (r : T) : Prop :=
  exists l1 l2, [/\ l = l1 ++ r :: l2, ~~ has covers l1 & covers r].

(* Universal, left and right rules declared by a history, in order, each with the
   content that the caller's set had at the time of the declaration. *)
Fixpoint udecl (sets : nat -> pred I) (h : seq mop) : seq (urule I A) :=
  match h with
  | [::] => [::]
  | MAdd s b :: h' => URule (sets s) b :: udecl sets h'
  | MMutAdd s i :: h' => udecl (set_add sets s i) h'
  | MMutDel s i :: h' => udecl (set_del sets s i) h'
  | _ :: h' => udecl sets h'
  end.
Fixpoint ldecl (sets : nat -> pred I) (h : seq mop) : seq (srule I A) :=
  match h with
  | [::] => [::]
  | MAddL i s b :: h' => SRule i (sets s) b :: ldecl sets h'
  | MMutAdd s i :: h' => ldecl (set_add sets s i) h'
  | MMutDel s i :: h' => ldecl (set_del sets s i) h'
  | _ :: h' => ldecl sets h'
  end.
Fixpoint rdecl (sets : nat -> pred I) (h : seq mop) : seq (srule I A) :=
  match h with
  | [::] => [::]
  | MAddR i s b :: h' => SRule i (sets s) b :: rdecl sets h'
  | MMutAdd s i :: h' => rdecl (set_add sets s i) h'
  | MMutDel s i :: h' => rdecl (set_del sets s i) h'
  | _ :: h' => rdecl sets h'
  end.
Fixpoint vdecl (sets : nat -> pred I) (h : seq vop) : seq (vrule I A) :=
  match h with
  | [::] => [::]
  | VAdd s b :: h' => VRule (sets s) b :: vdecl sets h'
  | VMutAdd s i :: h' => vdecl (set_add sets s i) h'
  | VMutDel s i :: h' => vdecl (set_del sets s i) h'
  | _ :: h' => vdecl sets h'
  end.

(* Which rules speak about which element. *)
Definition ucovers (i j : I) (r : urule I A) := ur_dom r i && ur_dom r j.
Definition lcovers (i j : I) (r : srule I A) := (sr_idx r == i) && sr_dom r j.
Definition rcovers (i j : I) (r : srule I A) := (sr_idx r == j) && sr_dom r i.
Definition vcovers (i : I) (r : vrule I A) := vr_dom r i.

(* Outcome of running a builder. *)
Definition outcome (v : option A) (r : res A) : Prop :=
  match v with Some a => r = Ok a | None => r = Err A EBuilder end.

(* What the first read of element (i, j) must give. *)
Definition matrix_build us ls rs (i j : I) (r : res A) : Prop :=
     (exists2 u, first_match (ucovers i j) us u & outcome (ur_fun u i j) r)
  \/ ~~ has (ucovers i j) us /\
     (exists2 u, first_match (lcovers i j) ls u & outcome (sr_fun u j) r)
  \/ [/\ ~~ has (ucovers i j) us, ~~ has (lcovers i j) ls &
     (exists2 u, first_match (rcovers i j) rs u & outcome (sr_fun u i) r)]
  \/ [/\ ~~ has (ucovers i j) us, ~~ has (lcovers i j) ls, ~~ has (rcovers i j) rs &
     r = Err A ENoRule].

Definition vector_build us (i : I) (r : res A) : Prop :=
     (exists2 u, first_match (vcovers i) us u & outcome (vr_fun u i) r)
  \/ ~~ has (vcovers i) us /\ r = Err A ENoRule.

(* The history never assigned element [idx] and never read it successfully. *)
Definition m_untouched (w0 : mworld I A) (h : seq mop) (idx : seq I) : Prop :=
  forall h1 o h2, h = h1 ++ o :: h2 ->
    match o with
    | MSet k _ => resolve addr 2 k <> idx
    | MGet k => resolve addr 2 k = idx -> forall a, mread addr (mrun addr w0 h1) k <> Ok a
    | _ => True
    end.
Definition v_untouched (w0 : vworld I A) (h : seq vop) (idx : seq I) : Prop :=
  forall h1 o h2, h = h1 ++ o :: h2 ->
    match o with
    | VSet k _ => resolve addr 1 k <> idx
    | VGet k => resolve addr 1 k = idx -> forall a, vread addr (vrun addr w0 h1) k <> Ok a
    | _ => True
    end.

(* The history never assigns element [idx] (reads and rules are unrestricted). *)
Definition m_unassigned (h : seq mop) (idx : seq I) : bool :=
  all (fun o => if o is MSet k _ then resolve addr 2 k != idx else true) h.
Definition v_unassigned (h : seq vop) (idx : seq I) : bool :=
  all (fun o => if o is VSet k _ then resolve addr 1 k != idx else true) h.

(* Histories consisting only of reads and of mutations of the caller's sets. *)
Definition m_passive (o : mop) : bool :=
  match o with MGet _ | MMutAdd _ _ | MMutDel _ _ => true | _ => false end.
Definition v_passive (o : vop) : bool :=
  match o with VGet _ | VMutAdd _ _ | VMutDel _ _ => true | _ => false end.

End LazySpec.
