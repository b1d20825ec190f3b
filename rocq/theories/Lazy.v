(* Model of /repo/stheno/lazy.py (whole file).

   Simplifications, also recorded in DESIGN.md:
   - builders are pure functions that may raise ([None]); builders that read
     other lazy containers are modelled, defunctionalised, in Machine.v;
   - [id] is an injective map from objects to integers ([addr] below); Python
     guarantees this for simultaneously live objects, and every object used as an
     index is kept alive by the measure it belongs to;
   - keys that are [reversed] iterators (lazy.py:23) are not modelled. *)
From mathcomp Require Import all_ssreflect.
Set Implicit Arguments. Unset Strict Implicit. Unset Printing Implicit Defensive.

Section Lazy.
Variables (I Obj : eqType) (addr : Obj -> I) (A : Type).

(* A component of a key: an [int] or any other object (lazy.py:12-19). *)
Inductive atom := AInt of I | AObj of Obj.

(* A key: a bare component or a tuple of components (lazy.py:22-24,38-45). *)
Inductive key := KOne of atom | KTup of seq atom.

(* [_resolve_index] on a component, lazy.py:12-19. *)
Definition resolve_atom (a : atom) : I :=
  match a with AInt i => i | AObj o => addr o end.

(* [LazyTensor._expand_key], lazy.py:38-45. *)
Definition expand_key (rank : nat) (k : key) : seq atom :=
  match k with KTup l => l | KOne a => nseq rank a end.

(* [_resolve_index] on a tuple after expansion, lazy.py:22-24 and 47-51. *)
Definition resolve (rank : nat) (k : key) : seq I :=
  map resolve_atom (expand_key rank k).

(* Result of a read: a value or an exception. *)
Inductive exn := ENoRule | EBuilder | EArity.
Inductive res := Ok of A | Err of exn.

(* A call of a builder; [None] means that the builder raised. *)
Definition call (v : option A) : res :=
  if v is Some a then Ok a else Err EBuilder.

(* Dictionary update, [self._store[i] = value], lazy.py:54 and 64. *)
Definition upd (st : seq I -> option A) (i : seq I) (a : A) : seq I -> option A :=
  fun j => if j == i then Some a else st j.

(* A universal rule of a vector: [(frozenset(indices), builder)], lazy.py:90. *)
Record vrule := VRule { vr_dom : pred I; vr_fun : I -> option A }.

(* [LazyVector], lazy.py:34-36 and 75-77. *)
Record lvec := LVec { v_store : seq I -> option A; v_rules : seq vrule }.

Definition lvec_new : lvec := LVec (fun _ => None) [::].

(* [LazyVector._build], lazy.py:92-97: the [for] loop over [self._rules]. *)
Fixpoint vscan (rs : seq vrule) (i : I) : res :=
  match rs with
  | [::] => Err ENoRule
  | r :: rs' => if vr_dom r i then call (vr_fun r i) else vscan rs' i
  end.

Definition vbuild (v : lvec) (idx : seq I) : res :=
  match idx with [::] => Err EArity | i :: _ => vscan (v_rules v) i end.

(* [LazyTensor._get] for vectors, lazy.py:56-65. *)
Definition vget (v : lvec) (idx : seq I) : lvec * res :=
  match v_store v idx with
  | Some a => (v, Ok a)
  | None =>
    match vbuild v idx with
    | Ok a => (LVec (upd (v_store v) idx a) (v_rules v), Ok a)
    | Err e => (v, Err e)
    end
  end.

(* [LazyTensor._set], lazy.py:53-54. *)
Definition vset (v : lvec) (idx : seq I) (a : A) : lvec :=
  LVec (upd (v_store v) idx a) (v_rules v).

(* [LazyVector.add_rule], lazy.py:79-90. *)
Definition vadd (v : lvec) (dom : pred I) (b : I -> option A) : lvec :=
  LVec (v_store v) (rcons (v_rules v) (VRule dom b)).

(* Rules of a matrix, lazy.py:120, 134, 148. *)
Record urule := URule { ur_dom : pred I; ur_fun : I -> I -> option A }.
Record srule := SRule { sr_idx : I; sr_dom : pred I; sr_fun : I -> option A }.

(* [LazyMatrix], lazy.py:34-36 and 103-107. *)
Record lmat := LMat {
  m_store : seq I -> option A;
  m_rules : seq urule;
  m_left : seq srule;
  m_right : seq srule }.

Definition lmat_new : lmat := LMat (fun _ => None) [::] [::] [::].

(* The three loops of [LazyMatrix._build], lazy.py:153-166.  A loop that falls
   through continues with [k]. *)
Fixpoint uscan (rs : seq urule) (i j : I) (k : res) : res :=
  match rs with
  | [::] => k
  | r :: rs' =>
    if ur_dom r i && ur_dom r j then call (ur_fun r i j) else uscan rs' i j k
  end.

Fixpoint lscan (rs : seq srule) (i j : I) (k : res) : res :=
  match rs with
  | [::] => k
  | r :: rs' =>
    if (i == sr_idx r) && sr_dom r j then call (sr_fun r j) else lscan rs' i j k
  end.

Fixpoint rscan (rs : seq srule) (i j : I) (k : res) : res :=
  match rs with
  | [::] => k
  | r :: rs' =>
    if sr_dom r i && (j == sr_idx r) then call (sr_fun r i) else rscan rs' i j k
  end.

(* [LazyMatrix._build], lazy.py:150-168. *)
Definition mbuild (m : lmat) (idx : seq I) : res :=
  match idx with
  | [:: i; j] =>
    uscan (m_rules m) i j (lscan (m_left m) i j (rscan (m_right m) i j (Err ENoRule)))
  | _ => Err EArity
  end.

(* [LazyTensor._get] for matrices, lazy.py:56-65. *)
Definition mget (m : lmat) (idx : seq I) : lmat * res :=
  match m_store m idx with
  | Some a => (m, Ok a)
  | None =>
    match mbuild m idx with
    | Ok a => (LMat (upd (m_store m) idx a) (m_rules m) (m_left m) (m_right m), Ok a)
    | Err e => (m, Err e)
    end
  end.

(* [LazyTensor._set], lazy.py:53-54. *)
Definition mset (m : lmat) (idx : seq I) (a : A) : lmat :=
  LMat (upd (m_store m) idx a) (m_rules m) (m_left m) (m_right m).

(* [LazyMatrix.add_rule], [add_left_rule], [add_right_rule], lazy.py:109-148. *)
Definition madd (m : lmat) dom b : lmat :=
  LMat (m_store m) (rcons (m_rules m) (URule dom b)) (m_left m) (m_right m).
Definition madd_left (m : lmat) i dom b : lmat :=
  LMat (m_store m) (m_rules m) (rcons (m_left m) (SRule i dom b)) (m_right m).
Definition madd_right (m : lmat) i dom b : lmat :=
  LMat (m_store m) (m_rules m) (m_left m) (rcons (m_right m) (SRule i dom b)).

(* The caller's index sets are mutable Python [set]s; a call [add_rule(s, b)]
   passes a reference [s] and the container stores [frozenset(s)]
   (lazy.py:90,120,134,148).  [world] is a container together with the caller's
   sets, indexed by reference. *)
Record vworld := VWorld { vw_sets : nat -> pred I; vw_obj : lvec }.
Record mworld := MWorld { mw_sets : nat -> pred I; mw_obj : lmat }.

Definition set_add (s : nat -> pred I) (r : nat) (i : I) : nat -> pred I :=
  fun r' => if r' == r then (fun j => (j == i) || s r j) else s r'.
Definition set_del (s : nat -> pred I) (r : nat) (i : I) : nat -> pred I :=
  fun r' => if r' == r then (fun j => (j != i) && s r j) else s r'.

Inductive vop :=
| VSet of key & A                       (* v[key] = value, lazy.py:47-48 *)
| VGet of key                           (* v[key], lazy.py:50-51 *)
| VAdd of nat & (I -> option A)         (* v.add_rule(set, builder) *)
| VMutAdd of nat & I                    (* set.add(i) by the caller *)
| VMutDel of nat & I.                   (* set.discard(i) by the caller *)

Inductive mop :=
| MSet of key & A
| MGet of key
| MAdd of nat & (I -> I -> option A)
| MAddL of I & nat & (I -> option A)
| MAddR of I & nat & (I -> option A)
| MMutAdd of nat & I
| MMutDel of nat & I.

Definition vstep (w : vworld) (o : vop) : vworld * option res :=
  match o with
  | VSet k a => (VWorld (vw_sets w) (vset (vw_obj w) (resolve 1 k) a), None)
  | VGet k =>
    let: (v, r) := vget (vw_obj w) (resolve 1 k) in (VWorld (vw_sets w) v, Some r)
  | VAdd s b => (VWorld (vw_sets w) (vadd (vw_obj w) (vw_sets w s) b), None)
  | VMutAdd s i => (VWorld (set_add (vw_sets w) s i) (vw_obj w), None)
  | VMutDel s i => (VWorld (set_del (vw_sets w) s i) (vw_obj w), None)
  end.

Definition mstep (w : mworld) (o : mop) : mworld * option res :=
  match o with
  | MSet k a => (MWorld (mw_sets w) (mset (mw_obj w) (resolve 2 k) a), None)
  | MGet k =>
    let: (m, r) := mget (mw_obj w) (resolve 2 k) in (MWorld (mw_sets w) m, Some r)
  | MAdd s b => (MWorld (mw_sets w) (madd (mw_obj w) (mw_sets w s) b), None)
  | MAddL i s b => (MWorld (mw_sets w) (madd_left (mw_obj w) i (mw_sets w s) b), None)
  | MAddR i s b => (MWorld (mw_sets w) (madd_right (mw_obj w) i (mw_sets w s) b), None)
  | MMutAdd s i => (MWorld (set_add (mw_sets w) s i) (mw_obj w), None)
  | MMutDel s i => (MWorld (set_del (mw_sets w) s i) (mw_obj w), None)
  end.

Definition vrun (w : vworld) (os : seq vop) : vworld :=
  foldl (fun w o => (vstep w o).1) w os.
Definition mrun (w : mworld) (os : seq mop) : mworld :=
  foldl (fun w o => (mstep w o).1) w os.

(* What a read returns in a given state. *)
Definition vread (w : vworld) (k : key) : res := (vget (vw_obj w) (resolve 1 k)).2.
Definition mread (w : mworld) (k : key) : res := (mget (mw_obj w) (resolve 2 k)).2.

End Lazy.
