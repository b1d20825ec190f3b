(* Properties C01-C05: lazy vectors and matrices (stheno/lazy.py). *)
From mathcomp Require Import all_ssreflect.
From Verif Require Import Lazy LazySpec LazyProofs.
Set Implicit Arguments. Unset Strict Implicit. Unset Printing Implicit Defensive.

(* Concrete instance used by the examples: integer indices, objects are integers
   whose address is shifted by 100. *)
Notation NE := nat_eqType.
Definition ex_addr (o : NE) : NE := o + 100.
Definition ex_build (c : nat) (i j : nat) : option nat :=
  if i == 7 then None else Some (c + 10 * i + j).
Definition ex_sets (r : nat) : pred NE := fun i => if r == 0 then i < 3 else i < 5.
Definition ex_world : mworld NE nat := MWorld ex_sets (lmat_new NE nat).
Definition ex_hist : seq (mop NE NE nat) :=
  [:: MAddL NE 1 1 (fun j => Some (500 + j)); MAdd NE 0 (ex_build 1000); MMutAdd NE nat 0 4;
      MAdd NE 0 (ex_build 2000); MAddR NE 2 1 (fun i => Some (700 + i));
      MGet nat (KTup [:: AInt NE 1; AInt NE 2])].

(* C01: an element, once read, keeps its value until somebody assigns it. *)
Theorem C01_matrix_read_stable (I Obj : eqType) (addr : Obj -> I) (A : Type)
    (w : mworld I A) (k1 k2 : key I Obj) (a : A) (h : seq (mop I Obj A)) :
  mread addr w k1 = Ok a ->
  resolve addr 2 k2 = resolve addr 2 k1 ->
  m_unassigned addr h (resolve addr 2 k1) ->
  mread addr (mrun addr w (MGet A k1 :: h)) k2 = Ok a.
Proof. exact: m_read_stable. Qed.
Print Assumptions C01_matrix_read_stable.

Theorem C01_vector_read_stable (I Obj : eqType) (addr : Obj -> I) (A : Type)
    (w : vworld I A) (k1 k2 : key I Obj) (a : A) (h : seq (vop I Obj A)) :
  vread addr w k1 = Ok a ->
  resolve addr 1 k2 = resolve addr 1 k1 ->
  v_unassigned addr h (resolve addr 1 k1) ->
  vread addr (vrun addr w (VGet A k1 :: h)) k2 = Ok a.
Proof. exact: v_read_stable. Qed.
Print Assumptions C01_vector_read_stable.

(* The read comes from a rule; afterwards another rule for the same element and an
   assignment to another element are made. *)
Example C01_example :
  let w := mrun ex_addr ex_world ex_hist in
  let k := KTup [:: AInt NE 1; AInt NE 2] in
  let h := [:: MSet (KOne (AInt NE 1)) 5; MAdd NE 1 (ex_build 9)] in
  mread ex_addr w k = Ok 1012 /\ m_unassigned ex_addr h (resolve ex_addr 2 k).
Proof. by []. Qed.
Example C01_example_v :
  let w := vrun ex_addr (VWorld ex_sets (lvec_new NE nat))
             [:: VAdd NE 0 (fun i => Some (i + 1))] in
  let h := [:: VSet (KOne (AInt NE 1)) 5; VAdd NE 1 (fun i => Some i)] in
  vread ex_addr w (KOne (AInt NE 2)) = Ok 3 /\
  v_unassigned ex_addr h (resolve ex_addr 1 (KOne (AInt NE 2))).
Proof. by []. Qed.

(* C02: the first read of an element is the value of the first rule that covers it,
   universal before left before right, each in order of declaration; the exception of
   that builder propagates; with no covering rule the read fails; and a failed read
   changes nothing. *)
Theorem C02_matrix_first_read (I Obj : eqType) (addr : Obj -> I) (A : Type)
    (sets : nat -> pred I) (h : seq (mop I Obj A)) (k : key I Obj) (i j : I) :
  let w0 := MWorld sets (lmat_new I A) in
  resolve addr 2 k = [:: i; j] ->
  m_untouched addr w0 h [:: i; j] ->
  matrix_build (udecl sets h) (ldecl sets h) (rdecl sets h) i j
    (mread addr (mrun addr w0 h) k).
Proof. exact: m_first_read. Qed.
Print Assumptions C02_matrix_first_read.

Theorem C02_vector_first_read (I Obj : eqType) (addr : Obj -> I) (A : Type)
    (sets : nat -> pred I) (h : seq (vop I Obj A)) (k : key I Obj) (i : I) :
  let w0 := VWorld sets (lvec_new I A) in
  resolve addr 1 k = [:: i] ->
  v_untouched addr w0 h [:: i] ->
  vector_build (vdecl sets h) i (vread addr (vrun addr w0 h) k).
Proof. exact: v_first_read. Qed.
Print Assumptions C02_vector_first_read.

Theorem C02_matrix_failed_read (I Obj : eqType) (addr : Obj -> I) (A : Type)
    (w : mworld I A) (k : key I Obj) (e : exn) :
  mread addr w k = Err A e -> (mstep addr w (MGet A k)).1 = w.
Proof. exact: m_failed_read. Qed.
Print Assumptions C02_matrix_failed_read.

Theorem C02_vector_failed_read (I Obj : eqType) (addr : Obj -> I) (A : Type)
    (w : vworld I A) (k : key I Obj) (e : exn) :
  vread addr w k = Err A e -> (vstep addr w (VGet A k)).1 = w.
Proof. exact: v_failed_read. Qed.
Print Assumptions C02_vector_failed_read.

(* Element (1, 0) is covered by the left rule declared first and by both universal
   rules; the first universal rule wins.  (1, 3) is covered by the left rule only,
   (0, 2) by a right rule too, (7, 7) by nothing. *)
Example C02_example :
  let w := mrun ex_addr ex_world ex_hist in
  [/\ mread ex_addr w (KTup [:: AInt NE 1; AInt NE 0]) = Ok 1010,
      mread ex_addr w (KTup [:: AInt NE 1; AInt NE 3]) = Ok 503,
      mread ex_addr w (KTup [:: AInt NE 3; AInt NE 2]) = Ok 703,
      mread ex_addr w (KTup [:: AInt NE 4; AInt NE 4]) = Ok 2044 &
      mread ex_addr w (KTup [:: AInt NE 7; AInt NE 7]) = Err nat ENoRule].
Proof. by []. Qed.
Example C02_example_untouched : m_untouched ex_addr ex_world ex_hist [:: 1; 0].
Proof. by case=> [|? [|? [|? [|? [|? [|? [|? ?]]]]]]] o h2 // [] *; subst. Qed.
Example C02_example_raises :
  mread ex_addr (mrun ex_addr (MWorld (fun _ _ => true) (lmat_new NE nat)) ex_hist)
    (KTup [:: AInt NE 7; AInt NE 7]) = Err nat EBuilder.
Proof. by []. Qed.

(* C03 and C04: mutating the sets that were passed to [add_rule] (and reading other
   elements, in any order, successfully or not) never changes what a read returns.
   That the domain used is the content at declaration time is part of C02, through
   [udecl], [ldecl] and [rdecl]. *)
Theorem C03_C04_matrix_passive (I Obj : eqType) (addr : Obj -> I) (A : Type)
    (w : mworld I A) (h : seq (mop I Obj A)) (k : key I Obj) :
  all (@m_passive I Obj A) h -> mread addr (mrun addr w h) k = mread addr w k.
Proof. exact: m_passive_read. Qed.
Print Assumptions C03_C04_matrix_passive.

Theorem C03_C04_vector_passive (I Obj : eqType) (addr : Obj -> I) (A : Type)
    (w : vworld I A) (h : seq (vop I Obj A)) (k : key I Obj) :
  all (@v_passive I Obj A) h -> vread addr (vrun addr w h) k = vread addr w k.
Proof. exact: v_passive_read. Qed.
Print Assumptions C03_C04_vector_passive.

(* The set of the only universal rule grows to contain 4 after the declaration. *)
Example C03_example :
  let w := mrun ex_addr ex_world [:: MAdd NE 0 (ex_build 1000)] in
  let h := [:: MMutAdd NE nat 0 4; MGet nat (KOne (AInt NE 2))] in
  [/\ all (@m_passive NE NE nat) h,
      mread ex_addr (mrun ex_addr w h) (KOne (AInt NE 4)) = Err nat ENoRule &
      mread ex_addr (mrun ex_addr w h) (KOne (AInt NE 2)) = Ok 1022].
Proof. by []. Qed.

(* C05: a bare index means the diagonal; an assignment affects exactly its element;
   and two pairs of objects name the same element only if they are the same objects. *)
Theorem C05_diagonal_read (I Obj : eqType) (addr : Obj -> I) (A : Type)
    (w : mworld I A) (a : atom I Obj) (v : A) :
  mread addr w (KOne a) = mread addr w (KTup [:: a; a]) /\
  mstep addr w (MSet (KOne a) v) = mstep addr w (MSet (KTup [:: a; a]) v).
Proof. exact: conj (m_diag_read addr w a) (m_diag_step addr w a v). Qed.
Print Assumptions C05_diagonal_read.

Theorem C05_matrix_set_read (I Obj : eqType) (addr : Obj -> I) (A : Type)
    (w : mworld I A) (k k' : key I Obj) (v : A) :
  mread addr (mstep addr w (MSet k v)).1 k' =
  if resolve addr 2 k' == resolve addr 2 k then Ok v else mread addr w k'.
Proof. exact: m_set_read. Qed.
Print Assumptions C05_matrix_set_read.

Theorem C05_vector_set_read (I Obj : eqType) (addr : Obj -> I) (A : Type)
    (w : vworld I A) (k k' : key I Obj) (v : A) :
  vread addr (vstep addr w (VSet k v)).1 k' =
  if resolve addr 1 k' == resolve addr 1 k then Ok v else vread addr w k'.
Proof. exact: v_set_read. Qed.
Print Assumptions C05_vector_set_read.

Theorem C05_identity_indexing (I Obj : eqType) (addr : Obj -> I) (A : Type)
    (w : mworld I A) (o1 o2 p1 p2 : Obj) (v : A) :
  injective addr ->
  mread addr (mstep addr w (MSet (KTup [:: AObj I o1; AObj I o2]) v)).1
    (KTup [:: AObj I p1; AObj I p2]) =
  if (p1 == o1) && (p2 == o2) then Ok v else mread addr w (KTup [:: AObj I p1; AObj I p2]).
Proof. exact: m_set_objects. Qed.
Print Assumptions C05_identity_indexing.

Example C05_example : injective ex_addr /\
  let w := (mstep ex_addr ex_world (MSet (KOne (AObj NE 3)) 8)).1 in
  mread ex_addr w (KTup [:: AInt NE 103; AObj NE 3]) = Ok 8 /\
  mread ex_addr w (KTup [:: AObj NE 3; AObj NE 4]) = Err nat ENoRule.
Proof. by split=> // x y /addIn. Qed.
