(* Containers for chemical potential fields (WFieldsTmpl, used for w and h)
   and for the mask (MaskTmpl).

   Modelled: src/prdc/field/WFieldsTmpl.tpp, src/prdc/field/MaskTmpl.tpp,
   member by member, as state transformers whose result keeps the state in
   which an exception left the object.

   Simplifications: a field component is a list of elements of an arbitrary
   type A; mesh dimensions are represented by the mesh size; the conversions
   of FieldIo between basis components and grid values are two arbitrary
   functions toR, toB on component lists (their numerical content is the
   subject of other files); newly allocated memory holds an arbitrary value
   junk; signal().notify() is recorded by a counter (the observers are added
   in System.v). *)
From Coq Require Import List Arith Bool Lia.
Import ListNotations.
Set Implicit Arguments.

(* Outcome of a member function acting on a state: normal return, or an
   exception (UTIL_CHECK / UTIL_THROW) with the state as it was left, or
   undefined behaviour. *)
Inductive res (S : Type) : Type :=
| Done (s : S)
| Raise (s : S)
| Undef.
Arguments Undef {S}.

Definition andThen {S} (r : res S) (f : S -> res S) : res S :=
  match r with Done s => f s | Raise s => Raise s | Undef => Undef end.

Notation "r >>> f" := (andThen r f) (at level 61, left associativity).

(* UTIL_CHECK(b) *)
Definition chk {S} (b : bool) (s : S) : res S := if b then Done s else Raise s.

(* Assignment to one element of an array. *)
Fixpoint setNth {X} (i : nat) (x : X) (l : list X) : list X :=
  match l, i with
  | [], _ => []
  | _ :: t, O => x :: t
  | h :: t, S j => h :: setNth j x t
  end.

Section Store.

Variable A : Type.
Variable junk : A.
Variables toR toB : list A -> list A.

(* Data members of WFieldsTmpl (WFieldsTmpl.h, private members) that take
   part in the functions below.  sNote counts signal notifications. *)
Record store : Type := mkStore {
  sNMon : nat;
  sMeshSize : nat;
  sNBasis : nat;
  sRGrid : list (list A);
  sBasis : list (list A);
  sAllocR : bool;
  sAllocB : bool;
  sHasData : bool;
  sIsSym : bool;
  sNote : nat
}.

(* WFieldsTmpl.tpp:29-47 (constructor). *)
Definition newStore : store := mkStore 0 0 0 [] [] false false false false 0.

Definition withNMon (n : nat) (s : store) : store :=
  mkStore n (sMeshSize s) (sNBasis s) (sRGrid s) (sBasis s) (sAllocR s)
          (sAllocB s) (sHasData s) (sIsSym s) (sNote s).

Definition withRGrid (r : list (list A)) (s : store) : store :=
  mkStore (sNMon s) (sMeshSize s) (sNBasis s) r (sBasis s) (sAllocR s)
          (sAllocB s) (sHasData s) (sIsSym s) (sNote s).

Definition withBasis (b : list (list A)) (s : store) : store :=
  mkStore (sNMon s) (sMeshSize s) (sNBasis s) (sRGrid s) b (sAllocR s)
          (sAllocB s) (sHasData s) (sIsSym s) (sNote s).

(* The two flag assignments and signal().notify() that end every mutator,
   e.g. WFieldsTmpl.tpp:196-201. *)
Definition finish (sym : bool) (s : store) : res store :=
  Done (mkStore (sNMon s) (sMeshSize s) (sNBasis s) (sRGrid s) (sBasis s)
                (sAllocR s) (sAllocB s) true sym (S (sNote s))).

(* What a container sees of the FieldIo it is associated with: the size of
   the mesh and, once the basis has been constructed, the number of basis
   functions. *)
Record fctx : Type := mkCtx { cMesh : nat; cBasis : option nat }.

(* WFieldsTmpl::setNMonomer, WFieldsTmpl.tpp:89-95 *)
Definition setNMonomer (n : nat) (s : store) : res store :=
  chk (sNMon s =? 0) s >>> chk (0 <? n) >>> fun s => Done (withNMon n s).

(* WFieldsTmpl::allocateRGrid, WFieldsTmpl.tpp:100-123.  The dimensions are
   replaced by their product, so that the test of every dimension becomes a
   test of the product. *)
Definition allocateRGrid (mesh : nat) (s : store) : res store :=
  chk (0 <? sNMon s) s >>>
  chk (negb (sHasData s)) >>>
  chk (negb (sAllocR s)) >>>
  chk (0 <? mesh) >>> fun s =>
  Done (mkStore (sNMon s) mesh (sNBasis s)
                (repeat (repeat junk mesh) (sNMon s)) (sBasis s)
                true (sAllocB s) (sHasData s) (sIsSym s) (sNote s)).

(* WFieldsTmpl::allocateBasis, WFieldsTmpl.tpp:128-142 *)
Definition allocateBasis (nb : nat) (s : store) : res store :=
  chk (0 <? sNMon s) s >>>
  chk (0 <? nb) >>>
  chk (negb (sAllocB s)) >>>
  chk (negb (sHasData s)) >>> fun s =>
  Done (mkStore (sNMon s) (sMeshSize s) nb
                (sRGrid s) (repeat (repeat junk nb) (sNMon s))
                (sAllocR s) true (sHasData s) (sIsSym s) (sNote s)).

(* "Allocate fields if needed": WFieldsTmpl.tpp:169-173, 213-217 *)
Definition ensureR (c : fctx) (s : store) : res store :=
  if sAllocR s then Done s
  else chk (0 <? cMesh c) s >>> allocateRGrid (cMesh c).

(* WFieldsTmpl.tpp:174-178, 229-233 *)
Definition ensureB (c : fctx) (s : store) : res store :=
  if sAllocB s then Done s
  else match cBasis c with
       | None => Raise s
       | Some nb => allocateBasis nb s
       end.

(* Loop over monomer types of setBasis, WFieldsTmpl.tpp:184-192: each
   component is checked and copied before the next one is checked. *)
Fixpoint copyBasis (i : nat) (fs : list (list A)) (s : store) : res store :=
  match fs with
  | [] => Done s
  | f :: fs' =>
      chk (length f =? sNBasis s) s >>> fun s =>
      copyBasis (S i) fs' (withBasis (setNth i f (sBasis s)) s)
  end.

(* Loop over monomer types of setRGrid, WFieldsTmpl.tpp:221-225 *)
Fixpoint copyRGrid (i : nat) (fs : list (list A)) (s : store) : res store :=
  match fs with
  | [] => Done s
  | f :: fs' =>
      chk (length f =? sMeshSize s) s >>> fun s =>
      copyRGrid (S i) fs' (withRGrid (setNth i f (sRGrid s)) s)
  end.

(* fieldIo().convertBasisToRGrid(basis_, rgrid_), WFieldsTmpl.tpp:195;
   FieldIoTmpl checks that both arrays are allocated with equal sizes. *)
Definition convertToR (s : store) : res store :=
  chk (sAllocR s && sAllocB s) s >>> fun s =>
  Done (withRGrid (map toR (sBasis s)) s).

(* fieldIo().convertRGridToBasis(rgrid_, basis_), WFieldsTmpl.tpp:234; a
   field without the symmetry of the group only causes a warning. *)
Definition convertToB (s : store) : res store :=
  chk (sAllocR s && sAllocB s) s >>> fun s =>
  Done (withBasis (map toB (sRGrid s)) s).

(* WFieldsTmpl::setBasis, WFieldsTmpl.tpp:163-202 *)
Definition setBasis (c : fctx) (fs : list (list A)) (s : store) : res store :=
  chk (length fs =? sNMon s) s >>>
  ensureR c >>>
  ensureB c >>>
  copyBasis 0 fs >>>
  convertToR >>>
  finish true.

(* WFieldsTmpl::setRGrid, WFieldsTmpl.tpp:207-242 *)
Definition setRGrid (c : fctx) (fs : list (list A)) (sym : bool) (s : store)
  : res store :=
  ensureR c s >>> fun s =>
  chk (length fs =? sNMon s) s >>>
  copyRGrid 0 fs >>> fun s =>
  (if sym then ensureB c s >>> convertToB else Done s) >>>
  finish sym.

(* The body of a field file, after its header: number of fields and group
   flag given by the header, the component arrays obtained by reading the
   data section, and whether the data section was well formed.  For a
   malformed section the arrays are whatever was stored before the error. *)
Record ffile : Type := mkFile {
  fNMon : nat; fSym : bool; fData : list (list A); fOk : bool }.

(* Are all components of a list of fields of the given shape? *)
Definition shape (n m : nat) (fs : list (list A)) : bool :=
  (length fs =? n) && forallb (fun f => length f =? m) fs.

(* Prdc::readBasisData, called at WFieldsTmpl.tpp:285-286 *)
Definition readDataB (f : ffile) (s : store) : res store :=
  let s' := withBasis (fData f) s in
  if fOk f && shape (sNMon s) (sNBasis s) (fData f) then Done s' else Raise s'.

(* Data part of FieldIo::readFieldsRGrid, called at WFieldsTmpl.tpp:343 *)
Definition readDataR (f : ffile) (s : store) : res store :=
  let s' := withRGrid (fData f) s in
  if fOk f && shape (sNMon s) (sMeshSize s) (fData f) then Done s' else Raise s'.

(* WFieldsTmpl::readBasis, WFieldsTmpl.tpp:250-296, from the point at which
   the header has been read (c is the context after the header, in which
   the basis has been constructed if there is a space group). *)
Definition readBasis (c : fctx) (f : ffile) (s : store) : res store :=
  chk (0 <? sNMon s) s >>>
  chk (fNMon f =? sNMon s) >>>
  chk (fSym f) >>>
  chk (0 <? cMesh c) >>>
  chk (match cBasis c with Some _ => true | None => false end) >>>
  ensureR c >>>
  ensureB c >>>
  readDataB f >>>
  convertToR >>>
  finish true.

(* WFieldsTmpl::readRGrid, WFieldsTmpl.tpp:324-357.  Allocation precedes the
   header; the header check of the number of fields is done by
   readFieldsRGrid. *)
Definition readRGrid (c : fctx) (f : ffile) (sym : bool) (s : store)
  : res store :=
  chk (0 <? sNMon s) s >>>
  ensureR c >>> fun s =>
  chk (fNMon f =? sNMon s) s >>>
  readDataR f >>> fun s =>
  (if sym
   then chk (match cBasis c with Some _ => true | None => false end) s >>>
        ensureB c >>> convertToB
   else Done s) >>>
  finish sym.

(* WFieldsTmpl::symmetrize, WFieldsTmpl.tpp:376-386 *)
Definition symmetrize (s : store) : res store :=
  chk (sHasData s) s >>>
  convertToB >>>
  convertToR >>> fun s =>
  Done (mkStore (sNMon s) (sMeshSize s) (sNBasis s) (sRGrid s) (sBasis s)
                (sAllocR s) (sAllocB s) (sHasData s) true (S (sNote s))).

(* ------------------------------------------------------------------ *)
(* MaskTmpl: one field; the allocation functions do not look at hasData_.
   The record store is reused with sNMon = 1. *)

(* MaskTmpl.tpp:27-44 (constructor) *)
Definition newMask : store := mkStore 1 0 0 [] [] false false false false 0.

(* MaskTmpl::allocateBasis, MaskTmpl.tpp:86-97 *)
Definition mAllocateBasis (nb : nat) (s : store) : res store :=
  chk (negb (sAllocB s)) s >>> fun s =>
  Done (mkStore (sNMon s) (sMeshSize s) nb (sRGrid s) [repeat junk nb]
                (sAllocR s) true (sHasData s) (sIsSym s) (sNote s)).

(* MaskTmpl::allocateRGrid, MaskTmpl.tpp:102-119 *)
Definition mAllocateRGrid (mesh : nat) (s : store) : res store :=
  chk (negb (sAllocR s)) s >>>
  chk (0 <? mesh) >>> fun s =>
  Done (mkStore (sNMon s) mesh (sNBasis s) [repeat junk mesh] (sBasis s)
                true (sAllocB s) (sHasData s) (sIsSym s) (sNote s)).

Definition mEnsureR (c : fctx) (s : store) : res store :=
  if sAllocR s then Done s
  else chk (0 <? cMesh c) s >>> mAllocateRGrid (cMesh c).

Definition mEnsureB (c : fctx) (s : store) : res store :=
  if sAllocB s then Done s
  else match cBasis c with
       | None => Raise s
       | Some nb => mAllocateBasis nb s
       end.

(* MaskTmpl::setBasis, MaskTmpl.tpp:124-155 *)
Definition mSetBasis (c : fctx) (f : list A) (s : store) : res store :=
  mEnsureR c s >>>
  mEnsureB c >>> fun s =>
  chk (length f =? sNBasis s) s >>> fun s =>
  convertToR (withBasis [f] s) >>>
  finish true.

(* MaskTmpl::setRGrid, MaskTmpl.tpp:160-190.  The assignment operator of
   RField checks the capacity of an allocated field. *)
Definition mSetRGrid (c : fctx) (f : list A) (sym : bool) (s : store)
  : res store :=
  mEnsureR c s >>> fun s =>
  chk (length f =? sMeshSize s) s >>> fun s =>
  (let s := withRGrid [f] s in
   if sym then mEnsureB c s >>> convertToB else Done s) >>>
  finish sym.

(* MaskTmpl::readBasis, MaskTmpl.tpp:198-243, after the header *)
Definition mReadBasis (c : fctx) (f : ffile) (s : store) : res store :=
  chk (fNMon f =? 1) s >>>
  chk (fSym f) >>>
  chk (match cBasis c with Some _ => true | None => false end) >>>
  chk (0 <? cMesh c) >>>
  mEnsureR c >>>
  mEnsureB c >>>
  readDataB f >>>
  convertToR >>>
  finish true.

(* MaskTmpl::readRGrid, MaskTmpl.tpp:265-298 *)
Definition mReadRGrid (c : fctx) (f : ffile) (sym : bool) (s : store)
  : res store :=
  mEnsureR c s >>> fun s =>
  chk (fNMon f =? 1) s >>>
  readDataR f >>> fun s =>
  (if sym then mEnsureB c s >>> convertToB else Done s) >>>
  finish sym.

(* ------------------------------------------------------------------ *)
(* A field-setting call on a w container. *)
Inductive call : Type :=
| CSetBasis (fs : list (list A))
| CSetRGrid (fs : list (list A)) (sym : bool)
| CReadBasis (f : ffile)
| CReadRGrid (f : ffile) (sym : bool).

Definition runCall (c : fctx) (k : call) (s : store) : res store :=
  match k with
  | CSetBasis fs => setBasis c fs s
  | CSetRGrid fs sym => setRGrid c fs sym s
  | CReadBasis f => readBasis c f s
  | CReadRGrid f sym => readRGrid c f sym s
  end.

(* A sequence of calls; stops at the first call that does not return
   normally, as an uncaught exception does. *)
Fixpoint runCalls (c : fctx) (ks : list call) (s : store) : res store :=
  match ks with
  | [] => Done s
  | k :: ks' => runCall c k s >>> runCalls c ks'
  end.

(* A field-setting call on the mask. *)
Definition runMaskCall (c : fctx) (k : call) (s : store) : res store :=
  match k with
  | CSetBasis fs => mSetBasis c (nth 0 fs []) s
  | CSetRGrid fs sym => mSetRGrid c (nth 0 fs []) sym s
  | CReadBasis f => mReadBasis c f s
  | CReadRGrid f sym => mReadRGrid c f sym s
  end.

Fixpoint runMaskCalls (c : fctx) (ks : list call) (s : store) : res store :=
  match ks with
  | [] => Done s
  | k :: ks' => runMaskCall c k s >>> runMaskCalls c ks'
  end.

End Store.
