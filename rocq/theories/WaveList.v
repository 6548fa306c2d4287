(** Model of src/prdc/cpu/WaveList.{h,tpp} with isRealField_ = true, and of
    src/prdc/crystal/hasVariableAngle.cpp.  Wavevectors are indexed by their rank
    in the k-grid; integer vectors are functions of the component.  The unit cell
    object is the argument [c] of each function; the contents of an array before
    it is first written are whatever the initial state contains. *)
From Coq Require Import Reals List Arith ZArith Bool.
From Verif Require Import Base RSum UnitCell ShiftMin Mesh Fft.
Import ListNotations.
Local Open Scope Z_scope.

(** hasVariableAngle.cpp 13-42. *)
Definition hasVariableAngle (l : lattice) : bool :=
  match l with
  | Oblique | Rhombic | Monoclinic | Triclinic | Rhombohedral => true
  | _ => false
  end.

(** WaveList.h 186-246: the members that change; unitCellPtr_ and meshPtr_ are
    null exactly when [wPtr] is false. *)
Record wavelist := mkWaveList {
  wPtr : bool;
  wAlloc : bool;                    (* isAllocated_ *)
  wHasMin : bool;                   (* hasMinImages_ *)
  wHasK : bool;                     (* hasKSq_ *)
  wHasDK : bool;                    (* hasdKSq_ *)
  wDims : list Z;                   (* mesh().dimensions() *)
  wMin : nat -> nat -> Z;           (* minImages_ *)
  wK : nat -> R;                    (* kSq_ *)
  wDK : nat -> nat -> R             (* dKSq_[i][rank] *)
}.

(** WaveList.tpp 29-37: constructor; array contents are arguments. *)
Definition newWaveList (m : nat -> nat -> Z) (k : nat -> R) (dk : nat -> nat -> R) : wavelist :=
  mkWaveList false false false false false [] m k dk.

(** WaveList.tpp 102-110: clearUnitCellData.  Dereferencing the null pointer is
    undefined; hasVariableAngle checks the lattice for D = 2, 3. *)
Definition clearUnitCellData (w : wavelist) (c : ucell) : outcome wavelist :=
  if wPtr w then
    match uLat c with
    | None => if (uD c =? 1)%nat then Ok (mkWaveList true (wAlloc w) (wHasMin w) false false (wDims w) (wMin w) (wK w) (wDK w)) else Throw
    | Some l => Ok (mkWaveList true (wAlloc w) (if hasVariableAngle l then false else wHasMin w) false false
                      (wDims w) (wMin w) (wK w) (wDK w))
    end
  else UB.

(** WaveList.tpp 49-97: allocate.  m.size() is the product of the dimensions. *)
Definition allocate (w : wavelist) (dims : list Z) (c : ucell) : outcome wavelist :=
  check (0 <? gridSize dims) ;;
  check (0 <? uN c)%nat ;;
  check (negb (wAlloc w)) ;;
  w1 <- clearUnitCellData (mkWaveList true (wAlloc w) (wHasMin w) (wHasK w) (wHasDK w) dims (wMin w) (wK w) (wDK w)) c ;;
  Ok (mkWaveList true true (wHasMin w1) (wHasK w1) (wHasDK w1) (wDims w1) (wMin w1) (wK w1) (wDK w1)).

(** The preconditions of 121-124, 155-158, 185-188; lattice() != Null. *)
Definition cellOk (c : ucell) : bool := match uLat c with Some _ => uInit c | None => false end.

(** A position as an integer vector, and back. *)
Definition vecOf (p : list Z) (i : nat) : Z := nth i p 0.
(** WaveList.tpp 130: the minimum image of the k-grid point of a rank. *)
Definition minImageOf (dims : list Z) (c : ucell) (m : nat) : nat -> Z :=
  shiftToMinimum (uD c) (vecOf (gridPos (computeKMesh dims) m)) (vecOf dims) (uK c).

(** Writing the elements with rank below n of an array. *)
Definition fillTo {A} (n : nat) (f old : nat -> A) (m : nat) : A := if (m <? n)%nat then f m else old m.

(** WaveList.tpp 115-137. *)
Definition computeMinimumImages (w : wavelist) (c : ucell) : outcome wavelist :=
  if wHasMin w then Ok w else
  check (wAlloc w) ;;
  check (cellOk c) ;;
  let n := nK (wDims w) in
  let mi := fillTo n (minImageOf (wDims w) c) (wMin w) in
  Ok (mkWaveList (wPtr w) (wAlloc w) true true (wHasDK w) (wDims w) mi
        (fillTo n (fun m => ksq (uD c) (uK c) (mi m)) (wK w)) (wDK w)).

(** WaveList.tpp 142-169. *)
Definition computeKSq (w : wavelist) (c : ucell) : outcome wavelist :=
  if wHasK w then Ok w else
  if negb (wHasMin w) then computeMinimumImages w c else
  check (wAlloc w) ;;
  check (0 <? uN c)%nat ;;
  check (cellOk c) ;;
  Ok (mkWaveList (wPtr w) (wAlloc w) (wHasMin w) true (wHasDK w) (wDims w) (wMin w)
        (fillTo (nK (wDims w)) (fun m => ksq (uD c) (uK c) (wMin w m)) (wK w)) (wDK w)).

(** WaveList.tpp 174-206; implicitInverse_ of 79-92. *)
Definition computedKSq (w : wavelist) (c : ucell) : outcome wavelist :=
  if wHasDK w then Ok w else
  w1 <- (if negb (wHasMin w) then computeMinimumImages w c else Ok w) ;;
  check (wAlloc w1) ;;
  check (0 <? uN c)%nat ;;
  check (cellOk c) ;;
  Ok (mkWaveList (wPtr w1) (wAlloc w1) (wHasMin w1) (wHasK w1) true (wDims w1) (wMin w1) (wK w1)
        (fun i => if (i <? uN c)%nat
           then fillTo (nK (wDims w1)) (fun m => let d := dksq (uD c) (uDkk c) (wMin w1 m) i in
                  if hasImplicitInverse (gridPos (computeKMesh (wDims w1)) m) (wDims w1) then (d * 2)%R else d) (wDK w1 i)
           else wDK w1 i)).

(** WaveList.h 250-283: accessors. *)
Definition getKSq (w : wavelist) : outcome (nat -> R) := check (wHasK w) ;; Ok (wK w).
Definition getdKSq (w : wavelist) : outcome (nat -> nat -> R) := check (wHasDK w) ;; Ok (wDK w).
Definition getMinImages (w : wavelist) : outcome (nat -> nat -> Z) := check (wHasMin w) ;; Ok (wMin w).

(** Use by a system: the unit cell notifies the wave list of each change
    (SystemTmpl.tpp 123-124 and 1012-1017; UnitCellBase.tpp 193-203). *)
Inductive wl_op :=
| WParams (ps : list R)      (* unitCell().setParameters *)
| WMin | WKSq | WDKSq.
Definition wl_step (s : ucell * wavelist) (o : wl_op) : outcome (ucell * wavelist) :=
  let '(c, w) := s in
  match o with
  | WParams ps => c' <- setParameters c ps ;; w' <- clearUnitCellData w c' ;; Ok (c', w')
  | WMin => w' <- computeMinimumImages w c ;; Ok (c, w')
  | WKSq => w' <- computeKSq w c ;; Ok (c, w')
  | WDKSq => w' <- computedKSq w c ;; Ok (c, w')
  end.
Fixpoint wl_run (s : ucell * wavelist) (l : list wl_op) : outcome (ucell * wavelist) :=
  match l with [] => Ok s | o :: l' => s' <- wl_step s o ;; wl_run s' l' end.
