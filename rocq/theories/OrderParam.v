(** Model of the order-parameter analyzers of field-theoretic simulations:
    src/rpc/fts/analyzer/{FourthOrderParameter, MaxOrderParameter,
    BinaryStructureFactorGrid}.tpp (line numbers below) and of their device
    versions in src/rpg/fts/analyzer, which evaluate the same expressions.
    Arithmetic is exact; the transforms are those of Fft.v.  Arrays are
    functions of the rank. *)
From Coq Require Import Reals ZArith List Arith Bool.
From Verif Require Import Base RSum UnitCell ShiftMin Fft.
Import ListNotations.
Local Open Scope R_scope.

Definition upd (p : nat -> R) (i : nat) (x : R) : nat -> R := fun j => if (j =? i)%nat then x else p j.

(** std::norm of a Fourier component. *)
Definition normSq (z : R * R) : R := fst z ^ 2 + snd z ^ 2.

(** FourthOrderParameter.tpp 191-196, MaxOrderParameter.tpp 107-110 and
    BinaryStructureFactorGrid.tpp 96-98: the minimum image of the k-grid
    position of a rank; kb are the reciprocal basis vectors. *)
Definition gminList (dims : list Z) (kb : nat -> nat -> R) (r : nat) : list Z :=
  let D := length dims in
  map (shiftToMinimum D (fun i => nth i (gridPos (computeKMesh dims) r) 0%Z) (fun i => nth i dims 0%Z) kb)
      (seq 0 D).

(* ---------- FourthOrderParameter ---------- *)
Section Prefactor.
Variables (G : nat -> list Z) (n : nat).

(** FourthOrderParameter.tpp 211-217: body of the search loop. *)
Definition searchStep (i : nat) (st : (nat -> R) * bool) (j : nat) : (nat -> R) * bool :=
  if list_eq_dec Z.eq_dec (map Z.opp (G i)) (G j)
  then (upd (upd (fst st) i (1 / 2)) j (1 / 2), true) else st.
(** 199-225: body of the loop over wavevectors. *)
Definition prefactorStep (p : nat -> R) (i : nat) : nat -> R :=
  if Req_EM_T (p i) 0 then
    let st := fold_left (searchStep i) (seq i (n - i)) (p, false) in
    if snd st then fst st else upd (fst st) i 1
  else p.
(** 178-227: computePrefactor, from the present contents of the array. *)
Definition computePrefactor (p : nat -> R) : nat -> R := fold_left prefactorStep (seq 0 n) p.
End Prefactor.

(** 61-86: setup; the array is allocated and zeroed on the first call only
    (None: not yet allocated). *)
Definition fourthSetup (dims : list Z) (kb : nat -> nat -> R) (old : option (nat -> R)) : nat -> R :=
  computePrefactor (gminList dims kb) (nK dims) (match old with None => fun _ => 0 | Some p => p end).

(** 102-114: the sum of the weighted fourth powers, without rank 0. *)
Definition fourthSum (dims : list Z) (pre : nat -> R) (f : nat -> R) : R :=
  let psi := fun i => normSq (fftForward dims f i) * normSq (fftForward dims f i) * pre i in
  rsum (nK dims - 1) (fun i => psi (S i)).
(** 88-118: compute; std::pow(x, 0.25) of a nonnegative number is its fourth root. *)
Definition fourthCompute (dims : list Z) (pre f : nat -> R) : R := sqrt (sqrt (fourthSum dims pre f)).

(* ---------- MaxOrderParameter ---------- *)
(** MaxOrderParameter.tpp 118-125. *)
Definition maxStep (psi : nat -> R) (st : R * nat) (i : nat) : R * nat :=
  if Rlt_dec (fst st) (psi i) then (psi i, i) else st.
(** 86-130: compute; the value and GminStar_.  Reading psi[1] of a vector with
    one element is undefined behavior. *)
Definition maxCompute (dims : list Z) (kb : nat -> nat -> R) (f : nat -> R) : outcome (R * list Z) :=
  let n := nK dims in
  let psi := fun i => normSq (fftForward dims f i) in
  if (n <=? 1)%nat then UB
  else let st := fold_left (maxStep psi) (seq 2 (n - 2)) (psi 1%nat, 1%nat) in
       Ok (fst st, gminList dims kb (snd st)).

(* ---------- BinaryStructureFactorGrid ---------- *)
(** 71-120: setup.  The state tells whether structureFactors_ is allocated;
    DArray::allocate throws on an allocated array. *)
Definition sfSetup (allocated : bool) : outcome bool := if allocated then Throw else Ok true.

(** 89-102: qList_, the wavenumber of the minimum image. *)
Definition qList (dims : list Z) (kb : nat -> nat -> R) (r : nat) : R :=
  sqrt (ksq (length dims) kb (fun i => nth i (gminList dims kb r) 0%Z)).
(** 125-147: one sample: |W_-(k)|^2. *)
Definition sfSample (dims : list Z) (wA wB : nat -> R) (k : nat) : R :=
  normSq (fftForward dims (fun i => (wA i - wB i) / 2) k).
(** 150-166: computeStructureFactor; average is the mean of the samples. *)
Definition structureFactor (vSystem vMonomer chi average : R) : R :=
  let n := vSystem / vMonomer in
  (n / (chi * chi) * average - 1 / (2 * chi)) / vMonomer.

(** std::map<double, double>: association lists in increasing order of keys. *)
(** map[q] += s. *)
Fixpoint mapAdd (q s : R) (m : list (R * R)) : list (R * R) :=
  match m with
  | [] => [(q, 0 + s)]
  | (k, v) :: m' => if Rlt_dec q k then (q, 0 + s) :: m
                    else if Req_EM_T q k then (k, v + s) :: m'
                    else (k, v) :: mapAdd q s m'
  end.
(** map[q] = s. *)
Fixpoint mapSet (q s : R) (m : list (R * R)) : list (R * R) :=
  match m with
  | [] => [(q, s)]
  | (k, v) :: m' => if Rlt_dec q k then (q, s) :: m
                    else if Req_EM_T q k then (k, s) :: m'
                    else (k, v) :: mapSet q s m'
  end.

Section Shells.
Variables (n : nat) (qs S : nat -> R).
(** 178-189. *)
Definition sMap0 : list (R * R) := fold_left (fun m i => mapAdd (qs i) (S i) m) (seq 0 n) [].
(** 195: std::count. *)
Definition countq (q : R) : nat := length (filter (fun i => if Req_EM_T (qs i) q then true else false) (seq 0 n)).
(** 191-197. *)
Definition sMap : list (R * R) := map (fun e => (fst e, snd e / INR (countq (fst e)))) sMap0.

(** 200. *)
Definition tolerance : R := 1 / 100000.
(** 205-217: loop over the remaining entries; the state is averageSMap_,
    currentq, sumS and count; then 220: the last batch. *)
Fixpoint batches (out : list (R * R)) (currentq sumS : R) (count : nat) (m : list (R * R)) : list (R * R) :=
  match m with
  | [] => mapSet currentq (sumS / INR count) out
  | (key, s) :: m' =>
      if Rle_dec (Rabs (key - currentq)) tolerance
      then batches out currentq (sumS + s) (Datatypes.S count) m'
      else batches (mapSet currentq (sumS / INR count) out) key s 1%nat m'
  end.
(** 169-221: averageStructureFactor, from the present averageSMap_; begin() of
    an empty map may not be dereferenced. *)
Definition averageStructureFactor (prev : list (R * R)) : outcome (list (R * R)) :=
  match sMap with
  | [] => UB
  | (q, s) :: m => Ok (batches prev q s 1%nat m)
  end.
End Shells.
