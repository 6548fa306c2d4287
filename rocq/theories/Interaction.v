(** Model of src/pscf/inter/Interaction.cpp, src/pscf/iterator/AmbdInteraction.cpp
    and of the residuals of the SCFT iterators
    (rpc/scft/iterator/AmIteratorBasis.tpp, AmIteratorGrid.tpp,
    r1d/iterator/AmIterator.cpp, NrIterator.cpp, BinaryRelaxIterator.cpp). *)
From Coq Require Import Reals List Arith Bool ZArith SpecFloat.
From Verif Require Import Base RSum.
Import ListNotations.
Local Open Scope R_scope.

Notation mat := (nat -> nat -> R) (only parsing).
Notation vec := (nat -> R) (only parsing).

(* ---------- Interaction.cpp ---------- *)
(** The arithmetic used in updateMembers, so that the same code can be read
    over the reals and over IEEE doubles. *)
Record num := mkNum {
  nT : Type;
  nadd : nT -> nT -> nT; nsub : nT -> nT -> nT; nmul : nT -> nT -> nT; ndiv : nT -> nT -> nT;
  nopp : nT -> nT; nabs : nT -> nT;
  nlt : nT -> nT -> bool;
  ntwo : nT; ntol : nT
}.

(** Interaction.cpp 57-69: the branch nMonomer() == 2 of updateMembers. *)
Definition update2 (N : num) (chi : nat -> nat -> nT N) : outcome (nat -> nat -> nT N) :=
  let det := nsub N (nmul N (chi 0%nat 0%nat) (chi 1%nat 1%nat)) (nmul N (chi 0%nat 1%nat) (chi 1%nat 0%nat)) in
  let norm := nadd N (nadd N (nmul N (chi 0%nat 0%nat) (chi 0%nat 0%nat)) (nmul N (chi 1%nat 1%nat) (chi 1%nat 1%nat)))
                     (nmul N (nmul N (ntwo N) (chi 0%nat 1%nat)) (chi 1%nat 0%nat)) in
  if nlt N (nabs N (ndiv N det norm)) (ntol N) then Throw
  else Ok (fun i j =>
    match i, j with
    | O, O => ndiv N (chi 1%nat 1%nat) det
    | O, _ => ndiv N (nopp N (chi 0%nat 1%nat)) det
    | _, O => ndiv N (nopp N (chi 1%nat 0%nat)) det
    | _, _ => ndiv N (chi 0%nat 0%nat) det
    end).

(** Reals with one non-finite value: None stands for NaN and infinities, is
    produced by division by zero and compares false. *)
Definition op2 (f : R -> R -> R) (x y : option R) : option R :=
  match x, y with Some a, Some b => Some (f a b) | _, _ => None end.
Definition odiv (x y : option R) : option R :=
  match x, y with Some a, Some b => if Req_EM_T b 0 then None else Some (a / b) | _, _ => None end.
Definition olt (x y : option R) : bool :=
  match x, y with Some a, Some b => if Rlt_dec a b then true else false | _, _ => false end.
Definition Rnum : num :=
  mkNum (option R) (op2 Rplus) (op2 Rminus) (op2 Rmult) odiv (option_map Ropp) (option_map Rabs) olt
        (Some 2) (Some (1 / 100000000)).

(** IEEE doubles (SpecFloat of the standard library). *)
Definition pow10 (n : nat) : positive := Pos.pow 10 (Pos.of_nat n).
Definition Fnum : num :=
  mkNum spec_float (SFadd 53 1024) (SFsub 53 1024) (SFmul 53 1024) (SFdiv 53 1024) SFopp SFabs SFltb
        (binary_normalize 53 1024 1 1 false)
        (SFdiv 53 1024 (binary_normalize 53 1024 1 0 false) (binary_normalize 53 1024 (Zpos (pow10 8)) 0 false)).

(** Interaction.cpp 50-78: updateMembers.  [lu] is the result of the LU
    inversion of GSL (LuSolver.cpp), used unless there are two monomer types. *)
Definition updateMembers (lu : nat -> mat -> mat) (n : nat) (chi : mat) : outcome (nat -> nat -> option R) :=
  if (n =? 2)%nat then update2 Rnum (fun i j => Some (chi i j))
  else Ok (fun i j => Some (lu n chi i j)).

(** Interaction.cpp 80-89: setChi. *)
Record interaction := mkInter { iN : nat; iChi : mat; iInv : nat -> nat -> option R }.
Definition putChi (chi : mat) (i j : nat) (x : R) : mat :=
  let chi1 := fun a b => if (a =? i)%nat && (b =? j)%nat then x else chi a b in
  if (i =? j)%nat then chi1
  else fun a b => if (a =? j)%nat && (b =? i)%nat then x else chi1 a b.
Definition setChi (lu : nat -> mat -> mat) (s : interaction) (i j : nat) (x : R) : outcome interaction :=
  let chi' := putChi (iChi s) i j x in
  inv <- updateMembers lu (iN s) chi' ;;
  Ok (mkInter (iN s) chi' inv).

(** 94-104: fHelmholtz. *)
Definition fHelmholtz (n : nat) (chi : mat) (c : vec) : R :=
  (1/2) * rsum n (fun i => rsum n (fun j => chi i j * c i * c j)).
(** 109-121: computeW. *)
Definition computeW (n : nat) (chi : mat) (c : vec) (i : nat) : R := rsum n (fun j => chi i j * c j).
(** 150-166: computeXi (the same expression as in computeC). *)
Definition computeXi (n : nat) (inv : mat) (w : vec) : R :=
  (rsum n (fun i => rsum n (fun j => inv i j * w j)) - 1) / rsum n (fun i => rsum n (fun j => inv i j)).
(** 126-147: computeC. *)
Definition computeC (n : nat) (inv : mat) (w : vec) (i : nat) : R :=
  rsum n (fun j => inv i j * (w j - computeXi n inv w)).
(** 171-181: computeDwDc. *)
Definition computeDwDc (n : nat) (chi : mat) (c : vec) (i j : nat) : R := chi i j.

(* ---------- AmbdInteraction.cpp 46-86: update ---------- *)
(** 64-69: p_(0,i) and sum. *)
Definition ambdRow (n : nat) (inv : mat) (i : nat) : R := rsum n (fun j => 0 - inv j i).
Definition sumChiInverse (n : nat) (inv : mat) : R := rsum n (fun i => 0 - ambdRow n inv i).
(** 70-80. *)
Definition ambdP (n : nat) (inv : mat) (i j : nat) : R :=
  ambdRow n inv j / sumChiInverse n inv + (if (i =? j)%nat then 1 else 0).

(* ---------- residuals ---------- *)
(** Fields: component k (basis function or grid point) of monomer type j is
    [f j k].  [h = None], [mask = None]: no external field, no mask. *)
Notation fields := (nat -> nat -> R) (only parsing).

(** Sum over j of chi*c + p*(h - w), AmIteratorBasis.tpp 213-232 and
    AmIteratorGrid.tpp 217-236. *)
Definition scfSum (n : nat) (chi inv : mat) (c w : fields) (h : option fields) (i k : nat) : R :=
  rsum n (fun j => match h with
                   | Some hf => chi i j * c j k + ambdP n inv i j * (hf j k - w j k)
                   | None => chi i j * c j k - ambdP n inv i j * w j k
                   end).

(** AmIteratorBasis.tpp 197-256: getResidual, without the stress elements. *)
Definition residualBasis (n : nat) (chi inv : mat) (canonical : bool) (c w : fields) (h : option fields)
    (mask : option vec) (i k : nat) : R :=
  let shift := (-1) / sumChiInverse n inv in
  let r := scfSum n chi inv c w h i k +
    match mask with Some m => shift * m k | None => if (k =? 0)%nat then shift else 0 end in
  if canonical && (k =? 0)%nat then 0 else r.

(** AmIteratorGrid.tpp 201-271. *)
Definition residualGrid (n nMesh : nat) (chi inv : mat) (canonical : bool) (c w : fields) (h : option fields)
    (mask : option vec) (i k : nat) : R :=
  let shift := (-1) / sumChiInverse n inv in
  let r := fun k => scfSum n chi inv c w h i k + match mask with Some m => shift * m k | None => shift end in
  if canonical then r k - rsum nMesh r / INR nMesh else r k.

(** AmIteratorBasis.tpp 258-286 and AmIteratorGrid.tpp 273-296: the stress
    elements, one for every flexible parameter, in order. *)
Definition stressResidual (scaleStress : R) (flexible : list bool) (stress : vec) : list R :=
  map (fun i => (-1) * scaleStress * stress i) (filter (fun i => nth i flexible false) (seq 0 (length flexible))).

(** AmIteratorBasis.tpp 306-331 (update): the fields stored for the next
    iteration; c holds the previous concentrations. *)
Definition updateBasis (n : nat) (chi : mat) (canonical : bool) (c : fields) (h : option fields)
    (new : fields) (i k : nat) : R :=
  if canonical && (k =? 0)%nat
  then rsum n (fun j => chi i j * c j 0%nat) + match h with Some hf => hf i 0%nat | None => 0 end
  else new i k.
(** AmIteratorGrid.tpp 331-369 (update). *)
Definition average (nMesh : nat) (f : vec) : R := rsum nMesh f / INR nMesh.
Definition updateGrid (n nMesh : nat) (chi : mat) (canonical : bool) (c : fields) (h : option fields)
    (new : fields) (i k : nat) : R :=
  if canonical
  then new i k - average nMesh (new i) + rsum n (fun j => chi i j * average nMesh (c j))
       + match h with Some hf => average nMesh (hf i) | None => 0 end
  else new i k.

(** r1d/iterator/AmIterator.cpp 134-162. *)
Definition residualR1d (n : nat) (chi inv : mat) (c w : fields) (i k : nat) : R :=
  (-1) / sumChiInverse n inv + scfSum n chi inv c w None i k.
(** r1d/iterator/NrIterator.cpp 82-136: element j*nx + i for monomer j, point i. *)
Definition residualNr (n nx : nat) (chi : mat) (canonical : bool) (c w : fields) (j i : nat) : R :=
  let r := fun j => computeW n chi (fun m => c m i) j - w j i in
  match j with
  | O => if canonical && (i =? nx - 1)%nat then w (n - 1)%nat (nx - 1)%nat
         else -1 + rsum n (fun m => c m i)
  | _ => r j - r O
  end.
(** r1d/iterator/BinaryRelaxIterator.cpp 72-101: dW. *)
Definition binaryDW (chi : mat) (lp lm : R) (c w : fields) (j i : nat) : R :=
  let dWp := c 1%nat i + c 0%nat i - 1 in
  let dWm := (1/2) * (c 0%nat i - c 1%nat i - (w 1%nat i - w 0%nat i) / chi 0%nat 1%nat) in
  match j with O => lp * dWp - lm * dWm | _ => lp * dWp + lm * dWm end.
