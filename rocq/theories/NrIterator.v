(** Model of the Newton-Raphson iterator of one-dimensional systems, src/r1d/iterator/NrIterator.cpp.

    Numbers are reals or NaN (None), no infinities; arithmetic on numbers is exact.  Fields are functions of the monomer
    type and the grid point, vectors functions of the index.  Arbitrary functions: [comp], Mixture::compute, which gives
    the concentrations for given fields, and [lu], which solves the linear equations for a decomposed matrix.  Left out:
    allocation, the log, and computeFreeEnergy at the end (R1dThermo.v). *)
From Coq Require Import Reals List Arith Bool ZArith.
From Verif Require Import Base RSum.
Import ListNotations.
Local Open Scope R_scope.

Definition num := option R.
Definition lift1 (f : R -> R) (x : num) : num := match x with Some a => Some (f a) | None => None end.
Definition lift2 (f : R -> R -> R) (x y : num) : num := match x, y with Some a, Some b => Some (f a b) | _, _ => None end.
Definition nadd := lift2 Rplus. Definition nsub := lift2 Rminus. Definition nmul := lift2 Rmult.
Fixpoint nsum (n : nat) (f : nat -> num) (s : num) : num := match n with O => s | S k => nadd (nsum k f s) (f k) end.
Definition fields := nat -> nat -> num.
Definition vector := nat -> num.

Section Nr.
Variables nm nx : nat.
Variable chi : nat -> nat -> R.
Variable comp : fields -> fields.
Variable lu : (nat -> nat -> num) -> vector -> vector.

(** Interaction.cpp 107-118: computeW *)
Definition wPredicted (c : nat -> num) (j : nat) : num := nsum nm (fun k => nmul (Some (chi j k)) (c k)) (Some 0).
(** NrIterator.cpp 82-136: computeResidual.  Element j*nx + i belongs to monomer j and point i; element i of monomer 0
    is used in the differences before it is replaced. *)
Definition residual0 (w c : fields) (j i : nat) : num := nsub (wPredicted (fun k => c k i) j) (w j i).
Definition computeResidual (canon : bool) (w c : fields) : vector := fun ir =>
  let j := (ir / nx)%nat in
  let i := (ir mod nx)%nat in
  if (j =? 0)%nat then
    if canon && (i =? nx - 1)%nat then w (nm - 1)%nat (nx - 1)%nat else nsum nm (fun k => c k i) (Some (-1))
  else nsub (residual0 w c j i) (residual0 w c 0%nat i).
(** NrIterator.cpp 211-225: residualNorm; the comparison with NaN is false *)
Definition keepNorm (norm : R) (x : num) : R := match x with Some a => if Rlt_dec norm (Rabs a) then Rabs a else norm | None => norm end.
Definition residualNorm (r : vector) : R := fold_left (fun s ir => keepNorm s (r ir)) (seq 0 (nm * nx)) 0.
(** NrIterator.cpp 141-178: computeJacobian *)
Definition delta : R := 1 / 1000.
Definition bump (w : fields) (i j : nat) : fields := fun i' j' => if ((i' =? i) && (j' =? j))%nat%bool then nadd (w i' j') (Some delta) else w i' j'.
Definition computeJacobian (canon : bool) (w : fields) (res : vector) : nat -> nat -> num := fun jr jc =>
  let w' := bump w (jc / nx) (jc mod nx) in
  lift1 (fun x => x / delta) (nsub (computeResidual canon w' (comp w') jr) (res jr)).
(** NrIterator.cpp 200-207, 249-257: the shift *)
Definition shiftLast (canon : bool) (w : fields) : fields :=
  if canon then fun i j => nsub (w i j) (w (nm - 1)%nat (nx - 1)%nat) else w.
(** NrIterator.cpp 181-209: incrementWFields *)
Definition incrementWFields (canon : bool) (w : fields) (dW : vector) : fields :=
  shiftLast canon (fun i j => nsub (w i j) (dW (i * nx + j)%nat)).

(** wFields, cFields, residual_ and its norm *)
Record point := mkPoint { pW : fields; pC : fields; pRes : vector; pNorm : R }.
Definition evaluate (canon : bool) (w : fields) : point :=
  let c := comp w in let r := computeResidual canon w c in mkPoint w c r (residualNorm r).
Definition gt (x y : R) : bool := if Rlt_dec y x then true else false.

(** NrIterator.cpp 302-315: while (normNew > norm && j < 3), [k] repetitions are left; the results are dOmega_, the
    trial, and whether needsJacobian_ was set *)
Definition scale (s : R) (v : vector) : vector := fun k => nmul (v k) (Some s).
Fixpoint shrink (canon : bool) (cur : point) (k : nat) (dW : vector) (t : point) : vector * point * bool :=
  match k with
  | O => (dW, t, false)
  | S k' =>
    if gt (pNorm t) (pNorm cur) then
      let dW' := scale (66666666 / 100000000) dW in
      let '(d, u, _) := shrink canon cur k' dW' (evaluate canon (incrementWFields canon (pW cur) dW')) in (d, u, true)
    else (dW, t, false)
  end.

Record nstate := mkN { nPt : point; nNew : bool; nNeeds : bool; nJac : nat -> nat -> num }.
(** NrIterator.cpp 270-363: the loop, [k] iterations are left *)
Fixpoint loop (canon : bool) (eps : R) (k : nat) (s : nstate) : Z * nstate :=
  match k with
  | O => (1%Z, s)
  | S k' =>
    let cur := nPt s in
    if gt eps (pNorm cur) then (0%Z, s)
    else
      let jac := if nNeeds s then computeJacobian canon (pW cur) (pRes cur) else nJac s in
      let newJ := if nNeeds s then true else nNew s in
      let dW := lu jac (pRes cur) in
      let '(dW1, t1, n1) := shrink canon cur 3 dW (evaluate canon (incrementWFields canon (pW cur) dW)) in
      let rev := gt (pNorm t1) (pNorm cur) in
      let t2 := if rev then evaluate canon (incrementWFields canon (pW cur) (scale (-1) dW1)) else t1 in
      let needs := n1 || rev in
      if gt (pNorm cur) (pNorm t2) then
        let needs' := if needs then true else gt (pNorm t2 / pNorm cur) (1 / 2) in
        loop canon eps k' (mkN t2 false needs' jac)
      else if newJ then (1%Z, mkN cur newJ needs jac)
      else loop canon eps k' (mkN cur newJ true jac)
  end.

(** Species.h: Ensemble *)
Inductive ensemble := Unknown | Closed | Open.
(** NrIterator.cpp 234-246: only polymers are looked at *)
Fixpoint isCanonical (polymers : list ensemble) : outcome bool :=
  match polymers with
  | [] => Ok true
  | Unknown :: _ => Throw
  | Open :: r => _ <- isCanonical r ;; Ok false
  | Closed :: r => isCanonical r
  end.
(** NrIterator.cpp 227-367: solve; [needs] and [jac] are those of the last call *)
Definition solve (polymers : list ensemble) (eps : R) (maxItr : nat) (isContinuation needs : bool) (jac : nat -> nat -> num) (w : fields) : outcome (Z * nstate) :=
  canon <- isCanonical polymers ;;
  Ok (loop canon eps maxItr (mkN (evaluate canon (shiftLast canon w)) false (if isContinuation then needs else true) jac)).
End Nr.
