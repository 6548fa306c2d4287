(** Homogeneous mixtures: pscf/floryHuggins/Mixture.cpp and Molecule.cpp.
    Simplifications: the checks by UTIL_ASSERT (inactive in production builds) are
    left out, and a violated one is [UB] where it guards a memory access; the linear
    solver of GSL is an arbitrary function. *)
From Coq Require Import Reals List Arith Bool ZArith SpecFloat.
From Verif Require Import Base RSum Interaction.
Import ListNotations.
Local Open Scope R_scope.

(** The arithmetic of setComposition and computeC, read over the reals and over IEEE
    doubles. *)
Record arith := mkArith {
  aT : Type; a0 : aT; a1 : aT;
  aAdd : aT -> aT -> aT; aSub : aT -> aT -> aT; aMul : aT -> aT -> aT; aDiv : aT -> aT -> aT;
  aLe : aT -> aT -> bool; aLt : aT -> aT -> bool;
  aLow : aT; aHigh : aT  (* 0.9999 and 1.0001 *)
}.
Definition Rarith : arith :=
  mkArith R 0 1 Rplus Rminus Rmult Rdiv
    (fun x y => if Rle_dec x y then true else false) (fun x y => if Rlt_dec x y then true else false)
    (9999 / 10000) (10001 / 10000).
Definition fl (n : Z) : spec_float := binary_normalize 53 1024 n 0 false.
Definition Farith : arith :=
  mkArith spec_float (fl 0) (fl 1) (SFadd 53 1024) (SFsub 53 1024) (SFmul 53 1024) (SFdiv 53 1024) SFleb SFltb
    (SFdiv 53 1024 (fl 9999) (fl 10000)) (SFdiv 53 1024 (fl 10001) (fl 10000)).

Section Composition.
Variable A : arith.
Notation T := (aT A).
(** Clump.h: monomerId_, size_; Molecule.h: clumps_, size_ *)
Record molecule := mkMol { mClumps : list (nat * T); mSize : T }.
(** Molecule.cpp 57-68: computeSize *)
Definition computeSize (cl : list (nat * T)) : T := fold_left (fun s c => aAdd A s (snd c)) cl (a0 A).
Definition makeMolecule (cl : list (nat * T)) : molecule := mkMol cl (computeSize cl).

Definition upd (c : nat -> T) (k : nat) (x : T) : nat -> T := fun j => if (j =? k)%nat then x else c j.
(** Mixture.cpp 223-226: the loop over clumps of one molecule *)
Definition addClumps (conc : T) (cl : list (nat * T)) (c : nat -> T) : nat -> T :=
  fold_left (fun c q => upd c (fst q) (aAdd A (c (fst q)) (aMul A conc (snd q)))) cl c.
(** Mixture.cpp 220-227 *)
Fixpoint addMolecules (mols : list molecule) (i : nat) (phi : nat -> T) (c : nat -> T) : nat -> T :=
  match mols with
  | [] => c
  | m :: r => addMolecules r (S i) phi (addClumps (aDiv A (phi i) (mSize m)) (mClumps m) c)
  end.
(** Mixture.cpp 230-235: range checks and sum *)
Fixpoint checkSum (k n : nat) (x : nat -> T) (sum : T) : outcome T :=
  match n with
  | O => Ok sum
  | S n' =>
    check (aLe A (a0 A) (x k)) ;;
    check (aLe A (x k) (a1 A)) ;;
    checkSum (S k) n' x (aAdd A sum (x k))
  end.
Definition idsValid (nMon : nat) (mols : list molecule) : bool :=
  forallb (fun m => forallb (fun q => fst q <? nMon)%nat (mClumps m)) mols.
(** Mixture.cpp 208-242: computeC; the result is c_ *)
Definition fhComputeC (nMon : nat) (mols : list molecule) (phi : nat -> T) : outcome (nat -> T) :=
  if negb (idsValid nMon mols) then UB
  else
    let c := addMolecules mols 0 phi (fun _ => a0 A) in
    sum <- checkSum 0 nMon c (a0 A) ;;
    check (aLt A (aLow A) sum) ;;
    check (aLt A sum (aHigh A)) ;;
    Ok (fun k => aDiv A (c k) sum).
(** Mixture.cpp 186-206: setComposition; the result is (phi_, c_) *)
Definition setComposition (nMon : nat) (mols : list molecule) (phi : nat -> T) : outcome ((nat -> T) * (nat -> T)) :=
  match mols with
  | [] => UB
  | _ :: _ =>
    let last := (length mols - 1)%nat in
    sum <- checkSum 0 last phi (a0 A) ;;
    check (aLe A sum (a1 A)) ;;
    let phi' := upd phi last (aSub A (a1 A) sum) in
    c <- fhComputeC nMon mols phi' ;;
    Ok (phi', c)
  end.
End Composition.
Arguments mkMol {A}. Arguments mClumps {A}. Arguments mSize {A}. Arguments makeMolecule {A}.
Arguments upd {A}. Arguments addClumps {A}. Arguments addMolecules {A}. Arguments checkSum {A}.
Arguments idsValid {A}. Arguments fhComputeC {A}. Arguments setComposition {A}. Arguments computeSize {A}.

(** Mixture.cpp 119-165 and 167-181, initialize: a polymer is the list of its blocks
    (monomer type, length); in the bead model Edge::length() throws (Edge.h 311-315).
    A molecule without clumps makes DArray::allocate(0) throw. *)
Notation rmol := (molecule Rarith).
Definition typeSize (blocks : list (nat * R)) (j : nat) : R :=
  fold_left (fun c q => upd (A := Rarith) c (fst q) (c (fst q) + snd q)) blocks (fun _ => 0) j.
Definition polymerMolecule (thread : bool) (nMon : nat) (blocks : list (nat * R)) : outcome rmol :=
  check (thread || (length blocks =? 0)%nat) ;;
  if negb (forallb (fun q => fst q <? nMon)%nat blocks) then UB
  else
    let keep := filter (fun j => if Rlt_dec (1 / 100000000) (typeSize blocks j) then true else false) (seq 0 nMon) in
    check (0 <? length keep)%nat ;;
    Ok (makeMolecule (A := Rarith) (map (fun j => (j, typeSize blocks j)) keep)).
Definition solventMolecule (id : nat) (size : R) : rmol := makeMolecule (A := Rarith) [(id, size)].

Section Thermo.
Variable nMon : nat.
Variable chi : nat -> nat -> R.
Variable mols : list rmol.
Notation n := (length mols).
Definition mol (m : nat) : rmol := nth m mols (mkMol (A := Rarith) [] 0).
Definition size (m : nat) : R := mSize (A := Rarith) (mol m).
Definition clumps (m : nat) : list (nat * R) := mClumps (A := Rarith) (mol m).

(** log of a double: None if the result is not finite *)
Definition flog (x : R) : option R := if Rlt_dec 0 x then Some (ln x) else None.

(** Mixture.cpp 247-271: computeMu (for a composition that is set) *)
Definition muOf (phi c : nat -> R) (xi : R) (m : nat) : option R :=
  match flog (phi m) with
  | None => None
  | Some l => Some (l + xi * size m + lsum (fun q => snd q * computeW nMon chi c (fst q)) (clumps m))
  end.
Fixpoint allFinite (k : nat) (f : nat -> option R) : bool :=
  match k with O => true | S j => match f j with Some _ => allFinite j f | None => false end end.
Definition get (x : option R) : R := match x with Some r => r | None => 0 end.
(** computePhi is followed only while all chemical potentials are finite; [UB] here
    means that it continues with infinities or NaN. *)
Definition computeMuVec (phi c : nat -> R) (xi : R) : outcome (nat -> R) :=
  if allFinite n (muOf phi c xi) then Ok (fun m => get (muOf phi c xi m)) else UB.

(** Mixture.cpp 443-457: adjustXi; the result is (mu_, xi) *)
Definition adjustXi (target mu : nat -> R) (xi : R) : (nat -> R) * R :=
  let dxi := rsum n (fun i => target i - mu i) / rsum n size in
  (fun i => mu i + dxi * size i, xi + dxi).
(** Mixture.cpp 459-468: computeResidual *)
Definition residualError (target mu : nat -> R) : R :=
  fold_left (fun e i => if Rlt_dec e (Rabs (mu i - target i)) then Rabs (mu i - target i) else e) (seq 0 n) 0.

(** Mixture.cpp 334-381: the matrix of the Newton-Raphson equations *)
Definition dWdPhi (c : nat -> R) (t m : nat) : R :=
  lsum (fun q => computeDwDc nMon chi c t (fst q) * (snd q / size m)) (clumps m).
Definition dMuDPhi (phi c : nat -> R) (m1 m2 : nat) : R :=
  (if (m1 =? m2)%nat then 1 / phi m1 else 0) + lsum (fun q => snd q * dWdPhi c (fst q) m2) (clumps m1).
Definition jacobian (phi c : nat -> R) (m1 m2 : nat) : R :=
  if (m2 =? n - 1)%nat then size m1 else dMuDPhi phi c m1 m2 - dMuDPhi phi c m1 (n - 1).

(** Mixture.cpp 393-424: the update, with at most [k] attempts; None: out of range *)
Definition inRange (phi : nat -> R) : bool :=
  forallb (fun m => (if Rlt_dec (phi m) 0 then false else true) && (if Rlt_dec 1 (phi m) then false else true)) (seq 0 n).
Definition newPhi (old dX : nat -> R) : nat -> R :=
  fun m => if (m =? n - 1)%nat then 1 - rsum (n - 1) (fun i => old i - dX i) else old m - dX m.
Fixpoint tryUpdate (k : nat) (old dX : nat -> R) : option ((nat -> R) * (nat -> R)) :=
  match k with
  | O => None
  | S j => if inRange (newPhi old dX) then Some (newPhi old dX, dX) else tryUpdate j old (fun m => dX m * (1/2))
  end.

(** LuSolver: solution of a system of n linear equations *)
Variable lu : (nat -> nat -> R) -> (nat -> R) -> nat -> R.
Definition epsilon : R := 1 / 10 ^ 10.
(** The results of computePhi: phi_, c_, mu_, xi *)
Record phiState := mkPhi { pPhi : nat -> R; pC : nat -> R; pMu : nat -> R; pXi : R }.
(** Mixture.cpp 301-302, 318, 330-438: the loop; [k] iterations are left *)
Fixpoint phiLoop (k : nat) (target : nat -> R) (s : phiState) : outcome phiState :=
  match k with
  | O => Throw
  | S j =>
    let residual := fun m => pMu s m - target m in
    let dX := lu (jacobian (pPhi s) (pC s)) residual in
    match tryUpdate 5 (pPhi s) dX with
    | None => Throw
    | Some (phi, dX') =>
      let xi := pXi s - dX' (n - 1)%nat in
      c <- fhComputeC (A := Rarith) nMon mols phi ;;
      mu0 <- computeMuVec phi c xi ;;
      let '(mu, xi) := adjustXi target mu0 xi in
      let s' := mkPhi phi c mu xi in
      if Rlt_dec (residualError target mu) epsilon then Ok s' else phiLoop j target s'
    end
  end.
(** Mixture.cpp 276-441: computePhi *)
Definition computePhi (target guess : nat -> R) (xi0 : R) : outcome phiState :=
  pc <- setComposition (A := Rarith) nMon mols guess ;;
  let '(phi, c) := pc in
  mu0 <- computeMuVec phi c xi0 ;;
  let '(mu, xi) := adjustXi target mu0 xi0 in
  let s := mkPhi phi c mu xi in
  if Rlt_dec (residualError target mu) epsilon then Ok s else phiLoop 50 target s.

(** Mixture.cpp 473-496: computeFreeEnergy; the results are fHelmholtz_ and pressure_.
    Addition of a non-finite number and its product with zero are not finite. *)
Fixpoint sumFinite (k : nat) (f : nat -> option R) : option R :=
  match k with
  | O => Some 0
  | S j => match sumFinite j f, f j with Some a, Some b => Some (a + b) | _, _ => None end
  end.
Definition idealTerm (phi : nat -> R) (i : nat) : option R :=
  match flog (phi i) with None => None | Some l => Some (phi i * (l - 1) / size i) end.
Definition fHelmholtzFH (phi c : nat -> R) : option R :=
  match sumFinite n (idealTerm phi) with None => None | Some a => Some (a + fHelmholtz nMon chi c) end.
Definition pressureFH (phi c : nat -> R) (mu : nat -> option R) : option R :=
  match fHelmholtzFH phi c, sumFinite n (fun i => match mu i with None => None | Some x => Some (phi i * x / size i) end) with
  | Some f, Some g => Some (- f + g)
  | _, _ => None
  end.
End Thermo.
