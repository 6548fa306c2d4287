(** Model of the free energy of one-dimensional systems, src/r1d/System.cpp 508-603, and of their comparison to a
    homogeneous mixture, src/r1d/misc/HomogeneousComparison.cpp.  Exact real arithmetic. *)
From Coq Require Import Reals List Arith Bool ZArith.
From Verif Require Import Base RSum Solve Interaction R1d FloryHuggins.
Import ListNotations.
Local Open Scope R_scope.

(** Species.h: phi_, mu_; Polymer::length() or Solvent::size() *)
Record sp := mkSp { sPhi : R; sMu : R; sSize : R }.
(** System.cpp 519-533 and 535-549: the ideal gas contributions *)
Definition addIdeal (f : R) (s : sp) : R :=
  if Rlt_dec (1 / 10 ^ 8) (sPhi s) then f + sPhi s * (sMu s - 1) / sSize s else f.
(** System.cpp 576-588 and 589-601 *)
Definition addPressure (p : R) (s : sp) : R :=
  if Rlt_dec (1 / 10 ^ 8) (sPhi s) then p + sPhi s * sMu s / sSize s else p.
(** System.cpp 551-555 *)
Fixpoint legendre (d : domain) (k : nat) (w c : nat -> field) (f : R) : outcome R :=
  match k with
  | O => Ok f
  | S j => f' <- legendre d j w c f ;; e <- innerProduct d (w j) (c j) ;; Ok (f' - e)
  end.
Record energies := mkEnergies { eF : R; eIdeal : R; eInter : R; eP : R }.
(** System.cpp 511-603 *)
Definition computeFreeEnergy (d : domain) (nMon : nat) (chi : nat -> nat -> R) (pols sols : list sp) (w c : nat -> field) : outcome energies :=
  let f0 := fold_left addIdeal sols (fold_left addIdeal pols 0) in
  fIdeal <- legendre d nMon w c f0 ;;
  a <- spatialAverage d (fun i => fHelmholtz nMon chi (fun j => c j i)) ;;
  let f := fIdeal + a in
  let p := fold_left addPressure sols (fold_left addPressure pols (- f)) in
  Ok (mkEnergies f fIdeal (f - fIdeal) p).

(** Cells of an array of doubles; None is an indeterminate value. *)
Definition cells := nat -> option R.
Fixpoint defined (k : nat) (a : cells) : bool :=
  match k with O => true | S j => match a j with Some _ => defined j a | None => false end end.
Definition value (a : cells) (i : nat) : R := get (a i).
(** Writing cells 0 .. np-1 *)
Definition setCells (np : nat) (x : nat -> R) (a : cells) : cells := fun i => if (i <? np)%nat then Some (x i) else a i.

Record homogeneous := mkHomo { hPhi : nat -> R; hC : nat -> R; hMu : nat -> option R; hF : option R; hP : option R }.

Section Comparison.
Variable d : domain.
Variable nMon : nat.
Variable chi : nat -> nat -> R.
Variable mols : list (molecule Rarith).
Variable lu : (nat -> nat -> R) -> (nat -> R) -> nat -> R.
Variables np ns : nat.
(** phi and mu of polymer i, number of its blocks, concentration field of block j of polymer i *)
Variables (phi mu : nat -> R) (nBlock : nat -> nat) (cBlock : nat -> nat -> field).

(** HomogeneousComparison.cpp 110-111 *)
Definition finishComparison (ph c : nat -> R) (m : nat -> option R) : homogeneous :=
  mkHomo ph c m (fHelmholtzFH nMon chi mols ph c) (pressureFH nMon chi mols ph c m).
(** HomogeneousComparison.cpp 57-112; [p] and [m] are the contents of p_ and m_ before.
    Mixture::setComposition reads all volume fractions but the last, computePhi also all chemical potentials; a read of
    an indeterminate value is [UB], also if an exception would come first. *)
Definition compute (mode : Z) (p m : cells) : outcome homogeneous :=
  check (np + ns =? length mols)%nat ;;
  if (mode =? 0)%Z then
    let p' := setCells np phi p in
    if negb (defined (length mols - 1) p') then UB else
    pc <- setComposition (A := Rarith) nMon mols (value p') ;;
    let '(ph, c) := pc in
    Ok (finishComparison ph c (muOf nMon chi mols ph c 0))
  else if ((mode =? 1) || (mode =? 2))%Z%bool then
    let m' := setCells np mu m in
    let ix := if (mode =? 1)%Z then (d_nx d - 1)%nat else O in
    let p' := setCells np (fun i => rsum (nBlock i) (fun j => cBlock i j ix)) p in
    if negb (defined (length mols - 1) p' && defined (length mols) m') then UB else
    s <- computePhi nMon chi mols lu (value m') (value p') 0 ;;
    Ok (finishComparison (pPhi s) (pC s) (fun i => Some (pMu s i)))
  else Throw.

(** HomogeneousComparison.cpp 125-126: df, mode 0 *)
Definition deltaF (e : energies) (h : homogeneous) : option R := match hF h with None => None | Some f => Some (eF e - f) end.
(** HomogeneousComparison.cpp 153-157: pEx and PhiExTot, modes 1 and 2; [V] is volume / vMonomer *)
Definition deltaP (e : energies) (h : homogeneous) : option R := match hP h with None => None | Some p => Some (eP e - p) end.
Definition phiExTot (V : R) (e : energies) (h : homogeneous) : option R :=
  match deltaP e h with None => None | Some x => Some (-1 * x * V) end.
(** HomogeneousComparison.cpp 183-191: column deltaV of all species; polymer(i) needs i < np *)
Fixpoint deltaV (V : R) (h : homogeneous) (i k : nat) : outcome (list R) :=
  match k with
  | O => Ok []
  | S k' =>
    if (i <? np)%nat then
      r <- deltaV V h (S i) k' ;; Ok ((phi i - hPhi h i) * V :: r)
    else UB
  end.
Definition outputDeltaV (V : R) (h : homogeneous) : outcome (list R) := deltaV V h 0 (length mols).
End Comparison.
