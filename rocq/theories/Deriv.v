(** Model of the analyzers of field-theoretic simulations that report derivatives
    of the free energy and the Hamiltonian: src/rpc/fts/analyzer/ChiDerivative.tpp,
    ConcentrationDerivative.tpp, PerturbationDerivative.tpp and
    HamiltonianAnalyzer.tpp (src/rpg/fts/analyzer has the same code).

    The state is that of Fts.v, which is assumed to have w fields.  Output and the
    accumulation of averages are left out. *)
From Coq Require Import Reals List Arith Bool.
From Verif Require Import Base RSum Fts.
Local Open Scope R_scope.

Section Analyzers.
Variable mde : par -> (nat -> nat -> R) -> (nat -> nat -> R) * list (R * R * R).

(** ChiDerivative.tpp 60-68 (ConcentrationDerivative.tpp 53-61,
    PerturbationDerivative.tpp 43-51, HamiltonianAnalyzer.tpp 60-71): whatever is
    not marked available is computed. *)
Definition refresh (s : sim) : outcome sim :=
  let s1 := if yHasC (mSys s) then s else compute mde s in
  let s2 := if fWc (mK s1) then s1 else computeWc s1 in
  if fH (mK s2) then Ok s2 else computeHamiltonian s2.

(** ChiDerivative.tpp 41-79: compute *)
Definition chiDerivative (s : sim) : outcome (sim * R) :=
  check (pM (mPar s) =? 2)%nat ;;
  let n := pVol (mPar s) / pVMono (mPar s) in
  let chi := pChi (mPar s) 0%nat 1%nat in
  s' <- refresh s ;;
  let h := hField (kH (mK s')) / n in
  let d := - (h - (1/2) * gSc (mEig s') (pM (mPar s) - 1)%nat) / chi + 1 / 4 in
  Ok (s', d * n + INR (pMesh (mPar s)) / (2 * chi)).

(** ConcentrationDerivative.tpp 41-73: compute *)
Definition concDerivative (s : sim) : outcome (sim * R) :=
  check (pM (mPar s) =? 2)%nat ;;
  s' <- refresh s ;;
  h <- hamiltonian s' ;;
  Ok (s', h * pVMono (mPar s) - INR (pMesh (mPar s)) / 2 * pVMono (mPar s)).

(** PerturbationDerivative.tpp 37-54: compute, EinsteinCrystalPerturbation.tpp
    172-175: df *)
Definition pertDerivative (s : sim) : outcome (sim * R) :=
  check (match mPert s with None => false | _ => true end) ;;
  s' <- refresh s ;;
  match mPert s' with
  | None => UB
  | Some q => Ok (s', eUn q - eEc q)
  end.

(** HamiltonianAnalyzer.tpp 56-81: compute; ideal, field and total *)
Definition hamAnalyzer (s : sim) : outcome (sim * (R * R * R)) :=
  s' <- refresh s ;;
  check (yHasC (mSys s')) ;; check (fWc (mK s')) ;; check (fH (mK s')) ;;
  Ok (s', (hIdeal (kH (mK s')), hField (kH (mK s')), hTot (kH (mK s')))).
End Analyzers.
