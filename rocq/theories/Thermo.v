(** Model of prdc/system/ScftThermoTmpl.tpp (with rpc/scft/ScftThermo.cpp):
    free energy and pressure of a periodic system.  double is modelled by R;
    sums that the code accumulates in one variable are added in any order. *)
From Coq Require Import Reals Bool Arith.
From Verif Require Import Base RSum ThermoSpec.
Local Open Scope R_scope.

(** What compute reads: w().hasData(), c().hasData(), the species (phi, mu, and
    length, nBead or size), chi, the fields on the grid and in the basis (basis
    fields are allocated whenever isSymmetric is true), h if h().hasData(), and
    mask().phiTot(). *)
Record thermoIn := mkThermoIn {
  tHasW : bool; tHasC : bool;
  tNm : nat;
  tNp : nat; tPol : nat -> speciesData;
  tNs : nat; tSol : nat -> speciesData;
  tChi : nat -> nat -> R;
  tMesh : nat; tW : nat -> nat -> R; tC : nat -> nat -> R;
  tNb : nat; tWb : nat -> nat -> R; tCb : nat -> nat -> R;
  tWSym : bool;
  tHasH : bool; tH : nat -> nat -> R; tHb : nat -> nat -> R; tHSym : bool;
  tPhiTot : R
}.
Record thermoOut := mkThermoOut { oIdeal : R; oExt : R; oInter : R; oHelmholtz : R; oPressure : R }.

(** rpc/scft/ScftThermo.cpp 41-52: innerProduct. *)
Definition innerProduct (n : nat) (a b : nat -> R) : R := rsum n (fun k => a k * b k).

(** ScftThermoTmpl.tpp 72-102: one loop over species. *)
Definition idealSum (n : nat) (s : nat -> speciesData) : R :=
  rsum n (fun i => if Rlt_dec (/ 100000000) (dPhi (s i)) then dPhi (s i) * (dMu (s i) - 1) / dSize (s i) else 0).
(** 213-244: one loop over species of the corrections to the pressure. *)
Definition muSum (n : nat) (s : nat -> speciesData) : R :=
  rsum n (fun i => if Rlt_dec (/ 100000000) (dPhi (s i)) then dMu (s i) * dPhi (s i) / dSize (s i) else 0).

(** 168-207: the loops over pairs i <= j. *)
Definition pairSum (nm : nat) (chi : nat -> nat -> R) (p : nat -> nat -> R) : R :=
  rsum nm (fun i => rsum nm (fun j =>
    if (i <=? j)%nat then
      if Rlt_dec (/ 1000000000) (Rabs (chi i j))
      then (if (i =? j)%nat then 1 / 2 * chi i j * p i j else chi i j * p i j) else 0
    else 0)).

(** ScftThermoTmpl.tpp 51-247: compute, when hasData_ is false. *)
Definition thermoCompute (t : thermoIn) : outcome thermoOut :=
  check (tHasW t) ;;
  check (tHasC t) ;;
  let fMix := idealSum (tNp t) (tPol t) + idealSum (tNs t) (tSol t) in
  let temp :=
    if tWSym t then 0 - rsum (tNm t) (fun i => rsum (tNb t) (fun k => tWb t i k * tCb t i k))
    else (0 - rsum (tNm t) (fun i => innerProduct (tMesh t) (tW t i) (tC t i))) / INR (tMesh t) in
  let fIdeal := fMix + temp / tPhiTot t in
  let fExt :=
    if tHasH t then
      (if tWSym t && tHSym t then rsum (tNm t) (fun i => rsum (tNb t) (fun k => tHb t i k * tCb t i k))
       else rsum (tNm t) (fun i => innerProduct (tMesh t) (tH t i) (tC t i)) / INR (tMesh t)) / tPhiTot t
    else 0 in
  let fInter :=
    (if tWSym t then pairSum (tNm t) (tChi t) (fun i j => rsum (tNb t) (fun k => tCb t i k * tCb t j k))
     else pairSum (tNm t) (tChi t) (fun i j => innerProduct (tMesh t) (tC t i) (tC t j)) / INR (tMesh t)) / tPhiTot t in
  let f := fIdeal + fExt + fInter in
  Ok (mkThermoOut fIdeal fExt fInter f (- f + muSum (tNp t) (tPol t) + muSum (tNs t) (tSol t))).
