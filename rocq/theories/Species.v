(** Model of src/pscf/chem/Species.cpp and of the solvent solvers
    (src/rpc/solvers/Solvent.tpp, src/r1d/solvers/Solvent.cpp), exact reals. *)
From Coq Require Import Reals List.
From Verif Require Import Base RSum.
Import ListNotations.
Local Open Scope R_scope.

Inductive ensemble := Closed | Open.
Record species := mkSpecies { sp_ens : ensemble; sp_phi : R; sp_mu : R; sp_q : R }.

(** Species.cpp 18-23: constructor. *)
Definition newSpecies : species := mkSpecies Closed 0 0 0.

(** Species.cpp 28-38: readParameters; the parameter file contains either phi
    ([inl]) or mu ([inr]).  No range test is made here. *)
Definition readSpecies (s : species) (v : R + R) : species :=
  match v with
  | inl phi => mkSpecies Closed phi (sp_mu s) (sp_q s)
  | inr mu => mkSpecies Open (sp_phi s) mu (sp_q s)
  end.

(** Species.cpp 43-49 *)
Definition setPhi (s : species) (phi : R) : outcome species :=
  match sp_ens s with
  | Open => Throw
  | Closed =>
      if Rle_dec 0 phi then
        if Rle_dec phi 1 then Ok (mkSpecies Closed phi (sp_mu s) (sp_q s)) else Throw
      else Throw
  end.

(** Species.cpp 54-58 *)
Definition setMu (s : species) (mu : R) : outcome species :=
  match sp_ens s with
  | Closed => Throw
  | Open => Ok (mkSpecies Open (sp_phi s) mu (sp_q s))
  end.

(** Species.cpp 63-72.  [ln] of a number that is not positive is 0 in the
    standard library and -inf or NaN in C++; theorems carry the guard. *)
Definition setQ (s : species) (q : R) : species :=
  match sp_ens s with
  | Closed => mkSpecies Closed (sp_phi s) (ln (sp_phi s / q)) q
  | Open => mkSpecies Open (exp (sp_mu s) * q) (sp_mu s) q
  end.

(** A call of one of the three functions. *)
Inductive sp_call := CPhi (v : R) | CMu (v : R) | CQ (v : R).
(** The object after a call; a call that raises an error changes nothing (the
    checks come before the assignment). *)
Definition sp_apply (s : species) (c : sp_call) : outcome species :=
  match c with
  | CPhi v => setPhi s v
  | CMu v => setMu s v
  | CQ v => Ok (setQ s v)
  end.
Fixpoint sp_run (s : species) (l : list sp_call) : outcome species :=
  match l with
  | [] => Ok s
  | c :: l' => s' <- sp_apply s c ;; sp_run s' l'
  end.

(** rpc Solvent.tpp 56-97: compute; [nx] grid points, [size] the solvent size.
    Returns the species and the concentration field. *)
Definition rpcSolvent (nx : nat) (size : R) (s : species) (w : nat -> R) (phiTot : R)
  : species * (nat -> R) :=
  let e := fun i => exp (- size * w i) in
  let Q := rsum nx e / INR nx / phiTot in
  let s' := setQ s Q in
  let prefactor := sp_phi s' / Q in
  (s', fun i => e i * prefactor).

(** r1d Solvent.cpp 42-73: compute, where [avg] is Domain::spatialAverage. *)
Definition r1dSolvent (avg : (nat -> R) -> R) (size : R) (s : species) (w : nat -> R)
  : species * (nat -> R) :=
  let e := fun i => exp (- size * w i) in
  let Q := avg e in
  let s' := setQ s Q in
  let prefactor := sp_phi s' / Q in
  (s', fun i => e i * prefactor).
