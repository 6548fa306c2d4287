(** Specification of the mean-field free energy of an incompressible mixture in a
    volume of which the fraction P is accessible. *)
From Coq Require Import Reals Arith.
From Verif Require Import RSum.
Local Open Scope R_scope.

(** Average over the n points of a grid. *)
Definition average (n : nat) (f : nat -> R) : R := rsum n f / INR n.

(** A molecular species: volume fraction, chemical potential, size. *)
Record speciesData := mkSpeciesData { dPhi : R; dMu : R; dSize : R }.

(** Contribution of the translational entropy, sum of phi (mu - 1) / size. *)
Definition translational (ns : nat) (s : nat -> speciesData) : R :=
  rsum ns (fun i => dPhi (s i) * (dMu (s i) - 1) / dSize (s i)).
(** sum of phi mu / size. *)
Definition gibbs (ns : nat) (s : nat -> speciesData) : R :=
  rsum ns (fun i => dPhi (s i) * dMu (s i) / dSize (s i)).

(** Energy density of fields w, h and concentrations c of nm types of monomer at
    one point: sum_i (w_i - h_i) c_i - (1/2) sum_ij chi_ij c_i c_j. *)
Definition density (nm : nat) (chi : nat -> nat -> R) (w h c : nat -> R) : R :=
  rsum nm (fun i => (w i - h i) * c i) - 1 / 2 * rsum nm (fun i => rsum nm (fun j => chi i j * c i * c j)).

(** Helmholtz free energy per monomer and pressure; [w i x] is the field of
    monomer type i at grid point x. *)
Definition freeEnergy (n nm ns : nat) (chi : nat -> nat -> R) (P : R) (s : nat -> speciesData)
    (w h c : nat -> nat -> R) : R :=
  translational ns s - average n (fun x => density nm chi (fun i => w i x) (fun i => h i x) (fun i => c i x)) / P.
Definition pressureOf (n nm ns : nat) (chi : nat -> nat -> R) (P : R) (s : nat -> speciesData)
    (w h c : nat -> nat -> R) : R :=
  gibbs ns s - freeEnergy n nm ns chi P s w h c.
