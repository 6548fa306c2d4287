(** Specification of thin films, independent of the generators. *)
From Coq Require Import Reals ZArith QArith Qcanon Qreals List Arith.
Import ListNotations.
Local Open Scope R_scope.

(** Inner product of two vectors of R^D. *)
Fixpoint inner (D : nat) (a b : nat -> R) : R :=
  match D with O => 0 | S n => inner n a b + a n * b n end.

(** The vector v n is orthogonal to the other vectors v 0, ..., v (D-1). *)
Definition normalTo (D : nat) (v : nat -> nat -> R) (n : nat) : Prop :=
  forall j, (j < D)%nat -> j <> n -> inner D (v n) (v j) = 0.

(** Coordinate i of the image of the point x (reduced coordinates) under the
    operation with rotation r and translation t. *)
Fixpoint rowTimes (D : nat) (r : nat -> Z) (x : nat -> R) : R :=
  match D with O => 0 | S n => rowTimes n r x + IZR (r n) * x n end.
Definition imageCoord (D : nat) (r : nat -> nat -> Z) (t : nat -> Qc) (x : nat -> R) (i : nat) : R :=
  rowTimes D (r i) x + Q2R (this (t i)).

(** Grid point c' is the image of grid point c (up to lattice translations) on a
    mesh with dimensions d. *)
Definition gridImage (D : nat) (d : nat -> nat) (r : nat -> nat -> Z) (t : nat -> Qc) (c c' : nat -> nat) : Prop :=
  forall i, (i < D)%nat ->
    exists k : Z, INR (c' i) / INR (d i) = imageCoord D r t (fun j => INR (c j) / INR (d j)) i + IZR k.

(** Points of the grid and their rank in a field array. *)
Definition onGrid (d : nat -> nat) (c : nat -> nat) : Prop := forall i, (i < 3)%nat -> (c i < d i)%nat.
Definition rank3 (d c : nat -> nat) : nat := ((c 0 * d 1 + c 1) * d 2 + c 2)%nat.

(** No two of the vectors are parallel (or zero). *)
Definition independentPairs (D : nat) (v : nat -> nat -> R) : Prop :=
  forall i j, (i < D)%nat -> (j < D)%nat -> i <> j ->
    inner D (v i) (v j) * inner D (v i) (v j) < inner D (v i) (v i) * inner D (v j) (v j).
(** Parameters with the value of one of them replaced. *)
Definition replaced (p : nat -> R) (r : nat) (x : R) (i : nat) : R := if Nat.eqb i r then x else p i.
