(** Specification for the stored properties of wavevectors. *)
From Coq Require Import Reals ZArith.
From Verif Require Import RSum.
Local Open Scope R_scope.

Section S.
(** Number of dimensions, reciprocal basis vectors (k i j: component j of vector
    i) and number of grid points along each axis. *)
Variables (D : nat) (k : nat -> nat -> R) (d : nat -> Z).
Definition length2 (v : nat -> Z) : R := rsum D (fun j => (rsum D (fun i => k i j * IZR (v i))) ^ 2).
(** u and v are the same wave on the grid. *)
Definition alias (v u : nat -> Z) : Prop := forall i, (i < D)%nat -> exists s, u i = (v i + s * d i)%Z.
(** u is a shortest wave equivalent to v. *)
Definition shortest (v u : nat -> Z) : Prop :=
  alias v u /\ forall u', alias v u' -> length2 u <= length2 u'.
End S.
