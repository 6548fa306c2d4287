(** Space groups acting on the waves and on the points of a periodic mesh, independent
    of how the code builds a basis. *)
From Coq Require Import ZArith QArith Qcanon Qreals Reals List Bool.
From Coquelicot Require Import Complex.
From Verif Require Import RSum MeshSpec Symmetry.
From Coq Require Import List.
Import ListNotations.
Local Open Scope Z_scope.
Local Open Scope list_scope.

Section Spec.
Variable dims : list Z.
Let D := length dims.
(** The wave n', modulo the mesh, is n R: what the operation s makes of the wave n. *)
Definition turns (s : symm) (n n' : list Z) : Prop := forall i, (i < D)%nat ->
  (nth i dims 0 | nth i n' 0 - zsum D (fun j => nth j n 0 * Rm s j i)).
(** n . t, in turns *)
Definition shiftPhase (s : symm) (n : list Z) : R := rsum D (fun k => IZR (nth k n 0%Z) * Q2R (this (tr s k)))%R.
(** exp(2 pi i x) *)
Definition turn (x : R) : C := (cos (2 * PI * x), sin (2 * PI * x)).
(** The grid point r' is R r + t modulo the lattice. *)
Definition moves (s : symm) (r r' : list Z) : Prop := forall i, (i < D)%nat -> exists z : Z,
  (IZR (nth i r' 0%Z) / IZR (nth i dims 0%Z) =
   rsum D (fun j => IZR (Rm s i j) * (IZR (nth j r 0%Z) / IZR (nth j dims 0%Z))) + Q2R (this (tr s i)) + IZR z)%R.
(** A field on the grid has the symmetry of the group. *)
Definition invariant (g : list symm) (f : list Z -> R) : Prop := forall s r r', In s g ->
  in_box dims r -> in_box dims r' -> moves s r r' -> f r' = f r.
(** Operations that the mesh admits: translations lead from grid points to grid points, and
    axes mixed by a rotation have the same number of points. *)
Definition admits (g : list symm) : Prop := forall s, In s g ->
  (forall i, (i < D)%nat -> (Zpos (Qden (tr s i)) | nth i dims 0)) /\
  (forall i j, (i < D)%nat -> (j < D)%nat -> Rm s i j <> 0 -> nth i dims 0 = nth j dims 0).
End Spec.
(** All translations are multiples of 1/N. *)
Definition fractions (D : nat) (g : list symm) (N : Z) : Prop := forall s i, In s g -> (i < D)%nat -> (Zpos (Qden (tr s i)) | N).
