(** The continuous-chain theory on a periodic grid, as the reference for the
    thread model: propagators of every block solve the modified diffusion
    equation, with the Laplacian of trigonometric interpolation, and start from
    the product of the propagators that end at their vertex. *)
From Coq Require Import Reals ZArith List.
From Coquelicot Require Import Coquelicot.
From Coq Require Import List.
From Verif Require Import RSum PolymerSpec Mesh Fft.
Import ListNotations.
Local Open Scope R_scope.

Section S.
(** Dimensions of the grid and |k|^2 of every wavevector of the full grid. *)
Variables (dims : list Z) (K : list Z -> R).
(** Second derivative of the trigonometric polynomial through the values f. *)
Definition laplacian (f : nat -> R) (r : nat) : R :=
  - rsum (nR dims) (fun s => rsum (nR dims) (fun p =>
      K (gridPos dims p) * cos (phase dims (gridPos dims p) (gridPos dims r) - phase dims (gridPos dims p) (gridPos dims s)))
    * f s / INR (nR dims)).
(** du/ds = (b^2/6) lap u - w u at every grid point. *)
Definition mde (kuhn : R) (w : nat -> R) (u : R -> nat -> R) : Prop :=
  forall s i, (i < nR dims)%nat ->
    is_derive (fun s => u s i) s (kuhn * kuhn / 6 * laplacian (u s) i - w i * u s i).
(** len b, kuhn b, w b: length, statistical segment length and field of block b. *)
Definition exactPropagators (es : list (nat * nat)) (len kuhn : nat -> R) (w : nat -> nat -> R)
    (U : nat * bool -> R -> nat -> R) : Prop :=
  (forall x, is_prop es x -> mde (kuhn (fst x)) (w (fst x)) (U x)) /\
  (forall x l i, is_prop es x -> NoDup l -> (forall y, In y l <-> feeds es y x) -> (i < nR dims)%nat ->
     U x 0 i = lprod (fun y => U y (len (fst y)) i) l).
Definition average (f : nat -> R) : R := rsum (nR dims) f / INR (nR dims).
End S.
