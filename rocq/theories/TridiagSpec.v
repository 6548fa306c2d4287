(** Specification vocabulary: the tridiagonal matrix with diagonal d, upper
    off-diagonal u and lower off-diagonal l, applied to a vector. *)
From Coq Require Import Reals Arith.
Local Open Scope R_scope.

(** Row i of A x, where A(i,i) = d i, A(i,i+1) = u i, A(i+1,i) = l i. *)
Definition tri_row (n : nat) (d u l : nat -> R) (x : nat -> R) (i : nat) : R :=
  (match i with O => 0 | S k => l k * x k end)
  + d i * x i
  + (if (S i <? n)%nat then u i * x (S i) else 0).

(** Strict row diagonal dominance. *)
Definition diag_dominant (n : nat) (d u l : nat -> R) : Prop :=
  forall i, (i < n)%nat ->
    (match i with O => 0 | S k => Rabs (l k) end)
    + (if (S i <? n)%nat then Rabs (u i) else 0) < Rabs (d i).
