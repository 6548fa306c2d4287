(** Model of src/pscf/math/TridiagonalSolver.cpp in exact real arithmetic.

    Arrays are functions on indices.  In gaussElimination element i+1 of d_ and
    element i of l_ are assigned exactly once, in pass i, from values that are
    final; the loop is therefore written as a recursion on the index. *)
From Coq Require Import Reals Arith.
Local Open Scope R_scope.

(** The object after computeLU: n_, d_ (pivots), u_, l_ (multipliers). *)
Record trisolver := mkTri { t_n : nat; t_d : nat -> R; t_u : nat -> R; t_l : nat -> R }.

(** TridiagonalSolver.cpp 73-81: d_[i+1] -= (l_[i]/d_[i])*u_[i]. *)
Fixpoint pivot (d u l : nat -> R) (i : nat) : R :=
  match i with
  | O => d O
  | S k => d (S k) - l k / pivot d u l k * u k
  end.

(** TridiagonalSolver.cpp 59-81. *)
Definition computeLU (n : nat) (d u l : nat -> R) : trisolver :=
  mkTri n (pivot d u l) u (fun i => l i / pivot d u l i).

(** TridiagonalSolver.cpp 43-54: symmetric matrix. *)
Definition computeLUsym (n : nat) (d u : nat -> R) : trisolver := computeLU n d u u.

(** TridiagonalSolver.cpp 103-116: y = U b, then x = L y. *)
Definition mulU (t : trisolver) (b : nat -> R) (i : nat) : R :=
  if (S i =? t_n t)%nat then t_d t i * b i else t_d t i * b i + t_u t i * b (S i).
Definition multiply (t : trisolver) (b : nat -> R) (i : nat) : R :=
  match i with
  | O => mulU t b O
  | S k => mulU t b (S k) + t_l t k * mulU t b k
  end.

(** TridiagonalSolver.cpp 123-127: forward substitution. *)
Fixpoint fsub (t : trisolver) (b : nat -> R) (i : nat) : R :=
  match i with
  | O => b O
  | S k => b (S k) - t_l t k * fsub t b k
  end.

(** TridiagonalSolver.cpp 129-133: back substitution; [bsub t y k] is
    x[n_-1-k]. *)
Fixpoint bsub (t : trisolver) (y : nat -> R) (k : nat) : R :=
  match k with
  | O => y (t_n t - 1)%nat / t_d t (t_n t - 1)%nat
  | S j => let i := (t_n t - 2 - j)%nat in (y i - t_u t i * bsub t y j) / t_d t i
  end.
Definition solve (t : trisolver) (b : nat -> R) (i : nat) : R :=
  bsub t (fsub t b) (t_n t - 1 - i).
