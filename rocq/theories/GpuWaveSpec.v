(** Specification for minimum images computed on a GPU. *)
From Coq Require Import Reals ZArith List Arith Permutation.
From Verif Require Import RSum WaveListSpec.
Import ListNotations.
Local Open Scope nat_scope.

(** The shifts that 32 (D = 2) or 128 (D = 3) threads examine: all of those with
    components -2, ..., 2, and the next few in lexicographic order. *)
Definition window (D : nat) (s : nat -> Z) : Prop :=
  match D with
  | 2 => (-2 <= s 1%nat <= 2 /\ -2 <= s 0%nat /\ (s 0%nat <= 3 \/ s 0%nat = 4 /\ s 1%nat <= -1))%Z
  | 3 => (-2 <= s 1%nat <= 2 /\ -2 <= s 2%nat <= 2 /\ -2 <= s 0%nat /\ (s 0%nat <= 2 \/ s 0%nat = 3 /\ s 1%nat = -2 /\ s 2%nat <= 0))%Z
  | _ => False
  end.

Definition shifted (D : nat) (v d s u : nat -> Z) : Prop :=
  forall i, i < D -> u i = (v i + s i * d i)%Z.

(** u comes before v in lexicographic order. *)
Definition before (D : nat) (u v : nat -> Z) : Prop :=
  exists i, i < D /\ (u i < v i)%Z /\ forall j, j < i -> u j = v j.

(** u is a shortest image of v in the window, and the last of these. *)
Definition least (D : nat) (k : nat -> nat -> R) (d v u : nat -> Z) : Prop :=
  (exists s, window D s /\ shifted D v d s u) /\
  forall s u', window D s -> shifted D v d s u' ->
    (length2 D k u <= length2 D k u')%R /\
    (length2 D k u' = length2 D k u -> ~ before D u u').
