(** Specification vocabulary for meshes, independent of the model. *)
From Coq Require Import ZArith List.
Import ListNotations.
Local Open Scope Z_scope.

(** Number of points of a mesh: product of the dimensions. *)
Fixpoint prodZ (l : list Z) : Z := match l with [] => 1 | d :: ds => d * prodZ ds end.

Definition positive (dims : list Z) : Prop := Forall (fun d => 0 < d) dims.

(** [pos] is a grid position of the mesh with dimensions [dims]. *)
Definition in_box (dims pos : list Z) : Prop := Forall2 (fun d p => 0 <= p < d) dims pos.

(** Lexicographic order, first component most significant. *)
Fixpoint lex_lt (p q : list Z) : Prop :=
  match p, q with
  | a :: p', b :: q' => a < b \/ (a = b /\ lex_lt p' q')
  | _, _ => False
  end.

(** start, start+1, ..., start+len-1 *)
Definition zseq (start : Z) (len : nat) : list Z := map (fun i => start + Z.of_nat i) (seq 0 len).

(** The n-th position when the first index runs fastest: mixed-radix digits of
    n, least significant digit first. *)
Fixpoint fpos (dims : list Z) (n : Z) : list Z :=
  match dims with
  | [] => []
  | d :: ds => n mod d :: fpos ds (n / d)
  end.
