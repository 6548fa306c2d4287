(** Specification vocabulary for polymer graphs, independent of the model.

    A branched polymer with [length es] blocks has [S (length es)] vertices;
    block b joins the two vertices of element b of [es]. *)
From Coq Require Import List Bool Arith Relations.
Import ListNotations.

Definition s_edge (es : list (nat * nat)) (b : nat) : nat * nat := nth b es (0, 0).

(** A propagator (b, d) starts at one end of block b and ends at the other. *)
Definition s_start (es : list (nat * nat)) (x : nat * bool) : nat :=
  if snd x then snd (s_edge es (fst x)) else fst (s_edge es (fst x)).
Definition s_end (es : list (nat * nat)) (x : nat * bool) : nat :=
  if snd x then fst (s_edge es (fst x)) else snd (s_edge es (fst x)).
Definition is_prop (es : list (nat * nat)) (x : nat * bool) : Prop := fst x < length es.

(** All vertex ids are in range and no block joins a vertex to itself. *)
Definition well_formed (es : list (nat * nat)) : Prop :=
  Forall (fun e => fst e <= length es /\ snd e <= length es /\ fst e <> snd e) es.

(** y is fed by x: x ends where y starts, and they belong to different blocks. *)
Definition feeds (es : list (nat * nat)) (x y : nat * bool) : Prop :=
  is_prop es x /\ is_prop es y /\ s_end es x = s_start es y /\ fst x <> fst y.

(** No propagator depends on itself: the graph has no cycle. *)
Definition acyclic (es : list (nat * nat)) : Prop :=
  forall x, ~ clos_trans _ (feeds es) x x.

(** Two vertices joined by a block. *)
Definition adjacent (es : list (nat * nat)) (u v : nat) : Prop :=
  exists b, b < length es /\ (s_edge es b = (u, v) \/ s_edge es b = (v, u)).
Definition connected (es : list (nat * nat)) : Prop :=
  forall u v, u <= length es -> v <= length es -> clos_refl_trans _ (adjacent es) u v.

(** A valid branched architecture (nVertex = nBlock + 1 by construction). *)
Definition tree (es : list (nat * nat)) : Prop := well_formed es /\ connected es.

(** [x] occurs in [l] strictly before [y]. *)
Definition before {A} (l : list A) (x y : A) : Prop :=
  exists l1 l2, l = l1 ++ y :: l2 /\ In x l1.
