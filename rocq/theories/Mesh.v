(** Model of src/pscf/mesh: Mesh, MeshIterator, MeshIteratorFortran.

    An IntVec<D> is a non-empty [list Z]; D is its length.  [int] is [Z]
    (no overflow).  C++ integer division is [Z.quot]. *)
From Coq Require Import ZArith List Bool Lia.
From Verif Require Import Base.
Import ListNotations.
Local Open Scope Z_scope.

(** Mesh.tpp 56-60: the test that all dimensions are positive. *)
Definition all_positive (dims : list Z) : bool := forallb (fun d => negb (d <=? 0)) dims.

(** Mesh.tpp 63-66 (and MeshIteratorFortran.tpp 61-64): offsets_[D-1] = 1 and
    offsets_[i-1] = offsets_[i]*dimensions_[i], i from D-1 down to 1. *)
Fixpoint mk_offsets (dims : list Z) : list Z :=
  match dims with
  | [] => []
  | _ :: ds =>
      match ds with
      | [] => [1]
      | d1 :: _ =>
          match mk_offsets ds with
          | [] => []
          | o1 :: os => o1 * d1 :: o1 :: os
          end
      end
  end.

Record mesh := mkMesh { dimensions : list Z; offsets : list Z; size : Z }.

(** Mesh.tpp 19-25: default constructor, all members zero (D given). *)
Definition default_mesh (D : nat) : mesh := mkMesh (repeat 0 D) (repeat 0 D) 0.

(** Mesh.tpp 52-68: setDimensions (the old value of the object is irrelevant,
    all three members are overwritten). *)
Definition setDimensions (dims : list Z) : outcome mesh :=
  if all_positive dims then
    let o := mk_offsets dims in
    Ok (mkMesh dims o (hd 0 o * hd 0 dims))
  else Throw.

(** Mesh.tpp 76-83: the loop of rank() over i = 0..D-2 followed by the last
    component.  The asserts (79, 81) are debug-only and not modelled. *)
Fixpoint rank_loop (offs pos : list Z) (acc : Z) : Z :=
  match pos with
  | [] => acc
  | [p] => acc + p
  | p :: ps => rank_loop (tl offs) ps (acc + p * hd 0 offs)
  end.

(** Mesh.tpp 71-85. *)
Definition rank (m : mesh) (pos : list Z) : Z := rank_loop (offsets m) pos 0.

(** Mesh.tpp 95-99: the loop of position(); one list element of [offs] per
    component, the last component receives the remainder. *)
Fixpoint position_loop (offs : list Z) (rem : Z) : list Z :=
  match offs with
  | [] => []
  | [_] => [rem]
  | o :: os => let p := Z.quot rem o in p :: position_loop os (rem - p * o)
  end.

(** Mesh.tpp 88-101. *)
Definition position (m : mesh) (id : Z) : list Z := position_loop (offsets m) id.

(** Mesh.tpp 104-113: isInMesh for one coordinate. *)
Definition isInMesh1 (dim coordinate : Z) : bool :=
  let result := true in
  let result := if coordinate <? 0 then false else result in
  if dim <=? coordinate then false else result.

(** Mesh.tpp 116-127: isInMesh for a vector. *)
Fixpoint isInMesh (dims pos : list Z) : bool :=
  match dims, pos with
  | d :: ds, p :: ps => isInMesh1 d p && isInMesh ds ps
  | _, _ => true
  end.

(** Mesh.tpp 130-141: shift of one coordinate; returns (new coordinate, shift). *)
Definition shift1 (dim coordinate : Z) : Z * Z :=
  let s := if 0 <=? coordinate then Z.quot coordinate dim
           else -1 + Z.quot (coordinate + 1) dim in
  (coordinate - s * dim, s).

(** Mesh.tpp 144-152: shift of a vector; returns (new position, shifts). *)
Fixpoint shift (dims pos : list Z) : list Z * list Z :=
  match dims, pos with
  | d :: ds, p :: ps =>
      let (p', s) := shift1 d p in
      let (ps', ss) := shift ds ps in (p' :: ps', s :: ss)
  | _, _ => ([], [])
  end.

(** Mesh.h 237-242: serialize.  Saving appends [dimensions_[0]] D times to the
    archive; loading reads D integers into [dimensions_[0]], one after the
    other, and touches nothing else.  The archive is a list of integers. *)
Definition mesh_save (m : mesh) : list Z :=
  repeat (hd 0 (dimensions m)) (length (dimensions m)).
Fixpoint load_loop (D : nat) (ar : list Z) (dim0 : Z) : option Z :=
  match D with
  | O => Some dim0
  | S D' => match ar with [] => None | x :: ar' => load_loop D' ar' x end
  end.
Definition mesh_load (ar : list Z) (m : mesh) : outcome mesh :=
  match load_loop (length (dimensions m)) ar (hd 0 (dimensions m)) with
  | None => Throw
  | Some x => Ok (mkMesh (update (dimensions m) 0 x) (offsets m) (size m))
  end.

(* ------------------------------------------------------------------ *)
(** ** MeshIterator *)

Record mesh_iter := mkIter { it_dims : list Z; it_pos : list Z; it_rank : Z; it_size : Z }.

(** MeshIterator.tpp 41-55: setDimensions. *)
Definition it_setDimensions (dims : list Z) : outcome mesh_iter :=
  if all_positive dims then
    Ok (mkIter dims (repeat 0 (length dims)) 0 (fold_left Z.mul dims 1))
  else Throw.

(** MeshIterator.tpp 60-67: begin. *)
Definition it_begin (it : mesh_iter) : mesh_iter :=
  mkIter (it_dims it) (repeat 0 (length (it_dims it))) 0 (it_size it).

(** MeshIterator.tpp 75-101 and MeshIterator.h 146-176: the position part of
    operator++ / increment(i): the last component is incremented; a component
    that reaches its dimension is reset and the preceding one is incremented.
    The boolean is true when the component before this list has to be
    incremented. *)
Fixpoint it_increment (dims pos : list Z) : bool * list Z :=
  match dims, pos with
  | d :: ds, p :: ps =>
      let (carry, ps') := it_increment ds ps in
      if carry then
        let p1 := p + 1 in
        if p1 =? d then (true, 0 :: ps') else (false, p1 :: ps')
      else (false, p :: ps')
  | _, _ => (true, [])
  end.

Definition it_next (it : mesh_iter) : mesh_iter :=
  mkIter (it_dims it) (snd (it_increment (it_dims it) (it_pos it)))
         (it_rank it + 1) (it_size it).

(** MeshIterator.h 140-142 *)
Definition it_atEnd (it : mesh_iter) : bool := it_rank it =? it_size it.

(** for (it.begin(); !it.atEnd(); ++it) visit(rank, position) *)
Fixpoint it_loop (fuel : nat) (it : mesh_iter) : outcome (list (Z * list Z)) :=
  if it_atEnd it then Ok []
  else match fuel with
       | O => NoFuel
       | S f => l <- it_loop f (it_next it) ;; Ok ((it_rank it, it_pos it) :: l)
       end.
Definition it_visit (fuel : nat) (dims : list Z) : outcome (list (Z * list Z)) :=
  it <- it_setDimensions dims ;; it_loop fuel (it_begin it).

(* ------------------------------------------------------------------ *)
(** ** MeshIteratorFortran *)

Record fort_iter := mkFort {
  f_dims : list Z; f_offsets : list Z; f_pos : list Z;
  f_rank : Z; f_size : Z; f_atEnd : bool }.

(** MeshIteratorFortran.tpp 73-82: begin. *)
Definition f_begin (it : fort_iter) : outcome fort_iter :=
  check (0 <? f_size it) ;;
  Ok (mkFort (f_dims it) (f_offsets it) (repeat 0 (length (f_dims it))) 0 (f_size it) false).

(** MeshIteratorFortran.tpp 45-68: setDimensions. *)
Definition f_setDimensions (dims : list Z) : outcome fort_iter :=
  if all_positive dims then
    f_begin (mkFort dims (mk_offsets dims) (repeat 0 (length dims)) 0
                    (fold_left Z.mul dims 1) false)
  else Throw.

(** MeshIteratorFortran.tpp 93-110: the while loop; the boolean is the new
    value of atEnd_. *)
Fixpoint f_increment (dims pos : list Z) : bool * list Z :=
  match dims, pos with
  | d :: ds, p :: ps =>
      let p1 := p + 1 in
      if p1 =? d then
        match ds with
        | [] => (true, [0])
        | _ :: _ => let (e, ps') := f_increment ds ps in (e, 0 :: ps')
        end
      else (false, p1 :: ps)
  | _, _ => (false, pos)
  end.

(** MeshIteratorFortran.tpp 112-116: rank from position. *)
Fixpoint f_rank_loop (offs pos : list Z) (acc : Z) : Z :=
  match offs, pos with
  | o :: os, p :: ps => f_rank_loop os ps (acc + o * p)
  | _, _ => acc
  end.

(** MeshIteratorFortran.tpp 88-118: operator++ *)
Definition f_next (it : fort_iter) : outcome fort_iter :=
  check (negb (f_atEnd it)) ;;
  let (e, pos) := f_increment (f_dims it) (f_pos it) in
  Ok (mkFort (f_dims it) (f_offsets it) pos (f_rank_loop (f_offsets it) pos 0)
             (f_size it) e).

Fixpoint f_loop (fuel : nat) (it : fort_iter) : outcome (list (Z * list Z)) :=
  if f_atEnd it then Ok []
  else match fuel with
       | O => NoFuel
       | S f =>
           it' <- f_next it ;;
           l <- f_loop f it' ;; Ok ((f_rank it, f_pos it) :: l)
       end.
Definition f_visit (fuel : nat) (dims : list Z) : outcome (list (Z * list Z)) :=
  it <- f_setDimensions dims ;; it' <- f_begin it ;; f_loop fuel it'.
