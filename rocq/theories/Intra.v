(** Model of pscf/chem/EdgeIterator.cpp and of
    rpc/fts/compressor/IntraCorrelation.tpp (the same code, up to the copy to the
    device, is in rpg/fts/compressor/IntraCorrelation.tpp).

    Simplifications: reals for doubles; the loops over wavevectors inside the loops
    over blocks are independent, so that one element is computed at a time, from
    its value of Gsq; a pair (-1,-1) of path() is [None] (Polymer.v); division by
    zero (no blocks, or vMonomer = 0) is not given a special outcome. *)
From Coq Require Import Reals List Bool Arith.
From Verif Require Import Base RSum PolymerModel Polymer Debye.
Import ListNotations.

(** ** EdgeIterator *)

(** polymerPtr_->path(u, v)[0] == e, with -1 for [None] *)
Definition leaves (p : polymer) (u v e : nat) : bool := viaBlock (pathAt (p_paths p) u v) e.

(** EdgeIterator.cpp 44-68: vertex of the edge a that is nearer to the other edge,
    and the direction of the source edge; lines 70-90 do the same for the target,
    and take the other vertex *)
Definition findEnd (p : polymer) (a b : nat) : outcome bool :=
  let (s0, s1) := edgeAt (p_edges p) a in
  let (t0, t1) := edgeAt (p_edges p) b in
  if leaves p s0 t0 a then
    check (leaves p s0 t1 a) ;;
    check (negb (leaves p s1 t0 a)) ;;
    check (negb (leaves p s1 t1 a)) ;;
    Ok false
  else if leaves p s1 t0 a then
    check (leaves p s1 t1 a) ;;
    check (negb (leaves p s0 t0 a)) ;;
    check (negb (leaves p s0 t1 a)) ;;
    Ok true
  else Throw.

(** currentEdgeId_, currentDirectionId_, currentVertexId_, targetVertexId_ *)
Record iter := Iter { i_edge : nat; i_dir : bool; i_vertex : nat; i_target : nat }.

(** EdgeIterator.cpp 33-92: begin *)
Definition begin (p : polymer) (a b : nat) : outcome iter :=
  check (negb (a =? b)) ;;
  d <- findEnd p a b ;;
  d' <- findEnd p b a ;;
  Ok (Iter a d (vertexId (edgeAt (p_edges p) a) (negb d)) (vertexId (edgeAt (p_edges p) b) d')).

(** EdgeIterator.cpp 139-151: notEnd *)
Definition notEnd (i : iter) : bool := negb (i_vertex i =? i_target i).

(** EdgeIterator.cpp 97-118: operator ++ *)
Definition next (p : polymer) (i : iter) : outcome iter :=
  check (notEnd i) ;;
  match pathAt (p_paths p) (i_vertex i) (i_target i) with
  | None => Throw
  | Some (e, d) =>
      check (e <? length (p_edges p)) ;;
      let g := edgeAt (p_edges p) e in
      check (vertexId g d =? i_vertex i) ;;
      Ok (Iter e d (vertexId g (negb d)) (i_target i))
  end.

(** for (begin(a, b); notEnd(); ++): the edges visited, with directions *)
Fixpoint edgesFrom (fuel : nat) (p : polymer) (i : iter) : outcome (list dart) :=
  if notEnd i then
    match fuel with
    | O => NoFuel
    | S f => j <- next p i ;; l <- edgesFrom f p j ;; Ok ((i_edge i, i_dir i) :: l)
    end
  else Ok [].
Definition edges (fuel : nat) (p : polymer) (a b : nat) : outcome (list dart) :=
  i <- begin p a b ;; edgesFrom fuel p i.

(** ** IntraCorrelation *)

Local Open Scope R_scope.

(** A polymer species: graph, Edge::length, Edge::nBead, the statistical segment
    length of the monomer type of every block, and the volume fraction *)
Record chain := Chain {
  c_graph : polymer; c_length : nat -> R; c_nBead : nat -> nat; c_kuhn : nat -> R; c_phi : R }.
Record small_ := Small { s_phi : R; s_size : R }.
Definition nBlock (c : chain) : nat := length (p_edges (c_graph c)).

Section Corr.
Variables (fuel : nat) (m : model) (v : R).

(** IntraCorrelation.tpp 110-114, 132, 141, 160-164, 173-177, 197-201 *)
Definition blockLength (c : chain) (j : nat) : R :=
  match m with Thread => c_length c j | Bead => INR (c_nBead c j) end.
(** IntraCorrelation.tpp 107-116: polymerLength *)
Definition polymerLength (c : chain) : R := rsum (nBlock c) (blockLength c).
(** IntraCorrelation.tpp 119: cPolymer *)
Definition cPolymer (c : chain) : R := c_phi c / (polymerLength c * v).

(** IntraCorrelation.tpp 129-148: the term of one block *)
Definition diagTerm (c : chain) (ksq : R) (j : nat) : R :=
  match m with
  | Thread => dt ksq (blockLength c j) (c_kuhn c j)
  | Bead => db ksq (blockLength c j) (c_kuhn c j)
  end.
(** IntraCorrelation.tpp 190-206: the loop over intermediate blocks *)
Fixpoint sumBlocks (c : chain) (ia ib : nat) (l : list dart) (rsq : R) : R :=
  match l with
  | [] => rsq
  | z :: l' =>
      let e := fst z in
      sumBlocks c ia ib l'
        (if (negb (e =? ia) && negb (e =? ib))%nat then rsq + blockLength c e * c_kuhn c e * c_kuhn c e else rsq)
  end.
(** IntraCorrelation.tpp 182-206: rsqAB *)
Definition rsqAB (c : chain) (ia ib : nat) : outcome R :=
  l <- edges fuel (c_graph c) ia ib ;;
  Ok (sumBlocks c ia ib l
        (match m with Thread => 0 | Bead => 5 / 10 * (c_kuhn c ia * c_kuhn c ia + c_kuhn c ib * c_kuhn c ib) end)).
Definition endTerm (c : chain) (ksq : R) (j : nat) : R :=
  match m with
  | Thread => et ksq (blockLength c j) (c_kuhn c j)
  | Bead => eb ksq (blockLength c j) (c_kuhn c j)
  end.
(** IntraCorrelation.tpp 168-231: body of the loops over pairs of blocks *)
Definition pairTerm (c : chain) (ksq : R) (ia ib : nat) (x : R) : outcome R :=
  rsq <- rsqAB c ia ib ;;
  Ok (x + 2 * cPolymer c * exp (- rsq * ksq / 6) * endTerm c ksq ia * endTerm c ksq ib).

(** for (i = first; i < first + n; ++i) *)
Fixpoint loop {A} (n first : nat) (f : nat -> A -> outcome A) (x : A) : outcome A :=
  match n with
  | O => Ok x
  | S n' => y <- f first x ;; loop n' (S first) f y
  end.

(** IntraCorrelation.tpp 100-236: one polymer species *)
Definition polymerCorr (ksq : R) (c : chain) (x : R) : outcome R :=
  y <- loop (nBlock c) 0 (fun j y => Ok (y + cPolymer c * diagTerm c ksq j)) x ;;
  (if (1 <? nBlock c)%nat
   then loop (nBlock c - 1) 1 (fun ia y => loop ia 0 (fun ib y => pairTerm c ksq ia ib y) y) y
   else Ok y).

(** IntraCorrelation.tpp 238-250: solvents *)
Definition solventCorr (s : small_) (x : R) : R := x + s_phi s * s_size s / v.

Fixpoint overChains (ksq : R) (l : list chain) (x : R) : outcome R :=
  match l with
  | [] => Ok x
  | c :: l' => y <- polymerCorr ksq c x ;; overChains ksq l' y
  end.

(** IntraCorrelation.tpp 58-252: the element of [correlations] with Gsq = ksq *)
Definition intraCorrelation (cs : list chain) (ss : list small_) (ksq : R) : outcome R :=
  x <- overChains ksq cs 0 ;;
  Ok (fold_left (fun x s => solventCorr s x) ss x).

End Corr.
