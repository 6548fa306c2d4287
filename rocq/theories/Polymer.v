(** Model of src/pscf/chem: PolymerSpecies (graph part), Vertex, VertexIterator.

    A block (Edge) is a pair of vertex ids; block i is element i of the list.
    Direction ids 0/1 are [false]/[true].  The propagator id (block, direction)
    is a [dart].  Monomer ids, lengths and ensembles are not part of this file. *)
From Coq Require Import ZArith List Bool Arith Lia.
From Verif Require Import Base.
Import ListNotations.

Notation edge := (nat * nat)%type (only parsing).
Notation dart := (nat * bool)%type (only parsing).

(** Edge.h 296-297: vertexId(i), i = 0 or 1. *)
Definition vertexId (e : edge) (d : bool) : nat := if d then snd e else fst e.

Definition dart_eqb (x y : dart) : bool := (fst x =? fst y) && Bool.eqb (snd x) (snd y).

(** Vertex.h: the two arrays of propagator ids of a vertex. *)
Record vertex := mkVertex { outIds : list dart; inIds : list dart }.

(** Vertex.cpp 40-75: addEdge, for the vertex with index [id] and the block with
    index [b].  The negative-id tests (43-54) are made by the caller below,
    where ids are still integers. *)
Definition addEdge (id : nat) (v : vertex) (b : nat) (e : edge) : outcome vertex :=
  if fst e =? snd e then Throw
  else if fst e =? id then
    Ok (mkVertex (outIds v ++ [(b, false)]) (inIds v ++ [(b, true)]))
  else if snd e =? id then
    Ok (mkVertex (outIds v ++ [(b, true)]) (inIds v ++ [(b, false)]))
  else Throw.

(** vertices_[id].addEdge(edge): indexing outside the array is undefined. *)
Definition addEdgeAt (vs : list vertex) (id : nat) (b : nat) (e : edge) : outcome (list vertex) :=
  match nth_error vs id with
  | None => UB
  | Some v => v' <- addEdge id v b e ;; Ok (update vs id v')
  end.

(** PolymerSpecies.cpp 89-95: loop over blocks. *)
Fixpoint addEdges (vs : list vertex) (b : nat) (es : list edge) : outcome (list vertex) :=
  match es with
  | [] => Ok vs
  | e :: es' =>
      vs1 <- addEdgeAt vs (fst e) b e ;;
      vs2 <- addEdgeAt vs1 (snd e) b e ;;
      addEdges vs2 (S b) es'
  end.

(** PolymerSpecies.cpp 52, 56, 66-68: nVertex_ = nBlock_ + 1 empty vertices. *)
Definition initVertices (nBlock : nat) : list vertex := repeat (mkVertex [] []) (S nBlock).

Definition edgeAt (es : list edge) (b : nat) : edge := nth b es (0, 0).
Definition vertexAt (vs : list vertex) (v : nat) : vertex := nth v vs (mkVertex [] []).

(** *** makePlan *)

(** isFinished matrix and propagatorIds_[0..nPropagator_-1]. *)
Record plan_state := mkPS { finished : list dart; plan : list dart }.
Definition isFinished (s : plan_state) (x : dart) : bool := existsb (dart_eqb x) (finished s).

(** PolymerSpecies.cpp 139-148: the readiness test at the head vertex. *)
Definition planReady (es : list edge) (vs : list vertex) (s : plan_state) (x : dart) : bool :=
  forallb (fun p => (fst p =? fst x) || isFinished s p)
          (inIds (vertexAt vs (vertexId (edgeAt es (fst x)) (snd x)))).

(** PolymerSpecies.cpp 136-155: body of the double loop for (iBlock, iDirection). *)
Definition planVisit (es : list edge) (vs : list vertex) (s : plan_state) (x : dart) : plan_state :=
  if isFinished s x then s
  else if planReady es vs s x then mkPS (x :: finished s) (plan s ++ [x])
  else s.

(** The (iBlock, iDirection) pairs in loop order (134-135). *)
Definition allDarts (nBlock : nat) : list dart :=
  flat_map (fun b => [(b, false); (b, true)]) (seq 0 nBlock).

Definition planSweep (es : list edge) (vs : list vertex) (s : plan_state) : plan_state :=
  fold_left (planVisit es vs) (allDarts (length es)) s.

(** PolymerSpecies.cpp 133-158: the while loop, with fuel. *)
Fixpoint planLoop (fuel : nat) (es : list edge) (vs : list vertex) (s : plan_state)
  : outcome (list dart) :=
  if length es * 2 <=? length (plan s) then Ok (plan s)
  else match fuel with
       | O => NoFuel
       | S f => planLoop f es vs (planSweep es vs s)
       end.

(** PolymerSpecies.cpp 114-160. *)
Definition makePlan (fuel : nat) (es : list edge) (vs : list vertex) : outcome (list dart) :=
  planLoop fuel es vs (mkPS [] []).

(** *** makePaths *)

(** path[0], and (path[1], path[2]) with None for (-1,-1). *)
Notation entry := (nat * option (nat * bool))%type (only parsing).

Definition viaBlock (o : option dart) (b : nat) : bool :=
  match o with None => false | Some (b', _) => b' =? b end.

(** PolymerSpecies.cpp 213-246: all sends of one iteration, in order, as
    (receiver, entry); recvPaths[ir] receives those addressed to ir. *)
Definition sendsFrom (es : list edge) (vs : list vertex) (send : list (list entry)) (is : nat)
  : list (nat * entry) :=
  flat_map (fun o : dart =>
      let ib := fst o in
      let ii := negb (snd o) in
      let ir := vertexId (edgeAt es ib) ii in
      map (fun p : entry => (ir, (fst p, Some (ib, ii))))
          (filter (fun p : entry => negb (viaBlock (snd p) ib)) (nth is send [])))
    (outIds (vertexAt vs is)).
Definition allSends es vs send : list (nat * entry) :=
  flat_map (sendsFrom es vs send) (seq 0 (length vs)).
Definition recv (sends : list (nat * entry)) (ir : nat) : list entry :=
  map snd (filter (fun s => fst s =? ir) sends).

(** PolymerSpecies.cpp 226-232: the UTIL_CHECK on outgoing propagators. *)
Definition sendChecks (es : list edge) (vs : list vertex) (send : list (list entry)) : bool :=
  forallb (fun is =>
     match nth is send [] with
     | [] => true
     | _ :: _ => forallb (fun o : dart => vertexId (edgeAt es (fst o)) (snd o) =? is)
                         (outIds (vertexAt vs is))
     end) (seq 0 (length vs)).

(** PolymerSpecies.cpp 203-273: while loop; [k] = nBlock_ + 2 - iter.  The loop
    at 207-209 tests [is], which is not its loop variable, and never executes
    on the first pass or later ([is] >= nVertex_ after the preceding loops), so
    it is omitted. *)
Fixpoint pathLoop (k : nat) (es : list edge) (vs : list vertex)
    (send old : list (list entry)) : outcome (list (list entry)) :=
  match k with
  | O => Throw
  | S k' =>
      check (sendChecks es vs send) ;;
      let done := forallb (fun l : list entry => match l with [] => true | _ => false end) send in
      let sends := allSends es vs send in
      let old' := map (fun p => fst p ++ snd p) (combine old send) in
      let send' := map (recv sends) (seq 0 (length vs)) in
      if done then Ok old' else pathLoop k' es vs send' old'
  end.

(** PolymerSpecies.cpp 289-310: assignment of paths_[is]. *)
Fixpoint assignRow (nBlock nVertex is : nat) (row : list (option dart)) (l : list entry)
  : outcome (list (option dart)) :=
  match l with
  | [] => Ok row
  | (ir, o) :: l' =>
      check (ir <? nVertex) ;;
      check (match nth ir row None with None => true | Some _ => false end) ;;
      check (if ir =? is then match o with None => true | Some _ => false end
             else match o with None => false | Some (b, _) => b <? nBlock end) ;;
      assignRow nBlock nVertex is (update row ir o) l'
  end.

(** PolymerSpecies.cpp 286-311. *)
Fixpoint assignRows (nBlock nVertex is : nat) (old : list (list entry))
  : outcome (list (list (option dart))) :=
  match old with
  | [] => Ok []
  | l :: old' =>
      check (length l =? nVertex) ;;
      row <- assignRow nBlock nVertex is (repeat None nVertex) l ;;
      rows <- assignRows nBlock nVertex (S is) old' ;;
      Ok (row :: rows)
  end.

(** PolymerSpecies.cpp 165-325. *)
Definition makePaths (es : list edge) (vs : list vertex) : outcome (list (list (option dart))) :=
  check (0 <? length vs) ;;
  old <- pathLoop (length es + 2) es vs
            (map (fun is => [(is, None)]) (seq 0 (length vs)))
            (repeat [] (length vs)) ;;
  assignRows (length es) (length vs) 0 old.

(** *** isValid (PolymerSpecies.cpp 330-398).  Ids stored by the object itself
    (337, 349, 365) are list indices here, hence omitted. *)
Definition validEdges (es : list edge) (nVertex : nat) : bool :=
  forallb (fun e : edge => negb (fst e =? snd e) && (fst e <? nVertex) && (snd e <? nVertex)) es.
Definition validOut (es : list edge) (vs : list vertex) : bool :=
  forallb (fun iv => forallb (fun p : dart =>
      (fst p <? length es) && (vertexId (edgeAt es (fst p)) (snd p) =? iv))
    (outIds (vertexAt vs iv))) (seq 0 (length vs)).
Definition validIn (es : list edge) (vs : list vertex) : bool :=
  forallb (fun iv => forallb (fun p : dart =>
      (fst p <? length es) && (vertexId (edgeAt es (fst p)) (negb (snd p)) =? iv))
    (inIds (vertexAt vs iv))) (seq 0 (length vs)).
Definition pathAt (paths : list (list (option dart))) (i j : nat) : option dart :=
  nth j (nth i paths []) None.
Definition validPaths (es : list edge) (nVertex : nat) (paths : list (list (option dart))) : bool :=
  forallb (fun i => forallb (fun j =>
     match pathAt paths i j with
     | None => i =? j
     | Some (b, d) => negb (i =? j) && (vertexId (edgeAt es b) d =? i)
     end) (seq 0 nVertex)) (seq 0 nVertex).

Record polymer := mkPolymer {
  p_edges : list edge; p_vertices : list vertex;
  p_plan : list dart; p_paths : list (list (option dart)) }.

Definition isValid (p : polymer) : outcome unit :=
  check (validEdges (p_edges p) (length (p_vertices p))) ;;
  check (validOut (p_edges p) (p_vertices p)) ;;
  check (validIn (p_edges p) (p_vertices p)) ;;
  check (validPaths (p_edges p) (length (p_vertices p)) (p_paths p)).

(** *** readParameters, graph part *)

(** PolymerSpecies.cpp 71-76: linear chain. *)
Definition linearEdges (nBlock : nat) : list edge := map (fun b => (b, S b)) (seq 0 nBlock).

(** PolymerSpecies.cpp 86-107, for vertex ids that are natural numbers. *)
Definition readGraph (fuel : nat) (es : list edge) : outcome polymer :=
  vs <- addEdges (initVertices (length es)) 0 es ;;
  pl <- makePlan fuel es vs ;;
  pa <- makePaths es vs ;;
  let p := mkPolymer es vs pl pa in
  isValid p ;;
  Ok p.

(** The same with integer ids as read from the file: vertices_[id] with a
    negative id is undefined (89-95; it is evaluated before the tests inside
    addEdge).  A block list is processed in order, so the first offending block
    decides the outcome; blocks before it are handled by [addEdges]. *)
Fixpoint firstNegative (es : list (Z * Z)) : option nat :=
  match es with
  | [] => None
  | (a, b) :: es' =>
      if (a <? 0)%Z || (b <? 0)%Z then Some 0
      else option_map S (firstNegative es')
  end.
Definition toNatEdges (es : list (Z * Z)) : list edge :=
  map (fun e => (Z.to_nat (fst e), Z.to_nat (snd e))) es.
Definition readGraphZ (fuel : nat) (es : list (Z * Z)) : outcome polymer :=
  match firstNegative es with
  | None => readGraph fuel (toNatEdges es)
  | Some k =>
      vs <- addEdges (initVertices (length es)) 0 (toNatEdges (firstn k es)) ;;
      match nth_error es k with
      | Some (a, _) =>
          if (a <? 0)%Z || (Z.of_nat (length es) <? a)%Z then UB else Throw
      | None => UB
      end
  end.

(** *** VertexIterator (VertexIterator.cpp 41-58): one increment. *)
Definition nextVertex (p : polymer) (cur target : nat) : outcome nat :=
  check (negb (cur =? target)) ;;
  match pathAt (p_paths p) cur target with
  | None => Throw
  | Some (b, d) =>
      check (b <? length (p_edges p)) ;;
      Ok (vertexId (edgeAt (p_edges p) b) (negb d))
  end.
(** begin(source,target); while (notEnd()) ++: the vertices visited. *)
Fixpoint walk (fuel : nat) (p : polymer) (cur target : nat) : outcome (list nat) :=
  if cur =? target then Ok [cur]
  else match fuel with
       | O => NoFuel
       | S f => n <- nextVertex p cur target ;; l <- walk f p n target ;; Ok (cur :: l)
       end.
