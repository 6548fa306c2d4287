(** Model of the template part of the polymer solvers, shared by the periodic
    (rpc) and the one-dimensional (r1d) solver: PropagatorTmpl and PolymerTmpl,
    and the parts of the two Propagator classes that do not depend on the step
    algorithm.

    A field is a function from grid index to R; only indices below the number
    of grid points are ever used.  A propagator that has been solved is the list
    of its slices q(0), ..., q(ns-1); [None] is isSolved() == false. *)
From Coq Require Import Reals List Bool Arith.
From Verif Require Import Base Polymer.
Import ListNotations.
Local Open Scope R_scope.

Notation field := (nat -> R) (only parsing).
Definition one_field : field := fun _ => 1.
Definition zero_field : field := fun _ => 0.
Definition mul_field (f g : field) : field := fun i => f i * g i.

Notation props := (dart -> option (list field)) (only parsing).
Definition set_prop (st : props) (x : dart) (l : list field) : props :=
  fun y => if dart_eqb x y then Some l else st y.
Definition isSolved (st : props) (x : dart) : bool :=
  match st x with Some _ => true | None => false end.

(** BlockTmpl.tpp 20-29: the partner of a propagator. *)
Definition partner (x : dart) : dart := (fst x, negb (snd x)).

Section Template.

(** What the template arguments provide:
    [slices b headEnd tailEnd h] is the list of slices computed by
    Propagator::solve for block b once the head slice h is known;
    [tailOk tailEnd] is whether Propagator::tail() may be called (rpc
    Propagator.h 259-264; always true in the thread model and in r1d);
    [skipAtEnd] is the test !isHeadEnd() of rpc computeHead (r1d has none). *)
Variable slices : nat -> bool -> bool -> field -> list field.
Variable tailOk : bool -> bool.
Variable skipAtEnd : bool.

Variable es : list edge.
Variable vs : list vertex.

(** PolymerTmpl.tpp 82-85. *)
Definition headVertex (x : dart) : vertex := vertexAt vs (vertexId (edgeAt es (fst x)) (snd x)).
Definition tailVertex (x : dart) : vertex := vertexAt vs (vertexId (edgeAt es (fst x)) (negb (snd x))).

(** PolymerTmpl.tpp 88-97: the source propagators, in order of addition. *)
Definition sources (x : dart) : list dart :=
  filter (fun p => negb (fst p =? fst x)) (inIds (headVertex x)).
Definition sourceChecks (x : dart) : bool :=
  forallb (fun p : dart => negb (fst p =? fst x) || negb (Bool.eqb (snd p) (snd x)))
          (inIds (headVertex x)).

(** PolymerTmpl.tpp 100-102 (Vertex::size() is the number of in-propagators). *)
Definition isHeadEnd (x : dart) : bool := length (inIds (headVertex x)) =? 1.
Definition isTailEnd (x : dart) : bool := length (inIds (tailVertex x)) =? 1.

(** PolymerTmpl.tpp 70-109 and isValid 120-147, as the conjunction of the checks
    (vertex ids were checked by PolymerSpecies::isValid already).  The flag
    checks 142-144 compare the flags with the sizes they were computed from. *)
Definition tmplValid : bool :=
  forallb sourceChecks (allDarts (length es)) &&
  forallb (fun x => length (sources x) =? length (inIds (headVertex x)) - 1)
          (allDarts (length es)).

(** source(is).isSolved() and source(is).tail() *)
Definition tailOf (st : props) (x : dart) : outcome field :=
  match st x with
  | None => Throw
  | Some l => check (tailOk (isTailEnd x)) ;; Ok (last l zero_field)
  end.

(** r1d Propagator.cpp 80-101, rpc Propagator.tpp 90-117: the loop over sources. *)
Fixpoint headLoop (st : props) (l : list dart) (qh : field) : outcome field :=
  match l with
  | [] => Ok qh
  | s :: l' => qt <- tailOf st s ;; headLoop st l' (mul_field qh qt)
  end.
Definition computeHead (st : props) (x : dart) : outcome field :=
  if skipAtEnd && isHeadEnd x then Ok one_field else headLoop st (sources x) one_field.

(** Propagator::solve(): computeHead, the step loop, setIsSolved(true). *)
Definition solveProp (st : props) (x : dart) : outcome props :=
  h <- computeHead st x ;;
  Ok (set_prop st x (slices (fst x) (isHeadEnd x) (isTailEnd x) h)).

(** PropagatorTmpl.h 321-330. *)
Definition isReady (st : props) (x : dart) : bool := forallb (isSolved st) (sources x).

(** PolymerTmpl.tpp 163-166. *)
Fixpoint solveLoop (plan : list dart) (st : props) : outcome props :=
  match plan with
  | [] => Ok st
  | x :: plan' =>
      check (isReady st x) ;;
      st' <- solveProp st x ;;
      solveLoop plan' st'
  end.

(** PolymerTmpl.tpp 153-166; 157-159 clears every propagator. *)
Definition solveAll (plan : list dart) : outcome props := solveLoop plan (fun _ => None).

End Template.
