(* The global polymer model, src/pscf/chem/PolymerModel.cpp.  The three
   variables of its anonymous namespace are the state; a call that throws
   (UTIL_CHECK) leaves the state unchanged.  nSet_ is an unbounded number. *)
From Coq Require Import List String Bool Arith.
Import ListNotations.
Open Scope string_scope.
Open Scope list_scope.

(* enum Type {Thread, Bead}, PolymerModel.h:49 *)
Inductive model := Thread | Bead.

(* model_, isLocked_, nSet_; PolymerModel.cpp:27-31 *)
Record pm := mkPm { pModel : model; pLocked : bool; pSet : nat }.
Definition init : pm := mkPm Thread false 0.

(* setModel, PolymerModel.cpp:45-50; None: exception *)
Definition setModel (m : model) (s : pm) : option pm :=
  if pLocked s then None else Some (mkPm m (pLocked s) (S (pSet s))).
(* lock, PolymerModel.cpp:55-56 *)
Definition lock (s : pm) : pm := mkPm (pModel s) true (pSet s).
(* isThread, isBead, PolymerModel.cpp:67-74 *)
Definition isThread (s : pm) : bool := match pModel s with Thread => true | _ => false end.
Definition isBead (s : pm) : bool := match pModel s with Bead => true | _ => false end.

(* operator >>, PolymerModel.cpp:91-108; None: exception *)
Definition readModel (buffer : string) : option model :=
  if String.eqb buffer "Thread" || String.eqb buffer "thread" then Some Thread
  else if String.eqb buffer "Bead" || String.eqb buffer "bead" then Some Bead
  else None.
(* operator <<, PolymerModel.cpp:113-126 *)
Definition writeModel (m : model) : string :=
  match m with Thread => "thread" | Bead => "bead" end.

(* The part of SystemTmpl::readParameters that concerns the model,
   SystemTmpl.tpp:285-297, 381: the optional entry polymerModel (None: absent)
   is read only if the model is not locked, in which case the model is set
   (Thread by default); body stands for the rest of the function, and the
   last line is UTIL_CHECK(nSet() == nSetPolymerModel).  A present entry in
   the locked case is not read here, so that the reading of the next block
   fails. *)
Definition readSystem (entry : option string) (body : pm -> option pm) (s : pm)
  : option pm :=
  let s1 :=
    if pLocked s then match entry with None => Some s | Some _ => None end
    else match entry with
         | None => setModel Thread s
         | Some b => match readModel b with
                     | Some m => setModel m s
                     | None => None
                     end
         end in
  match s1 with
  | None => None
  | Some s1 => match body s1 with
               | None => None
               | Some s2 => if (pSet s2 =? pSet s1)%nat then Some s2 else None
               end
  end.

(* A sequence of calls by a program that goes on after an exception; the list
   tells which calls returned normally. *)
Inductive call := CSet (m : model) | CLock.
Definition stepCall (c : call) (s : pm) : bool * pm :=
  match c with
  | CSet m => match setModel m s with Some s' => (true, s') | None => (false, s) end
  | CLock => (true, lock s)
  end.
Fixpoint runCalls (cs : list call) (s : pm) : list bool * pm :=
  match cs with
  | [] => ([], s)
  | c :: cs' => let (b, s') := stepCall c s in
                let (bs, s'') := runCalls cs' s' in (b :: bs, s'')
  end.
