(** Model of trajectory files: src/rpc/fts/analyzer/TrajectoryWriter.tpp and src/rpc/fts/trajectory/RGridTrajectoryReader.tpp
    (the frames of ConcentrationWriter.tpp have the same format).

    A file is a list of lines, each a list of tokens (FieldIo.v) followed by a line end; the first line of what is left of a
    file is the rest of the current line.  The header (FieldIo.v) is left out: reading starts at the end of its last line.
    A field is a function of the monomer type and the rank of the mesh point, [None] if it is not finite.  Numbers are
    written as in FieldIo.v, with an arbitrary rounding [rnd].  getNextLine is in src/util, which is not in the
    repository: it is taken to skip empty lines, as its name and its use after [out << "\n"] say. *)
From Coq Require Import String ZArith Reals List Bool.
From Verif Require Import Base Mesh FieldIo.
Import ListNotations.
Local Open Scope string_scope.
Local Open Scope list_scope.

Definition file := list (list token).
Definition config := nat -> Z -> option R.

(** getNextLine(in, line): false at the end of the file *)
Fixpoint getNextLine (f : file) : option (list token * file) :=
  match f with
  | [] => None
  | [] :: r => getNextLine r
  | l :: r => Some (l, r)
  end.
(** in >> double, over line ends *)
Fixpoint getReal (f : file) : outcome (R * file) :=
  match f with
  | [] => Throw
  | [] :: r => getReal r
  | (TD x :: l) :: r => Ok (x, l :: r)
  | (TI n :: l) :: r => Ok (IZR n, l :: r)
  | (TW _ :: _) :: _ => Throw
  end.
(** checkString(line, w) *)
Definition checkString (w : string) (l : list token) : outcome (list token) :=
  match l with
  | TW v :: r => check (String.eqb v w) ;; Ok r
  | _ => Throw
  end.

Section Traj.
Variable rnd : nat -> R -> R.

(** fieldIoUtil.tpp 262-281: readRGridData; [rs] are the ranks in the order of the iterator *)
Definition store (c : config) (j : nat) (r : Z) (x : R) : config := fun j' r' => if (j' =? j)%nat && (r' =? r)%Z then Some x else c j' r'.
Fixpoint readRow (js : list nat) (r : Z) (c : config) (f : file) : outcome (config * file) :=
  match js with
  | [] => Ok (c, f)
  | j :: js' => x <- getReal f ;; readRow js' r (store c j r (fst x)) (snd x)
  end.
Fixpoint readData (nm : nat) (rs : list Z) (c : config) (f : file) : outcome (config * file) :=
  match rs with
  | [] => Ok (c, f)
  | r :: rs' => q <- readRow (seq 0 nm) r c f ;; readData nm rs' (fst q) (snd q)
  end.
(** RGridTrajectoryReader.tpp 81-124: readFrame; [c] is wField_ before the call, the result is None at the end of the file.
    The step is not read, and the line of mesh dimensions is read but not used. *)
Definition readFrame (nm : nat) (rs : list Z) (c : config) (f : file) : outcome (option (config * file)) :=
  match getNextLine f with
  | None => Ok None
  | Some (l, f1) =>
    l1 <- checkString "i" l ;;
    _ <- checkString "=" l1 ;;
    match getNextLine f1 with
    | None => Throw
    | Some (l2, f2) =>
      _ <- checkString "mesh" l2 ;;
      match getNextLine f2 with
      | None => Throw
      | Some (_, f3) =>
        check (0 <? nm)%nat ;;
        q <- readData nm rs c f3 ;;
        Ok (Some q)
      end
    end
  end.
(** McSimulator.tpp 308-326: frames are read until readFrame returns false *)
Fixpoint readAll (fuel nm : nat) (rs : list Z) (c : config) (f : file) : outcome (list config) :=
  match fuel with
  | O => NoFuel
  | S k =>
    q <- readFrame nm rs c f ;;
    match q with
    | None => Ok []
    | Some (c', f') => l <- readAll k nm rs c' f' ;; Ok (c' :: l)
    end
  end.

(** TrajectoryWriter.tpp 63-75: writeFrame; fieldIoUtil.tpp 254-260, 298-317 *)
Definition writeFrame (nm : nat) (dims rs : list Z) (iStep : Z) (c : config) : file :=
  [TW "i"; TW "="; TI iStep] :: [TW "mesh"] :: map TI dims :: map (fun r => map (fun j => dbl rnd 13 (c j r)) (seq 0 nm)) rs ++ [[]].
(** Analyzer.h 186-191, TrajectoryWriter.tpp 94-101: sample, for the configurations of successive steps *)
Fixpoint writeRun (nm : nat) (dims rs : list Z) (interval : Z) (l : list (Z * config)) : file :=
  match l with
  | [] => []
  | (i, c) :: l' => (if (i mod interval =? 0)%Z then writeFrame nm dims rs i c else []) ++ writeRun nm dims rs interval l'
  end.
(** TrajectoryWriter.tpp 53-60, 78-87: the rest of the file after the header: the end of its last line, and an empty line *)
Definition body (nm : nat) (dims rs : list Z) (interval : Z) (l : list (Z * config)) : file := [] :: [] :: writeRun nm dims rs interval l.
End Traj.
