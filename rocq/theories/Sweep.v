(** Model of a sweep: src/pscf/sweep/SweepTmpl.tpp and the extrapolation of
    src/rpc/scft/sweep/Sweep.tpp with BasisFieldState.tpp.

    The parent system and its solver are parameters: call number k of solve
    returns an error flag and leaves a system state.  setParameters, file output
    and log output are left out. *)
From Coq Require Import Reals List Arith Bool ZArith SpecFloat.
From Verif Require Import Base RSum.
Import ListNotations.

(** Arithmetic on contour values, over the reals or IEEE doubles. *)
Record snum := mkSnum {
  sT : Type; sofZ : Z -> sT; sadd : sT -> sT -> sT; smul : sT -> sT -> sT; sdiv : sT -> sT -> sT; slt : sT -> sT -> bool;
  shalf : sT; stenth : sT; send : sT  (* 0.50, 0.1, 1.0000001 *) }.
Arguments sofZ {_}. Arguments sadd {_}. Arguments smul {_}. Arguments sdiv {_}. Arguments slt {_}.
Arguments shalf {_}. Arguments stenth {_}. Arguments send {_}.
Definition SR : snum :=
  mkSnum R IZR Rplus Rmult Rdiv (fun x y => if Rlt_dec x y then true else false) (1/2)%R (1/10)%R (10000001/10000000)%R.
Definition sfOf (z : Z) : spec_float := binary_normalize 53 1024 z 0 false.
Definition SFl : snum :=
  mkSnum spec_float sfOf (SFadd 53 1024) (SFmul 53 1024) (SFdiv 53 1024) SFltb
         (SFdiv 53 1024 (sfOf 1) (sfOf 2)) (SFdiv 53 1024 (sfOf 1) (sfOf 10)) (SFdiv 53 1024 (sfOf 10000001) (sfOf 10000000)).

(* ---------- history ---------- *)
(** SweepTmpl.h: sHistory_, stateHistory_ (pointers, as indices of states_),
    states_, historySize_, nAccept_.  [St] is the stored state. *)
Record history (N : snum) (St : Type) := mkHist {
  hS : list (sT N); hPtr : list nat; hStates : nat -> St; hSize : nat; hAccept : nat }.
Arguments hS {_ _}. Arguments hPtr {_ _}. Arguments hStates {_ _}. Arguments hSize {_ _}. Arguments hAccept {_ _}.
Arguments mkHist {_ _}.
(** SweepTmpl.tpp 196-215: initialize. *)
Definition initialize {N : snum} {St : Type} (cap : nat) (states : nat -> St) : history N St :=
  mkHist (repeat (sofZ 0) cap) (seq 0 cap) states 0 0.
(** SweepTmpl.tpp 220-246: accept; getSolution (Sweep.tpp, getSystemState) copies
    the system into state(0), the object that was last in the list. *)
Definition accept {N : snum} {St : Type} (cap : nat) (sNew : sT N) (sol : St) (h : history N St) : history N St :=
  let temp := last (hPtr h) 0%nat in
  mkHist (firstn cap (sNew :: hS h)) (firstn cap (temp :: hPtr h))
         (fun i => if (i =? temp)%nat then sol else hStates h i)
         (if (hSize h <? cap)%nat then S (hSize h) else hSize h) (S (hAccept h)).
(** s(k) and state(k), SweepTmpl.h. *)
Definition hs {N : snum} {St : Type} (h : history N St) (k : nat) : sT N := nth k (hS h) (sofZ 0).
Definition hstate {N : snum} {St : Type} (h : history N St) (k : nat) : St := hStates h (nth k (hPtr h) 0%nat).

(* ---------- the sweep ---------- *)
(** State of the loops; [wLog] lists, newest first, the attempts: contour value,
    step, error flag (for the statements only). *)
Record sweep (N : snum) (St : Type) := mkSweep {
  wDs : sT N; wHist : history N St; wLog : list (sT N * sT N * bool) }.
Arguments wDs {_ _}. Arguments wHist {_ _}. Arguments wLog {_ _}. Arguments mkSweep {_ _}.
(** Done: sweep() returned.  Failed: exception.  More: still running. *)
Inductive status (X : Type) := Done (x : X) | Failed (x : X) | More (x : X).
Arguments Done {_}. Arguments Failed {_}. Arguments More {_}.

(** SweepTmpl.tpp 92-142: one attempt, with the decision that follows it. *)
Definition attempt {N : snum} {St : Type} (cap : nat) (ds0 : sT N) (result : bool * St) (w : sweep N St) : status (sweep N St) :=
  let sNew := sadd (hs (wHist w) 0) (wDs w) in
  let log := (sNew, wDs w, fst result) :: wLog w in
  if fst result then
    let ds := smul (wDs w) shalf in
    let w' := mkSweep ds (wHist w) log in
    if slt ds (smul stenth ds0) then Failed w' else More w'
  else
    let w' := mkSweep (wDs w) (accept cap sNew (snd result) (wHist w)) log in
    if slt send (sadd sNew (wDs w)) then Done w' else More w'.

(** The loops 90-142, [fuel] attempts at most, the next call of solve being k. *)
Fixpoint attempts {N : snum} {St : Type} (cap : nat) (ds0 : sT N) (solver : nat -> bool * St) (fuel k : nat)
    (w : sweep N St) : status (sweep N St) :=
  match fuel with
  | O => More w
  | S f => match attempt cap ds0 (solver k) w with
           | More w' => attempts cap ds0 solver f (S k) w'
           | r => r
           end
  end.

(** SweepTmpl.tpp 60-146: sweep.  In C++ double(0) gives an infinite step. *)
Definition runSweep {N : snum} {St : Type} (cap : nat) (ns : Z) (states : nat -> St) (solver : nat -> bool * St) (fuel : nat)
  : status (sweep N St) :=
  let ds := sdiv (sofZ 1) (sofZ ns) in
  let w0 := mkSweep ds (initialize cap states) [] in
  let '(err, sol) := solver 0%nat in
  let log := [(sofZ 0, ds, err)] in
  if err then Failed (mkSweep ds (wHist w0) log)
  else attempts cap ds solver fuel 1 (mkSweep ds (accept cap (sofZ 0) sol (wHist w0)) log).

(** SweepTmpl.tpp 40-58: readParameters accepts every integer ns and every
    positive historyCapacity. *)
Definition readSweep (ns historyCapacity : Z) : outcome (Z * nat) :=
  check (0 <? historyCapacity)%Z ;; Ok (ns, Z.to_nat historyCapacity).

(* ---------- continuation ---------- *)
Local Open Scope R_scope.
(** SweepTmpl.tpp 251-271: setCoefficients, element i. *)
Fixpoint prodExcept (n i : nat) (f : nat -> R) : R :=
  match n with
  | O => 1
  | S k => if (k =? i)%nat then prodExcept k i f else prodExcept k i f * f k
  end.
Definition coefficient (size : nat) (s : nat -> R) (sNew : R) (i : nat) : R :=
  if (size =? 1)%nat then 1
  else prodExcept size i (fun j => sNew - s j) / prodExcept size i (fun j => s i - s j).

(** rpc Sweep.tpp 153-178: extrapolation of one component of a field. *)
Definition extrapolateField (size : nat) (s : nat -> R) (sNew : R) (old : nat -> R) : R :=
  fold_left (fun acc k => acc + coefficient size s sNew k * old k) (seq 1 (size - 1)) (coefficient size s sNew 0 * old 0%nat).

(** rpc Sweep.tpp 180-211: the lattice parameters.  [sys]: parameters of the
    system; [flex]: None if the iterator is rigid, else its list flexibleParams;
    [old k i]: parameter i of state(k). *)
Definition extrapolateCell (size : nat) (s : nat -> R) (sNew : R) (sys : list R) (flex : option (list bool)) (old : nat -> nat -> R) : list R :=
  match flex with
  | None => sys
  | Some fl => map (fun i => if nth i fl false
      then fold_left (fun acc k => acc + coefficient size s sNew k * old k i) (seq 0 size) 0
      else nth i sys 0) (seq 0 (length sys))
  end.
(** rpc Sweep.tpp 216-223: newCellParams; [prev] is the previous content of
    unitCellParameters_ (empty before the first extrapolation). *)
Definition newCellParams (prev new : list R) : bool :=
  forallb (fun i => if Rlt_dec (Rabs (nth i prev 0 - nth i new 0)) (1 / 10000000000) then false else true)
          (seq 0 (length prev)).
(** rpc Sweep.tpp 136-230: extrapolate, BasisFieldState.tpp setSystemState: the
    lattice parameters of the system afterwards and the new unitCellParameters_. *)
Definition extrapolate (size : nat) (s : nat -> R) (sNew : R) (prev sys : list R) (flex : option (list bool)) (old : nat -> nat -> R)
  : outcome (list R * list R) :=
  check (0 <? size)%nat ;;
  if (size =? 1)%nat then Ok (sys, prev)
  else
    check (match flex with None => true | Some fl => (length fl =? length sys)%nat end) ;;
    let new := extrapolateCell size s sNew sys flex old in
    Ok (if newCellParams prev new then new else sys, new).
