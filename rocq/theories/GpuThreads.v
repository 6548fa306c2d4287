(** Execution configuration of one-dimensional GPU kernels:
    pscf/cuda/ThreadArray.cu.

    The five static integers of the anonymous namespace are a record; the
    properties that the CUDA runtime reports for device 0 are another.  C++
    [int] values are [Z] (no arithmetic of this file leaves the range of [int]
    for the values that the callers pass).  The warnings that are printed are
    not modelled, nor is the flag UNUSED_THREADS, which nothing reads. *)
From Coq Require Import ZArith List Bool Lia.
From Verif Require Import Base.
Local Open Scope Z_scope.

(** cudaDeviceProp, the fields used in ThreadArray.cu lines 59-78, 131-135 *)
Record device := Device {
  warpSize : Z;
  maxPerSM : Z;        (* maxThreadsPerMultiProcessor *)
  maxPerBlock : Z      (* maxThreadsPerBlock *)
}.

(** ThreadArray.cu lines 13-29: MAX_THREADS_PER_BLOCK, THREADS_PER_BLOCK,
    BLOCKS, THREADS_LOGICAL, WARP_SIZE *)
Record tarr := Tarr {
  maxT : Z;
  tpb : Z;
  blocks : Z;
  logical : Z;
  warp : Z
}.

(** ThreadArray.cu lines 14-29: initial values *)
Definition tarr0 : tarr := Tarr (-1) (-1) (-1) (-1) (-1).

(** ThreadArray.cu lines 80-86 (setThreadsPerBlock(int)), the assignments, and
    131-134 (checkExecutionConfig), the assignment of WARP_SIZE: the state that
    is left behind whether or not the checks that follow throw *)
Definition mark (dev : device) (n : Z) (st : tarr) : tarr :=
  Tarr n (tpb st) 0 0 (warpSize dev).

(** ThreadArray.cu lines 136-166 (checkExecutionConfig): the power-of-two test,
    the remainder by WARP_SIZE, and the remainder
    maxThreadsPerMultiProcessor % MAX_THREADS_PER_BLOCK of the last warning.  A
    remainder by zero is undefined behaviour. *)
Definition checkExecutionConfig (dev : device) (st : tarr) : outcome unit :=
  if negb (Z.land (maxT st) (maxT st - 1) =? 0) then Throw
  else if warp st =? 0 then UB
  else if negb (Z.rem (maxT st) (warp st) =? 0) then Throw
  else if maxT st =? 0 then UB
  else Ok tt.

(** ThreadArray.cu lines 80-86 *)
Definition setThreadsPerBlock (dev : device) (n : Z) (st : tarr) : outcome tarr :=
  _ <- checkExecutionConfig dev (mark dev n st) ;; Ok (mark dev n st).

(** ThreadArray.cu lines 73-75: while (threadsPerBlock > maxThreadsPerBlock)
    threadsPerBlock /= 2; *)
Fixpoint shrink (fuel : nat) (t mx : Z) : outcome Z :=
  match fuel with
  | O => NoFuel
  | S f => if mx <? t then shrink f (Z.quot t 2) mx else Ok t
  end.

(** ThreadArray.cu lines 57-78 (setThreadsPerBlock()) *)
Definition setThreadsPerBlock_default (dev : device) (st : tarr) : outcome tarr :=
  let t := Z.land (maxPerSM dev) (Z.lnot (maxPerSM dev - 1)) in
  t' <- shrink (S (Z.to_nat t)) t (maxPerBlock dev) ;;
  setThreadsPerBlock dev t' st.

(** ceil(double(a)/double(b)) for 0 <= a, 0 < b.  Both are ints; their double
    quotient rounds to an integer only if it is one, so that the result is the
    integer ceiling. *)
Definition ceil_div (a b : Z) : Z := (a + b - 1) / b.

(** ThreadArray.cu lines 88-113 (setThreadsLogical(int)); init() (lines 38-55)
    is its call of setThreadsPerBlock, a device being present.  UTIL_ASSERT is
    inactive in the default build. *)
Definition setThreadsLogical (dev : device) (n : Z) (st : tarr) : outcome tarr :=
  st1 <- (if maxT st =? -1 then setThreadsPerBlock_default dev st else Ok st) ;;
  if logical st1 =? n then Ok st1
  else if maxT st1 =? 0 then UB
  else Ok (Tarr (maxT st1) (maxT st1) (ceil_div n (maxT st1)) n (warp st1)).

(** States that can be reached by calls that return normally. *)
Inductive reachable (dev : device) : tarr -> Prop :=
| reach_init : reachable dev tarr0
| reach_set : forall st n st',
    reachable dev st -> 0 < n ->
    setThreadsPerBlock dev n st = Ok st' -> reachable dev st'
| reach_default : forall st st',
    reachable dev st -> setThreadsPerBlock_default dev st = Ok st' -> reachable dev st'
| reach_logical : forall st n st',
    reachable dev st -> 0 < n ->
    setThreadsLogical dev n st = Ok st' -> reachable dev st'.
