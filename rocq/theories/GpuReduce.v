(** Parallel reductions on the GPU: prdc/cuda/Reduce.cu.

    A thread block is executed in small steps.  Between two barriers
    (__syncthreads) the threads of a block take steps in an order that is
    given by an arbitrary schedule, a list of thread identifiers.  The
    statement sData[t] = red(sData[t], sData[t+o]) takes two steps: the load of
    sData[t+o] into a register of the thread, then the update of sData[t],
    which no other thread writes.

    For the statement  if (sData[t+o] > sData[t]) sData[t] = sData[t+o];  of the
    maximum and minimum the second load of sData[t+o] is taken to give the value
    of the first. *)
From Coq Require Import ZArith List Bool Arith Lia Permutation.
From Verif Require Import Base GpuThreads.
Import ListNotations.

Section Block.

Context {A : Type}.

(** Shared memory sData (None: outside the array or not written), the offsets o
    that each thread has still to process, and the register of each thread *)
Record conf := Conf {
  mem : nat -> option A;
  todo : nat -> list nat;
  reg : nat -> option A
}.

Definition set {B} (f : nat -> B) (t : nat) (v : B) : nat -> B :=
  fun i => if i =? t then v else f i.

(** One step of thread t in  sData[t] = red(sData[t], sData[t+o]). *)
Definition step (red : A -> A -> A) (c : conf) (t : nat) : outcome conf :=
  match todo c t with
  | [] => Ok c
  | o :: r =>
      match reg c t with
      | None =>
          match mem c (t + o) with
          | None => UB
          | Some v => Ok (Conf (mem c) (todo c) (set (reg c) t (Some v)))
          end
      | Some v =>
          match mem c t with
          | None => UB
          | Some u => Ok (Conf (set (mem c) t (Some (red u v)))
                               (set (todo c) t r) (set (reg c) t None))
          end
      end
  end.

Fixpoint run (red : A -> A -> A) (s : list nat) (c : conf) : outcome conf :=
  match s with
  | [] => Ok c
  | t :: s' => c' <- step red c t ;; run red s' c'
  end.

(** All threads of a block of bDim threads have finished. *)
Definition all_done (bDim : nat) (c : conf) : bool :=
  forallb (fun t => match todo c t with [] => true | _ => false end) (seq 0 bDim).

(** The statements between two barriers: the threads t < active process the
    offsets offs, under schedule s.  NoFuel: the schedule does not let all
    threads finish. *)
Definition phase (red : A -> A -> A) (bDim active : nat) (offs s : list nat)
  (m : nat -> option A) : outcome (nat -> option A) :=
  c <- run red s (Conf m (fun t => if t <? active then offs else []) (fun _ => None)) ;;
  if all_done bDim c then Ok (mem c) else NoFuel.

(** Reduce.cu lines 150-155, 209-216, 270-277, 331-338, 392-399, 454-459:
    for (stride = bDim/2; stride > 32; stride /= 2)
       { if (tId < stride) ...; __syncthreads(); } *)
Fixpoint strided (fuel : nat) (red : A -> A -> A) (bDim stride k : nat)
  (sch : nat -> list nat) (m : nat -> option A) : outcome (nat -> option A) :=
  match fuel with
  | O => NoFuel
  | S f =>
      if 32 <? stride then
        m' <- phase red bDim stride [stride] (sch k) m ;;
        strided f red bDim (stride / 2) (S k) sch m'
      else Ok m
  end.

(** Reduce.cu lines 64-104: offsets of _warpSum, _warpMax, _warpMin *)
Definition warp_offsets : list nat := [32; 16; 8; 4; 2; 1].

(** How the threads of one kernel launch are scheduled: block, phase. *)
Record schedule := Schedule {
  at_phase : nat -> nat -> list nat;
  at_warp : nat -> list nat
}.

(** What each thread does with global memory: the value of an element (fabs,
    product), the operation that combines two elements at the load, and the
    value for idx >= n: a constant, or the element idx-n. *)
Record kernel := Kernel {
  element : nat -> option A;      (* None: outside the input array *)
  pair : A -> A -> A;
  pad : option A;                 (* None: element (idx-n) *)
  red : A -> A -> A
}.

(** Reduce.cu lines 133-142, 191-201, 252-262, 313-323, 374-384, 437-446: global
    memory load of thread tId of block bId *)
Definition load (k : kernel) (n bDim bId tId : nat) : option A :=
  let idx := bId * (bDim * 2) + tId in
  if idx <? n then
    match element k idx with
    | None => None
    | Some u =>
        if idx + bDim <? n then
          match element k (idx + bDim) with
          | None => None
          | Some v => Some (pair k u v)
          end
        else Some u
    end
  else match pad k with Some z => Some z | None => element k (idx - n) end.

(** Reduce.cu lines 121-166 (_sum), 179-227 (_max), 240-288 (_maxAbs),
    301-349 (_min), 362-410 (_minAbs), 424-470 (_innerProduct): one block *)
Definition block (k : kernel) (sch : schedule) (n bDim bId : nat) : outcome A :=
  if forallb (fun t => match load k n bDim bId t with Some _ => true | None => false end)
       (seq 0 bDim)
  then
    let m0 := fun t => if t <? bDim then load k n bDim bId t else None in
    m1 <- strided bDim (red k) bDim (bDim / 2) 0 (at_phase sch bId) m0 ;;
    m2 <- phase (red k) bDim 32 warp_offsets (at_warp sch bId) m1 ;;
    match m2 0 with Some v => Ok v | None => UB end
  else UB.

Fixpoint collect (m : nat) (f : nat -> outcome A) : outcome (list A) :=
  match m with
  | O => Ok []
  | S m' => l <- collect m' f ;; v <- f m' ;; Ok (l ++ [v])
  end.

(** A launch <<<nBlocks, nThreads>>>: it is refused by the runtime (and the
    cudaErrorCheck that follows throws) when the block is larger than the device
    allows or the grid is empty; block bId writes element bId of the output. *)
Definition launch (dev : device) (k : kernel) (sch : schedule) (n nBlocks nThreads : Z)
  : outcome (list A) :=
  if ((nThreads <=? 0) || (maxPerBlock dev <? nThreads) || (nBlocks <=? 0))%Z then Throw
  else collect (Z.to_nat nBlocks)
         (block k sch (Z.to_nat n) (Z.to_nat nThreads)).

(** A kernel whose input is an array on the device *)
Definition from_array (f : A -> A) (p : A -> A -> A) (z : option A) (r : A -> A -> A)
  (l : list A) : kernel :=
  Kernel (fun i => match nth_error l i with Some v => Some (f v) | None => None end) p z r.

End Block.

Arguments conf : clear implicits.
Arguments kernel : clear implicits.

(** (float) n for 0 <= n < 2^31: the binary32 number (24 significant bits) nearest
    to n, ties to the even significand *)
Definition float_of_int (n : Z) : Z :=
  (let e := Z.log2 n - 23 in
   if e <=? 0 then n
   else
     let q := n / 2 ^ e in
     let r := n mod 2 ^ e in
     let h := 2 ^ (e - 1) in
     if (r <? h) || ((r =? h) && Z.even q) then q * 2 ^ e else (q + 1) * 2 ^ e)%Z.

(** Reduce.cu lines 496, 585, 667, 746, 828, 913:
    int halvedSize = ceil((float)n/2);  the division by two is exact *)
Definition halvedSize (n : Z) : Z := ((float_of_int n + 1) / 2)%Z.

(** Reduce.cu lines 498-513 and the five copies: number of blocks and threads *)
Definition resources (dev : device) (n : Z) (st : tarr) : outcome tarr :=
  st1 <- setThreadsLogical dev (halvedSize n) st ;;
  st2 <- (if (tpb st1 <? 64)%Z then
            s <- setThreadsPerBlock dev 64 st1 ;;
            setThreadsLogical dev (halvedSize n) s
          else Ok st1) ;;
  _ <- check (warp st2 =? 32)%Z ;; Ok st2.

Section Wrapper.

Context {A : Type}.

(** Reduce.cu lines 489-537 and the five copies: the loop over launches.  [kin]
    is the first kernel (applied to the input of the wrapper), [knext] the
    kernel applied to an intermediate array; [always]: the condition
    n >= 1e5 || i == 0 instead of n >= 1e5; [i] counts the launches; [sch] gives
    the schedules of the launches.  temp1 and temp2 are optional arrays: to
    allocate an allocated array, or to read one that is not, throws
    (DeviceArray.h). *)
Definition pingpong (dev : device) (knext : list A -> kernel A) (sch : nat -> schedule)
  (kin : kernel A) (n : Z) (nB nT : Z) (i : nat) (temp1 temp2 : option (list A))
  : outcome (option (list A) * option (list A)) :=
  match i with
  | O =>
      match temp1 with
      | Some _ => Throw
      | None => l <- launch dev kin (sch i) n nB nT ;; Ok (Some l, temp2)
      end
  | S _ =>
      if Nat.odd i then
        match temp2, temp1 with
        | None, Some s => l <- launch dev (knext s) (sch i) n nB nT ;; Ok (None, Some l)
        | _, _ => Throw
        end
      else
        match temp1, temp2 with
        | None, Some s => l <- launch dev (knext s) (sch i) n nB nT ;; Ok (Some l, None)
        | _, _ => Throw
        end
  end.

Fixpoint loop (fuel : nat) (dev : device) (always : bool) (knext : list A -> kernel A)
  (sch : nat -> schedule) (kin : kernel A) (n : Z) (i : nat)
  (temp1 temp2 : option (list A)) (st : tarr)
  : outcome (Z * nat * option (list A) * option (list A) * tarr) :=
  match fuel with
  | O => NoFuel
  | S f =>
      if ((100000 <=? n)%Z || (always && (i =? 0))) then
        st1 <- resources dev n st ;;
        p <- pingpong dev knext sch kin n (blocks st1) (tpb st1) i temp1 temp2 ;;
        loop f dev always knext sch kin (blocks st1) (S i) (fst p) (snd p) st1
      else Ok (n, i, temp1, temp2, st)
  end.

(** Reduce.cu lines 539-547 and the copies: the array transferred to the host.
    (When always is true the branch i == 0 is absent or unreachable.) *)
Definition transfer (i : nat) (inp : option (list A)) (temp1 temp2 : option (list A))
  : outcome (list A) :=
  match (match i with O => inp | S _ => if Nat.odd i then temp1 else temp2 end) with
  | Some l => Ok l
  | None => Throw
  end.

(** The part common to the six wrappers: [inp] is the input array when it may be
    transferred itself, n its capacity.  isAllocated (capacity > 0) is checked
    first. *)
Definition wrapper (dev : device) (always : bool) (knext : list A -> kernel A)
  (sch : nat -> schedule) (kin : kernel A) (inp : option (list A)) (n : Z)
  (finish : list A -> outcome A) (st : tarr) : outcome (A * tarr) :=
  _ <- check (0 <? n)%Z ;;
  r <- loop (S (Z.to_nat n)) dev always knext sch kin n 0 None None st ;;
  match r with
  | (_, i, t1, t2, st') =>
      l <- transfer i inp t1 t2 ;;
      v <- finish l ;; Ok (v, st')
  end.

(** Reduce.cu lines 638-642, 720-724, 799-803, 881-885: host part of the maximum
    and minimum; [better v best] is the comparison *)
Definition host_select (better : A -> A -> bool) (l : list A) : outcome A :=
  match l with
  | [] => UB
  | x :: r => Ok (fold_left (fun best v => if better v best then v else best) r x)
  end.

(** Reduce.cu lines 550-564, 966-980: host part of the sum, by Kahan summation.
    (n is the length of the transferred array.) *)
Definition kahan_step (add sub : A -> A -> A) (s : A * A) (v : A) : A * A :=
  let tempVal := sub v (snd s) in
  let tempSum := add (fst s) tempVal in
  (tempSum, sub (sub tempSum (fst s)) tempVal).

Definition host_sum (add sub : A -> A -> A) (zero : A) (l : list A) : outcome A :=
  match l with
  | [x] => Ok x
  | _ => Ok (fst (fold_left (kahan_step add sub) l (zero, zero)))
  end.

(** The arithmetic that the kernels use: addition, subtraction, multiplication,
    comparison >, fabs, 0.0. *)
Record arith := Arith {
  add : A -> A -> A;
  sub : A -> A -> A;
  mul : A -> A -> A;
  gt : A -> A -> bool;
  fabs : A -> A;
  zero : A
}.

Variable ar : arith.

Definition lt (x y : A) : bool := gt ar y x.

(** (sData[tId] > in1) ? sData[tId] : in1   and
    if (sData[tId+o] > sData[tId]) sData[tId] = sData[tId+o]; *)
Definition pair_max (x y : A) : A := if gt ar x y then x else y.
Definition red_max (x y : A) : A := if gt ar y x then y else x.
Definition pair_min (x y : A) : A := if lt x y then x else y.
Definition red_min (x y : A) : A := if lt y x then y else x.

Definition id_el (x : A) : A := x.

(** The six kernels: Reduce.cu lines 121, 179, 240, 301, 362, 424 *)
Definition k_sum (l : list A) := from_array id_el (add ar) (Some (zero ar)) (add ar) l.
Definition k_max (l : list A) := from_array id_el pair_max None red_max l.
Definition k_maxAbs (l : list A) := from_array (fabs ar) pair_max (Some (zero ar)) red_max l.
Definition k_min (l : list A) := from_array id_el pair_min None red_min l.
Definition k_minAbs (l : list A) := from_array (fabs ar) pair_min None red_min l.
Definition k_innerProduct (a b : list A) : kernel A :=
  Kernel (fun i => match nth_error a i, nth_error b i with
                   | Some x, Some y => Some (mul ar x y)
                   | _, _ => None
                   end) (add ar) (Some (zero ar)) (add ar).

Definition size (l : list A) : Z := Z.of_nat (length l).

(** The six wrappers: Reduce.cu lines 480-565, 569-643, 648-725, 730-804,
    809-886, 891-981 *)
Definition sum dev sch (l : list A) st :=
  wrapper dev false k_sum sch (k_sum l) (Some l) (size l)
    (host_sum (add ar) (sub ar) (zero ar)) st.
Definition max dev sch (l : list A) st :=
  wrapper dev false k_max sch (k_max l) (Some l) (size l) (host_select (gt ar)) st.
Definition maxAbs dev sch (l : list A) st :=
  wrapper dev true k_max sch (k_maxAbs l) (Some l) (size l) (host_select (gt ar)) st.
Definition min dev sch (l : list A) st :=
  wrapper dev false k_min sch (k_min l) (Some l) (size l) (host_select lt) st.
Definition minAbs dev sch (l : list A) st :=
  wrapper dev true k_min sch (k_minAbs l) (Some l) (size l) (host_select lt) st.
Definition innerProduct dev sch (a b : list A) st :=
  _ <- check (0 <? size a)%Z ;; _ <- check (0 <? size b)%Z ;;
  _ <- check (size a =? size b)%Z ;;
  wrapper dev true k_sum sch (k_innerProduct a b) None (size a)
    (host_sum (add ar) (sub ar) (zero ar)) st.

End Wrapper.
Arguments arith : clear implicits.
