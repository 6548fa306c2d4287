(** Model of src/rpg/solvers/Block.tpp and Propagator.tpp and of
    src/prdc/cuda/FFT.tpp, FFTBatched.tpp, on the words of device memory of
    GpuKernel.v.  Every VecOp call is the model of its wrapper in VecOp.v, with a
    launch whose threads interleave as an arbitrary schedule says.

    Simplifications: the cuFFT library is taken to compute the transforms of Fft.v,
    and to leave junk in the input of a complex-to-real transform (its
    documentation says that this input is overwritten).  Reduce::sum and
    Reduce::innerProduct are sums over the array (see C71 for their kernels).
    Arrays are given by address, type and capacity; DeviceArray bookkeeping
    (ownership, association) is not part of this model: an associated array is a
    slice. *)
From Coq Require Import Reals ZArith List Bool Arith.
From Verif Require Import Base RSum GpuThreads GpuGrid GpuKernel VecOp Fft R1d Rpc.
Import ListNotations.
Local Open Scope nat_scope.

(** Device memory, state of ThreadArray, number of launches so far *)
Record gstate := Gst { g_mem : memory; g_thr : tarr; g_clock : nat }.

(** RField::associate, RFieldDft::associate: n elements of d from element b on *)
Definition sub (d : darr) (b n : nat) : darr :=
  Darr (da_addr d + Z.of_nat (width (da_ty d) * b)) (da_ty d) (Z.of_nat n).

Section Device.
Variables (dev : device) (sched : nat -> vop -> nat -> nat -> list nat) (dims : list Z).

Definition tick (q : memory * tarr) (g : gstate) : gstate := Gst (fst q) (snd q) (S (g_clock g)).

(** Calls of VecOp.h, VecOpMisc.h and of the wrappers in Block.tpp *)
Definition vecG (o : vop) (ds : list darr) (sc : list (R * R)) (g : gstate) : outcome gstate :=
  q <- vec_all dev (sched (g_clock g) o) o ds sc (g_thr g) (g_mem g) ;; Ok (tick q g).
Definition miscG (o : vop) (ds : list darr) (sc : list (R * R)) (g : gstate) : outcome gstate :=
  q <- misc dev (sched (g_clock g) o) o ds sc (g_thr g) (g_mem g) ;; Ok (tick q g).
Definition manyG (mul : bool) (a : darr) (vecs : list darr) (g : gstate) : outcome gstate :=
  let o := if length vecs =? 2 then (if mul then mulVV RR else addVV RR)
           else (if mul then mulVMany (length vecs) else addVMany (length vecs)) in
  q <- many dev (sched (g_clock g) o) mul a vecs (g_thr g) (g_mem g) ;; Ok (tick q g).

(** ** Transforms *)

Definition readable (m : memory) (lo : Z) (n : nat) : bool :=
  forallb (fun i => match m (lo + Z.of_nat i)%Z with Val _ => true | _ => false end) (seq 0 n).
Definition writable (m : memory) (lo : Z) (n : nat) : bool :=
  forallb (fun i => match m (lo + Z.of_nat i)%Z with Free => false | _ => true end) (seq 0 n).
Definition get (m : memory) (y : Z) : R := match m y with Val v => v | _ => 0%R end.

Definition nx : nat := nR dims.
Definition kSize : nat := nK dims.

(** cufftExecD2Z without scaling, one field *)
Definition rawForward (f : nat -> R) (k : nat) : R * R :=
  (rsum nx (fun r => f r * cos (theta dims k r)), - rsum nx (fun r => f r * sin (theta dims k r)))%R.
Definition comp (c : nat) (z : R * R) : R := if c =? 0 then fst z else snd z.

(** FFT.tpp 145-150 and FFTBatched.tpp 203-208: cufftExecD2Z with batches of nx
    real and kSize complex numbers (plans: FFTBatched.tpp 141-185) *)
Definition execD2Z (nb : nat) (src dst : darr) (m : memory) : outcome memory :=
  if readable m (da_addr src) (nb * nx) && writable m (da_addr dst) (nb * kSize * 2) then
    Ok (fun y =>
          let e := (y - da_addr dst)%Z in
          if ((0 <=? e) && (e <? Z.of_nat (nb * kSize * 2)))%Z%bool then
            let j := Z.to_nat e / 2 in
            Val (comp (Z.to_nat e mod 2)
                   (rawForward (fun r => get m (da_addr src + Z.of_nat (j / kSize * nx + r))%Z) (j mod kSize)))
          else m y)
  else UB.

(** FFT.tpp 175-180 and FFTBatched.tpp 235-240: cufftExecZ2D *)
Definition execZ2D (nb : nat) (src dst : darr) (m : memory) : outcome memory :=
  if readable m (da_addr src) (nb * kSize * 2) && writable m (da_addr dst) (nb * nx) then
    Ok (fun y =>
          let e := (y - da_addr dst)%Z in
          let e' := (y - da_addr src)%Z in
          if ((0 <=? e) && (e <? Z.of_nat (nb * nx)))%Z%bool then
            let j := Z.to_nat e in
            Val (fftInverse dims (fun k => (get m (da_addr src + Z.of_nat ((j / nx * kSize + k) * 2))%Z,
                                            get m (da_addr src + Z.of_nat ((j / nx * kSize + k) * 2 + 1))%Z))
                   (j mod nx))
          else if ((0 <=? e') && (e' <? Z.of_nat (nb * kSize * 2)))%Z%bool then Junk
          else m y)
  else UB.

(** FFT.tpp 133-159 (nb = 1) and FFTBatched.tpp 190-218: forwardTransform, with the
    scaling by 1/rSize *)
Definition forwardG (nb : nat) (r k : darr) (g : gstate) : outcome gstate :=
  check (da_cap r =? Z.of_nat (nb * nx))%Z ;; check (da_cap k =? Z.of_nat (nb * kSize))%Z ;;
  m <- execD2Z nb r k (g_mem g) ;;
  vecG (mulEqS ECR) [k] [(1 / INR nx, 0)%R] (Gst m (g_thr g) (g_clock g)).
(** FFT.tpp 164-185 and FFTBatched.tpp 223-245: inverseTransformUnsafe *)
Definition inverseG (nb : nat) (k r : darr) (g : gstate) : outcome gstate :=
  check (da_cap r =? Z.of_nat (nb * nx))%Z ;; check (da_cap k =? Z.of_nat (nb * kSize))%Z ;;
  m <- execZ2D nb k r (g_mem g) ;;
  Ok (Gst m (g_thr g) (g_clock g)).

(** Reduce::sum, Reduce::innerProduct (prdc/cuda/Reduce.cu) *)
Definition sumG (d : darr) (g : gstate) : outcome R :=
  if readable (g_mem g) (da_addr d) (Z.to_nat (da_cap d)) then
    Ok (rsum (Z.to_nat (da_cap d)) (fun i => get (g_mem g) (da_addr d + Z.of_nat i)%Z))
  else UB.
Definition innerProductG (a b : darr) (g : gstate) : outcome R :=
  check (da_cap a =? da_cap b)%Z ;;
  if readable (g_mem g) (da_addr a) (Z.to_nat (da_cap a)) && readable (g_mem g) (da_addr b) (Z.to_nat (da_cap a)) then
    Ok (rsum (Z.to_nat (da_cap a)) (fun i => get (g_mem g) (da_addr a + Z.of_nat i)%Z * get (g_mem g) (da_addr b + Z.of_nat i)%Z)%R)
  else UB.

(** ** Blocks *)

(** Arrays of a block (Block.h): expW_, expW2_, expWInv_, expKsq_, expKsq2_,
    qrPair_, qkPair_, qk_, cField(), q0k_, q1k_ and q0kBatched_, q1kBatched_; the
    qFieldsAll_ of both propagators; rTmp of computeStress *)
Record garrays := Garrays {
  a_expW : darr; a_expW2 : darr; a_expWInv : darr; a_expKsq : darr; a_expKsq2 : darr;
  a_qrPair : darr; a_qkPair : darr; a_qk : darr; a_c : darr;
  a_q0k : darr; a_q1k : darr; a_q0kB : darr; a_q1kB : darr;
  a_q0All : darr; a_q1All : darr; a_rTmp : darr }.

Variable B : garrays.

Definition real (x : R) : R * R := (x, 0%R).

(** Block.tpp 405-426: computeExpKsq; kSq is waveListPtr_->kSq() *)
Definition computeExpKsqG (model : polyModel) (kuhn ds : R) (kSq : darr) (g : gstate) : outcome gstate :=
  let f := (-1 * kuhn * kuhn / 6)%R in
  let f := match model with Thread => (f * ds)%R | Bead => f end in
  g <- miscG expVc [a_expKsq B; kSq] [real f] g ;;
  miscG expVc [a_expKsq2 B; kSq] [real (f / 2)] g.

(** Block.tpp 433-447: setupSolver, the fields *)
Definition setupFieldG (model : polyModel) (ds : R) (w : darr) (g : gstate) : outcome gstate :=
  match model with
  | Thread =>
      g <- miscG expVc [a_expW B; w] [real (-(1/2) * ds)] g ;;
      miscG expVc [a_expW2 B; w] [real (-(1/4) * ds)] g
  | Bead =>
      g <- miscG expVc [a_expW B; w] [real (-1)] g ;;
      vecG divSV [a_expWInv B; a_expW B] [real 1] g
  end.

(** Block.tpp 460-495: stepThread *)
Definition stepThreadG (qin qout : darr) (g : gstate) : outcome gstate :=
  check (da_cap (a_qrPair B) =? Z.of_nat (nx * 2))%Z ;;
  check (da_cap (a_qkPair B) =? Z.of_nat (kSize * 2))%Z ;;
  check (da_cap (a_expW B) =? Z.of_nat nx)%Z ;;
  check (da_cap (a_expKsq B) =? Z.of_nat kSize)%Z ;;
  let qr := sub (a_qrPair B) 0 nx in let qr2 := sub (a_qrPair B) nx nx in
  let qk := sub (a_qkPair B) 0 kSize in let qk2 := sub (a_qkPair B) kSize kSize in
  g <- miscG mulVVPair [qr; qr2; a_expW B; a_expW2 B; qin] [] g ;;
  g <- forwardG 2 (a_qrPair B) (a_qkPair B) g ;;
  g <- vecG (mulEqV ECR) [qk; a_expKsq B] [] g ;;
  g <- vecG (mulEqV ECR) [qk2; a_expKsq2 B] [] g ;;
  g <- inverseG 2 (a_qkPair B) (a_qrPair B) g ;;
  g <- miscG mulEqVPair [qr; qr2; a_expW B] [] g ;;
  g <- forwardG 1 qr2 qk2 g ;;
  g <- vecG (mulEqV ECR) [qk2; a_expKsq2 B] [] g ;;
  g <- inverseG 1 qk2 qr2 g ;;
  miscG richardsonEx [qout; qr; qr2; a_expW2 B] [] g.

(** Block.tpp 511-519: stepFieldBead *)
Definition stepFieldBeadG (q : darr) (g : gstate) : outcome gstate :=
  check (da_cap (a_expW B) =? Z.of_nat nx)%Z ;; check (da_cap q =? Z.of_nat nx)%Z ;;
  vecG (mulEqV ERR) [q; a_expW B] [] g.
(** Block.tpp 525-545, 551-568: stepBondBead, stepHalfBondBead *)
Definition bondG (e : darr) (qin qout : darr) (g : gstate) : outcome gstate :=
  check (da_cap qin =? Z.of_nat nx)%Z ;; check (da_cap qout =? Z.of_nat nx)%Z ;;
  check (da_cap (a_qk B) =? Z.of_nat kSize)%Z ;; check (da_cap (a_expKsq B) =? Z.of_nat kSize)%Z ;;
  g <- forwardG 1 qin (a_qk B) g ;;
  g <- vecG (mulEqV ECR) [a_qk B; e] [] g ;;
  inverseG 1 (a_qk B) qout g.
Definition stepBondBeadG := bondG (a_expKsq B).
Definition stepHalfBondBeadG := bondG (a_expKsq2 B).
(** Block.tpp 501-505: stepBead *)
Definition stepBeadG (qin qout : darr) (g : gstate) : outcome gstate :=
  g <- stepBondBeadG qin qout g ;; stepFieldBeadG qout g.

(** ** Propagators *)

(** Propagator.tpp 44-59: qFields_[i]; p is the direction *)
Definition qAll (p : bool) : darr := if p then a_q1All B else a_q0All B.
Definition qField (p : bool) (i : nat) : darr := sub (qAll p) (i * nx) nx.

(** Propagator.tpp 96-117: computeHead, from the tails of the sources *)
Definition computeHeadG (p : bool) (tails : list darr) (g : gstate) : outcome gstate :=
  g <- vecG (eqS Re) [qField p 0] [real 1] g ;;
  match tails with
  | [] => Ok g
  | _ => manyG true (qField p 0) (qField p 0 :: tails) g
  end.

(** for (i = from; i < from + n; ++i) f(i) *)
Fixpoint forG {T : Type} (n from : nat) (f : nat -> T -> outcome T) (g : T) : outcome T :=
  match n with O => Ok g | S k => g <- f from g ;; forG k (S from) f g end.

(** Propagator.tpp 131-165 (tailSwapped = false) and 181-215 (tailSwapped = true,
    where the condition for the tail slice is negated): the steps *)
Definition stepsG (tailSwapped : bool) (model : polyModel) (p : bool) (ns : nat) (he te : bool) (g : gstate)
  : outcome gstate :=
  match model with
  | Thread => forG (ns - 1) 0 (fun i => stepThreadG (qField p i) (qField p (i + 1))) g
  | Bead =>
      g <- (if he then vecG (eqV Re) [qField p 1; qField p 0] [] g
            else stepHalfBondBeadG (qField p 0) (qField p 1) g) ;;
      g <- stepFieldBeadG (qField p 1) g ;;
      g <- forG (ns - 2 - 1) 1 (fun i => stepBeadG (qField p i) (qField p (i + 1))) g ;;
      if xorb te tailSwapped
      then vecG (eqV Re) [qField p (ns - 2); qField p (ns - 2)] [] g
      else stepHalfBondBeadG (qField p (ns - 2)) (qField p (ns - 1)) g
  end.

(** Propagator.tpp 123-168: solve() *)
Definition solveG (model : polyModel) (p : bool) (ns : nat) (he te : bool) (tails : list darr) (g : gstate)
  : outcome gstate :=
  g <- computeHeadG p tails g ;; stepsG false model p ns he te g.
(** Propagator.tpp 174-217: solve(head) *)
Definition solveHeadG (model : polyModel) (p : bool) (ns : nat) (he te : bool) (head : darr) (g : gstate)
  : outcome gstate :=
  g <- vecG (eqV Re) [qField p 0; head] [] g ;; stepsG true model p ns he te g.

(** Propagator.h 280-285: tail() *)
Definition tailG (model : polyModel) (p : bool) (ns : nat) (te : bool) : outcome darr :=
  match model with
  | Bead => if te then Throw else Ok (qField p (ns - 1))
  | Thread => Ok (qField p (ns - 1))
  end.

(** Propagator.tpp 223-252: computeQ of direction p; he is isHeadEnd() *)
Definition computeQG (model : polyModel) (p : bool) (ns : nat) (he : bool) (g : gstate) : outcome R :=
  Q <- (if (match model with Bead => he | Thread => false end)
        then sumG (qField (negb p) (ns - 2)) g
        else t <- tailG model (negb p) ns he ;; innerProductG (qField p 0) t g) ;;
  Ok (Q / INR nx)%R.

(** ** Concentrations and stress *)

(** Block.tpp 574-604: computeConcentrationThread *)
Definition concThreadG (ns : nat) (ds prefactor : R) (g : gstate) : outcome gstate :=
  check (da_cap (a_c B) =? Z.of_nat nx)%Z ;;
  let acc := fun c j => miscG addEqMulVVc [a_c B; qField false j; qField true (ns - 1 - j)] [real c] in
  g <- vecG (eqS Re) [a_c B] [real 0] g ;;
  g <- acc 1%R 0 g ;;
  g <- acc 1%R (ns - 1) g ;;
  (* odd j < ns - 1, then even 2 <= j < ns - 2; the bodies do nothing for other j *)
  g <- forG (ns - 1 - 1) 1 (fun j g => if Nat.odd j then acc 4%R j g else Ok g) g ;;
  g <- forG (ns - 2 - 2) 2 (fun j g => if Nat.even j then acc 2%R j g else Ok g) g ;;
  vecG (mulEqS ERR) [a_c B] [real (prefactor * ds / 3)] g.

(** Block.tpp 610-634: computeConcentrationBead *)
Definition concBeadG (ns : nat) (prefactor : R) (g : gstate) : outcome gstate :=
  check (da_cap (a_c B) =? Z.of_nat nx)%Z ;;
  g <- vecG (eqS Re) [a_c B] [real 0] g ;;
  g <- forG (ns - 1 - 1) 1 (fun j g =>
         miscG addEqMulVVV [a_c B; qField false j; qField true (ns - 1 - j); a_expWInv B] [] g) g ;;
  vecG (mulEqS ERR) [a_c B] [real prefactor] g.

(** dKSq(n) of the wave list, n < nParams_ *)
Variables (dKSq : nat -> darr) (nParams : nat).

Definition kBatched (p : bool) : darr := if p then a_q1kB B else a_q0kB B.
(** Block.tpp 708-710, 817-818, 845-846, 879-880: association of q0k_, q1k_ *)
Definition kSlice (p : bool) (j : nat) : darr := sub (kBatched p) (j * kSize) kSize.

(** Block.tpp 680-701, 778-794: transforms of all slices, if batched *)
Definition transformAllG (batched : bool) (ns : nat) (g : gstate) : outcome gstate :=
  if batched then
    g <- forwardG ns (a_q0All B) (a_q0kB B) g ;; forwardG ns (a_q1All B) (a_q1kB B) g
  else Ok g.
(** Block.tpp 705-716, 814-824, 842-852, 878-885: q0k_ and q1k_ for slice i of
    propagator 0 and slice j of propagator 1 *)
Definition transformG (batched : bool) (i j : nat) (g : gstate) : outcome (darr * darr * gstate) :=
  if batched then Ok (kSlice false i, kSlice true j, g)
  else g <- forwardG 1 (qField false i) (a_q0k B) g ;;
       g <- forwardG 1 (qField true j) (a_q1k B) g ;;
       Ok (a_q0k B, a_q1k B, g).

(** Block.tpp 729-738, 825-831, 855-866, 886-892: increments c of dQ for all
    parameters; e is the array that rTmp is multiplied by *)
Definition incrementG (e : option darr) (c : R) (k0 k1 : darr) (x : gstate * (nat -> R)) : outcome (gstate * (nat -> R)) :=
  forG nParams 0 (fun n x =>
    g <- miscG realMulVConjVV [a_rTmp B; k0; k1; dKSq n] [] (fst x) ;;
    g <- match e with Some e => vecG (mulEqV ERR) [a_rTmp B; e] [] g | None => Ok g end ;;
    s <- sumG (a_rTmp B) g ;;
    Ok (g, fun k => if k =? n then (snd x n - s * c)%R else snd x k)) x.
Definition sliceG (batched : bool) (e : option darr) (c : R) (i j : nat) (x : gstate * (nat -> R))
  : outcome (gstate * (nat -> R)) :=
  t <- transformG batched i j (fst x) ;;
  incrementG e c (fst (fst t)) (snd (fst t)) (snd t, snd x).

(** Block.tpp 640-752: computeStressThread *)
Definition stressThreadG (batched : bool) (ns : nat) (kuhn ds prefactor : R) (g : gstate)
  : outcome (gstate * (nat -> R)) :=
  g <- transformAllG batched ns g ;;
  x <- forG ns 0 (fun j x =>
         let dels := if (negb (j =? 0) && negb (j =? ns - 1))
                     then (if Nat.even j then ds * 2 else ds * 4)%R else ds in
         sliceG batched None (kuhn * kuhn * dels / (3 * 6))%R j (ns - 1 - j) x) (g, fun _ => 0%R) ;;
  Ok (fst x, fun n => (0 - snd x n * prefactor)%R).

(** Block.tpp 758-905: computeStressBead; he, te are isHeadEnd(), isTailEnd() of
    propagator 0 *)
Definition stressBeadG (batched : bool) (ns : nat) (he te : bool) (kuhn prefactor : R) (g : gstate)
  : outcome (gstate * (nat -> R)) :=
  g <- transformAllG batched ns g ;;
  let bSq := (kuhn * kuhn / 6)%R in
  let x := (g, fun _ : nat => 0%R) in
  x <- (if he then Ok x else sliceG batched (Some (a_expKsq2 B)) (1/2 * bSq)%R 0 (ns - 2) x) ;;
  x <- forG (ns - 2 - 1) 1 (fun j x => sliceG batched (Some (a_expKsq B)) bSq j (ns - 2 - j) x) x ;;
  x <- (if te then Ok x else sliceG batched (Some (a_expKsq2 B)) (1/2 * bSq)%R (ns - 2) 0 x) ;;
  Ok (fst x, fun n => (-1 * prefactor * snd x n)%R).

End Device.
