(** Model of a polymer solver on the GPU: rpg/solvers/Polymer.tpp compute and
    computeStress, with PolymerTmpl.tpp solve, over the blocks and propagators of
    GpuBlock.v.  The state is device memory, the thread array and the clock that
    indexes schedules (g), and the flags isSolved_ of the propagators.

    Simplifications: arrays exist before the calls (allocate, or the first call of
    computeStress for q0k_ and q1k_), and the local array rTmp of computeStress is
    one array per block that exists all the time.  The solution arrays of a block
    have ns_ slices. *)
From Coq Require Import Reals ZArith List Bool Arith.
From Verif Require Import Base RSum GpuThreads GpuKernel VecOp Polymer Solve Species Fft R1d Rpc GpuBlock.
Import ListNotations.
Local Open Scope nat_scope.

Section GpuPolymer.
Variables (dev : device) (sched : nat -> vop -> nat -> nat -> list nat) (dims : list Z).
Variables (model : polyModel) (batched : bool) (dsTarget : R) (bs : list pblock).
(** Arrays of block b; the field of a monomer type; kSq() and dKSq(n) of the wave
    list *)
Variables (arr : nat -> garrays) (wD : nat -> darr) (kSqD : darr) (dKSqD : nat -> darr) (nParams : nat).
Variables (es : list edge) (vs : list vertex).

(** Block.tpp 258-276: ns_ is computed as in rpc; ds_ of the bead model is dsTarget_ *)
Definition gNs (b : nat) : nat := pNs model dsTarget bs b.
Definition gDs (b : nat) : R :=
  match model with Thread => rpcDs (pb_length (pblockAt bs b)) dsTarget | Bead => dsTarget end.
Definition gKuhn (b : nat) : R := pb_kuhn (pblockAt bs b).

(** Block.tpp 431-454: setupSolver; [has b] is hasExpKsq_ *)
Definition setupSolverG (has : nat -> bool) (b : nat) (g : gstate) : outcome gstate :=
  g <- setupFieldG dev sched (arr b) model (gDs b) (wD (pb_monomer (pblockAt bs b))) g ;;
  if has b then Ok g else computeExpKsqG dev sched (arr b) model (gKuhn b) (gDs b) kSqD g.

(** Propagator.tpp 104-115: tails[1], tails[2], ... *)
Fixpoint tailsG (solved : dart -> bool) (l : list dart) : outcome (list darr) :=
  match l with
  | [] => Ok []
  | x :: l' =>
      check (solved x) ;;
      t <- tailG dims (arr (fst x)) model (snd x) (gNs (fst x)) (isTailEnd es vs x) ;;
      r <- tailsG solved l' ;; Ok (t :: r)
  end.
(** Propagator.tpp 123-168: solve() *)
Definition solvePropG (x : dart) (u : gstate * (dart -> bool)) : outcome (gstate * (dart -> bool)) :=
  tails <- tailsG (snd u) (sources es vs x) ;;
  g <- solveG dev sched dims (arr (fst x)) model (snd x) (gNs (fst x)) (isHeadEnd es vs x) (isTailEnd es vs x) tails (fst u) ;;
  Ok (g, fun y => dart_eqb x y || snd u y).
(** PolymerTmpl.tpp 161-166 *)
Fixpoint solveLoopG (plan : list dart) (u : gstate * (dart -> bool)) : outcome (gstate * (dart -> bool)) :=
  match plan with
  | [] => Ok u
  | x :: plan' =>
      check (forallb (snd u) (sources es vs x)) ;;
      u <- solvePropG x u ;; solveLoopG plan' u
  end.
(** Propagator.tpp 223-252: computeQ, with its checks *)
Definition qG (x : dart) (u : gstate * (dart -> bool)) : outcome R :=
  check (snd u x) ;; check (snd u (partner x)) ;;
  check (Bool.eqb (isHeadEnd es vs x) (isTailEnd es vs (partner x))) ;;
  computeQG dims (arr (fst x)) model (snd x) (gNs (fst x)) (isHeadEnd es vs x) (fst u).

(** Polymer.tpp 74-85, 103-114: prefactor *)
Definition prefactorG (s : species) : R :=
  match model with
  | Thread => (sp_phi s / (sp_q s * pLength bs))%R
  | Bead => (sp_phi s / (sp_q s * pBeads bs))%R
  end.
(** Block.tpp 574-634 *)
Definition concG (prefactor : R) (b : nat) (g : gstate) : outcome gstate :=
  match model with
  | Thread => concThreadG dev sched dims (arr b) (gNs b) (gDs b) prefactor g
  | Bead => concBeadG dev sched dims (arr b) (gNs b) prefactor g
  end.

(** Polymer.tpp 59-88: compute, with PolymerTmpl.tpp 153-178 *)
Definition gpuCompute (plan : list dart) (s : species) (phiTot : R) (has : nat -> bool) (g : gstate)
  : outcome (species * (gstate * (dart -> bool))) :=
  g <- forG (length es) 0 (setupSolverG has) g ;;
  u <- solveLoopG plan (g, fun _ => false) ;;
  Q <- qG (0, false) u ;;
  let s' := setQ s (Q / phiTot) in
  g <- forG (length es) 0 (concG (prefactorG s')) (fst u) ;;
  Ok (s', (g, snd u)).

(** Block.tpp 640-905: computeStressThread and computeStressBead, with the checks
    of isSolved *)
Definition blockStressG (prefactor : R) (solved : dart -> bool) (b : nat) (g : gstate) : outcome (gstate * (nat -> R)) :=
  check (solved (b, false)) ;; check (solved (b, true)) ;;
  match model with
  | Thread => stressThreadG dev sched dims (arr b) dKSqD nParams batched (gNs b) (gKuhn b) (gDs b) prefactor g
  | Bead => stressBeadG dev sched dims (arr b) dKSqD nParams batched (gNs b)
              (isHeadEnd es vs (b, false)) (isTailEnd es vs (b, false)) (gKuhn b) prefactor g
  end.
(** Polymer.tpp 96-131: computeStress *)
Definition gpuStress (s : species) (u : gstate * (dart -> bool)) : outcome (gstate * (nat -> R)) :=
  forG (length es) 0 (fun b x =>
    y <- blockStressG (prefactorG s) (snd u) b (fst x) ;;
    Ok (fst y, fun n => (snd x n + snd y n)%R)) (fst u, fun _ => 0%R).

End GpuPolymer.
