(** Model of the stress of the periodic solver: WaveList::computedKSq,
    Block::computeStressThread, Block::computeStressBead, Polymer::computeStress
    and MixturePrdc::computeStress, for one lattice parameter.  [dk m] is the
    derivative unitCell().dksq(minImages_[m], n) of |k|^2 of point m of the
    k-grid.  Exact arithmetic. *)
From Coq Require Import Reals ZArith List Bool Arith.
From Verif Require Import Base RSum Polymer Solve Species Fft R1d Rpc.
Import ListNotations.
Local Open Scope R_scope.

(** prdc/cpu/WaveList.tpp 166-203: computedKSq, isRealField_ true. *)
Definition waveDKSq (dims : list Z) (dk : nat -> R) (m : nat) : R :=
  if hasImplicitInverse (gridPos (computeKMesh dims) m) dims then dk m * 2 else dk m.

(** rpc/solvers/Block.tpp 590-597, 662-669, 690-697, 719-726: the loop over
    wavevectors, with the factor e of each of them. *)
Definition waveSum (dims : list Z) (e : nat -> R) (q q2 : field) : R :=
  rsum (nK dims) (fun m => (fst (fftForward dims q2 m) * fst (fftForward dims q m)
                            + snd (fftForward dims q2 m) * snd (fftForward dims q m)) * e m).

(** Block.tpp 537-613: computeStressThread. *)
Definition blockStressThread (dims : list Z) (dKSq : nat -> R) (kuhn ds : R) (ns : nat)
    (l0 l1 : list field) (prefactor : R) : R :=
  let bSq := kuhn * kuhn / 6 in
  let dels := fun j : nat => if (negb (j =? 0) && negb (j =? ns - 1))%nat
                             then (if Nat.even j then ds / 3 * 2 else ds / 3 * 4) else ds / 3 in
  let dQ := 0 - rsum ns (fun j => waveSum dims dKSq (qAt l0 j) (qAt l1 (ns - 1 - j)) * (bSq * dels j)) in
  -1 * prefactor * dQ.

(** Block.tpp 619-738: computeStressBead; [he], [te] are isHeadEnd(), isTailEnd()
    of propagator 0. *)
Definition blockStressBead (dims : list Z) (kSq dKSq : nat -> R) (kuhn : R) (ns : nat) (he te : bool)
    (l0 l1 : list field) (prefactor : R) : R :=
  let bSq := kuhn * kuhn / 6 in
  let full := fun m => dKSq m * expKsq kSq Bead kuhn 1 m in
  let half := fun m => dKSq m * expKsq2 kSq Bead kuhn 1 m in
  let dQ := 0 in
  let dQ := if he then dQ else dQ - waveSum dims half (qAt l0 0) (qAt l1 (ns - 2)) * (1/2 * bSq) in
  let dQ := dQ - rsum (ns - 3) (fun k => waveSum dims full (qAt l0 (S k)) (qAt l1 (ns - 2 - S k)) * bSq) in
  let dQ := if te then dQ else dQ - waveSum dims half (qAt l0 (ns - 2)) (qAt l1 0) * (1/2 * bSq) in
  -1 * prefactor * dQ.

Section Polymer.
Variables (model : polyModel) (dims : list Z) (kSq dKSq : nat -> R) (dsTarget : R) (bs : list pblock).

(** rpc/solvers/Polymer.tpp 93-125: computeStress, from the propagators st and the
    species s as the last compute() left them. *)
Definition polymerStress (es : list edge) (vs : list vertex) (st : props) (s : species) : R :=
  let prefactor := match model with
                   | Thread => sp_phi s / (sp_q s * pLength bs)
                   | Bead => sp_phi s / (sp_q s * pBeads bs)
                   end in
  rsum (length es) (fun b =>
    match st (b, false), st (b, true) with
    | Some l0, Some l1 =>
        match model with
        | Thread => blockStressThread dims dKSq (pb_kuhn (pblockAt bs b)) (pDs model dsTarget bs b)
                      (pNs model dsTarget bs b) l0 l1 prefactor
        | Bead => blockStressBead dims kSq dKSq (pb_kuhn (pblockAt bs b)) (pNs model dsTarget bs b)
                    (isHeadEnd es vs (b, false)) (isTailEnd es vs (b, false)) l0 l1 prefactor
        end
    | _, _ => 0
    end).
End Polymer.

(** prdc/solvers/MixturePrdc.tpp 230-268: computeStress, from the stresses of the
    polymers. *)
Definition mixtureStress (np : nat) (stress : nat -> R) (phiTot : R) : R := rsum np stress / phiTot.
