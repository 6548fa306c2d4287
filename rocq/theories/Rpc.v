(** Model of the periodic solver src/rpc/solvers: Block.tpp, Propagator.tpp,
    Polymer.tpp, for one polymer species.  Exact real arithmetic; transforms as
    in Fft.v.  |k|^2 of each k-grid point (WaveList::kSq) is the parameter
    [kSq].  The work arrays expKsq_, expW_ ... are recomputed from the current
    parameters; the validity flag hasExpKsq_ is modelled elsewhere. *)
From Coq Require Import Reals ZArith List Bool Arith.
From Verif Require Import Base RSum Polymer Solve Species Fft R1d.
Import ListNotations.
Local Open Scope R_scope.

(** PolymerModel::Type *)
Inductive polyModel := Thread | Bead.

(** Parameters of a block (Edge.h, BlockTmpl.h). *)
Record pblock := mkPBlock { pb_length : R; pb_nBead : nat; pb_kuhn : R; pb_monomer : nat }.
Definition pblockAt (bs : list pblock) (b : nat) : pblock := nth b bs (mkPBlock 0 0 0 0).

(** Block.tpp 126-131 (and 163-168): number of contour points, thread model. *)
Definition rpcNs (len ds : R) : Z :=
  let t := floorZ (len / (2 * ds) + 1/2) in
  let t := if (t =? 0)%Z then 1%Z else t in
  (2 * t + 1)%Z.
(** Block.tpp 132, 169 *)
Definition rpcDs (len ds : R) : R := len / IZR (rpcNs len ds - 1).

Section Ops.
Variables (dims : list Z) (kSq : nat -> R).

(** Forward transform, multiplication in k-space, inverse transform. *)
Definition kOp (e : nat -> R) (f : field) : field := fftInverse dims (mulK e (fftForward dims f)).

(** Block.tpp 205-234; [c] is 1 for the thread model ds_, bead model 1.0. *)
Definition bSqFactor (m : polyModel) (kuhn ds : R) : R :=
  match m with Thread => -1 * kuhn * kuhn / 6 * ds | Bead => -1 * kuhn * kuhn / 6 end.
Definition expKsq (m : polyModel) (kuhn ds : R) (k : nat) : R := exp (kSq k * bSqFactor m kuhn ds).
Definition expKsq2 (m : polyModel) (kuhn ds : R) (k : nat) : R := exp (1/2 * (kSq k * bSqFactor m kuhn ds)).

(** Block.tpp 250-265: expW_, expW2_, expWInv_. *)
Definition expW (m : polyModel) (ds : R) (w : field) : field := fun i =>
  match m with Thread => exp (- (1/2) * ds * w i) | Bead => exp (- w i) end.
Definition expW2 (ds : R) (w : field) : field := fun i => exp (1/2 * (- (1/2) * ds * w i)).
Definition expWInv (w : field) : field := fun i => 1 / exp (- w i).

(** Block.tpp 277-347: stepThread. *)
Definition stepThread (kuhn ds : R) (w q : field) : field :=
  let e := expKsq Thread kuhn ds in let e2 := expKsq2 Thread kuhn ds in
  let qr := fun i => q i * expW Thread ds w i in
  let qr2 := fun i => q i * expW2 ds w i in
  let qr := kOp e qr in
  let qr2 := kOp e2 qr2 in
  let qr := fun i => qr i * expW Thread ds w i in
  let qr2 := fun i => qr2 i * expW Thread ds w i in
  let qr2 := kOp e2 qr2 in
  let qr2 := fun i => qr2 i * expW2 ds w i in
  fun i => (4 * qr2 i - qr i) / 3.

(** Block.tpp 364-384, 390-410, 416-428, 353-358. *)
Definition stepBond (kuhn : R) (q : field) : field := kOp (expKsq Bead kuhn 1) q.
Definition stepHalfBond (kuhn : R) (q : field) : field := kOp (expKsq2 Bead kuhn 1) q.
Definition stepFieldB (w q : field) : field := fun i => q i * expW Bead 1 w i.
Definition stepBead (kuhn : R) (w q : field) : field := stepFieldB w (stepBond kuhn q).

(** Propagator.tpp 136-181: the slices q(0), ..., q(ns-1) of solve(). *)
Definition threadSlices (ns : nat) (kuhn ds : R) (w h : field) : list field :=
  iterSlices ns (stepThread kuhn ds w) h.
Definition beadSlices (nBead : nat) (kuhn : R) (w : field) (he te : bool) (h : field) : list field :=
  match nBead with
  | O => [h; if te then h else stepHalfBond kuhn h]
  | S n =>
      let q1 := stepFieldB w (if he then h else stepHalfBond kuhn h) in
      let qn := Nat.iter n (stepBead kuhn w) q1 in
      h :: iterSlices (S n) (stepBead kuhn w) q1 ++ [if te then qn else stepHalfBond kuhn qn]
  end.
End Ops.

Section Polymer.
Variables (model : polyModel) (dims : list Z) (kSq : nat -> R) (dsTarget : R)
          (bs : list pblock) (w : nat -> field).

(** Block.tpp 122-139: ns_ and ds_. *)
Definition pNs (b : nat) : nat :=
  match model with
  | Thread => Z.to_nat (rpcNs (pb_length (pblockAt bs b)) dsTarget)
  | Bead => pb_nBead (pblockAt bs b) + 2
  end.
Definition pDs (b : nat) : R :=
  match model with Thread => rpcDs (pb_length (pblockAt bs b)) dsTarget | Bead => 1 end.

Definition wOf (b : nat) : field := w (pb_monomer (pblockAt bs b)).
Definition rpcSlices (b : nat) (he te : bool) (h : field) : list field :=
  match model with
  | Thread => threadSlices dims kSq (pNs b) (pb_kuhn (pblockAt bs b)) (pDs b) (wOf b) h
  | Bead => beadSlices dims kSq (pb_nBead (pblockAt bs b)) (pb_kuhn (pblockAt bs b)) (wOf b) he te h
  end.

(** Propagator.h 259-264: tail() may be called in the thread model, or when the
    tail is not a chain end. *)
Definition rpcTailOk (tailEnd : bool) : bool :=
  match model with Thread => true | Bead => negb tailEnd end.

(** Average over the grid. *)
Definition gridAvg (f : field) : R := rsum (nR dims) f / INR (nR dims).

(** Propagator.tpp 243-276: computeQ of propagator x. *)
Definition rpcComputeQ (es : list edge) (vs : list vertex) (st : props) (x : dart) : outcome R :=
  match st x, st (partner x) with
  | Some l, Some l' =>
      check (Bool.eqb (isHeadEnd es vs x) (isTailEnd es vs (partner x))) ;;
      if (match model with Bead => isHeadEnd es vs x | Thread => false end)
      then Ok (gridAvg (qAt l' (pNs (fst x) - 2)))
      else
        check (rpcTailOk (isTailEnd es vs (partner x))) ;;
        Ok (gridAvg (fun i => hd zero_field l i * last l' zero_field i))
  | _, _ => Throw
  end.

(** Block.tpp 434-490: computeConcentrationThread; the loops over odd j < ns-1
    and even 2 <= j < ns-2 are written as sums over all j of that range. *)
Definition concThread (b : nat) (l0 l1 : list field) (prefactor : R) : field :=
  let ns := pNs b in
  let t := fun j i => qAt l0 j i * qAt l1 (ns - 1 - j) i in
  fun i =>
    (qAt l0 0 i * qAt l1 (ns - 1) i + qAt l0 (ns - 1) i * qAt l1 0 i
     + rsum (ns - 1) (fun j => if Nat.odd j then t j i * 4 else 0)
     + rsum (ns - 2) (fun j => if Nat.even j && (2 <=? j)%nat then t j i * 2 else 0))
    * (prefactor * (pDs b / 3)).
(** Block.tpp 496-531: computeConcentrationBead, j = 1 .. ns-2. *)
Definition concBead (b : nat) (l0 l1 : list field) (prefactor : R) : field :=
  let ns := pNs b in
  fun i => rsum (ns - 2) (fun k => qAt l0 (S k) i * qAt l1 (ns - 1 - S k) i * expWInv (wOf b) i) * prefactor.

(** PolymerSpecies.cpp 403-411 and 416-424. *)
Definition pLength : R := lsum pb_length bs.
Definition pBeads : R := lsum (fun b => INR (pb_nBead b)) bs.

(** Polymer.tpp 59-88 and PolymerTmpl.tpp 153-178: compute.  setupSolver is part
    of the slices.  Returns the species and one field per block. *)
Definition rpcCompute (es : list edge) (p : polymer) (s : species) (phiTot : R)
  : outcome (species * (nat -> field)) :=
  st <- solveAll rpcSlices rpcTailOk true es (p_vertices p) (p_plan p) ;;
  Q <- rpcComputeQ es (p_vertices p) st (O, false) ;;
  let s' := setQ s (Q / phiTot) in
  let prefactor := match model with
                   | Thread => sp_phi s' / (sp_q s' * pLength)
                   | Bead => sp_phi s' / (sp_q s' * pBeads)
                   end in
  Ok (s', fun b =>
            match st (b, false), st (b, true) with
            | Some l0, Some l1 =>
                match model with
                | Thread => concThread b l0 l1 prefactor
                | Bead => concBead b l0 l1 prefactor
                end
            | _, _ => zero_field
            end).
End Polymer.
