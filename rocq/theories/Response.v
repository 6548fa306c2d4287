(** Model of prdc/solvers/MixturePrdc.tpp, compute, and of the correction of the
    fields in rpc/fts/compressor/LrCompressor.tpp (rpg/fts/compressor has the same
    steps on the device).

    Simplifications: exact reals; phiTot = 1 (no mask); the FFT is that of Fft.v; a
    concentration field is read by grid index; access to wFields[m] with m >= nm is
    undefined behaviour. *)
From Coq Require Import Reals ZArith List Bool Arith.
From Verif Require Import Base RSum Polymer Species Fft Rpc Intra.
Import ListNotations.
Local Open Scope R_scope.

Notation fields := (nat -> nat -> R) (only parsing).

(** A polymer species (blocks, graph, Species) and a solvent species *)
Record molecule := Mol { m_blocks : list pblock; m_edges : list edge; m_graph : polymer; m_species : species }.
Record solvent := Solv { v_monomer : nat; v_size : R; v_species : species }.

Section Mixture.
Variables (model : polyModel) (dims : list Z) (kSq : nat -> R) (dsTarget : R) (nm : nat).

(** addEqV (cFields[m], f) *)
Definition addTo (m : nat) (f : nat -> R) (acc : fields) : fields :=
  fun m' i => if (m' =? m)%nat then acc m' i + f i else acc m' i.

(** MixturePrdc.tpp 178-180 *)
Fixpoint computePolymers (w : fields) (l : list molecule) : outcome (list (molecule * (species * fields))) :=
  match l with
  | [] => Ok []
  | y :: l' =>
      r <- rpcCompute model dims kSq dsTarget (m_blocks y) w (m_edges y) (m_graph y) (m_species y) 1 ;;
      rs <- computePolymers w l' ;;
      Ok ((y, r) :: rs)
  end.
(** MixturePrdc.tpp 184-191, the inner loop *)
Fixpoint addBlocks (bs : list pblock) (j : nat) (c : fields) (acc : fields) : outcome fields :=
  match bs with
  | [] => Ok acc
  | b :: bs' => check (pb_monomer b <? nm) ;; addBlocks bs' (S j) c (addTo (pb_monomer b) (c j) acc)
  end.
(** MixturePrdc.tpp 183-192 *)
Fixpoint addPolymers (l : list (molecule * (species * fields))) (acc : fields) : outcome fields :=
  match l with
  | [] => Ok acc
  | (y, (_, c)) :: l' => acc' <- addBlocks (m_blocks y) 0 c acc ;; addPolymers l' acc'
  end.
(** MixturePrdc.tpp 200-203 *)
Fixpoint computeSolvents (w : fields) (l : list solvent) : outcome (list (solvent * (species * (nat -> R)))) :=
  match l with
  | [] => Ok []
  | y :: l' =>
      if (v_monomer y <? nm)%nat then
        rs <- computeSolvents w l' ;;
        Ok ((y, rpcSolvent (nR dims) (v_size y) (v_species y) (w (v_monomer y)) 1) :: rs)
      else UB
  end.
(** MixturePrdc.tpp 206-213 *)
Fixpoint addSolvents (l : list (solvent * (species * (nat -> R)))) (acc : fields) : outcome fields :=
  match l with
  | [] => Ok acc
  | (y, (_, c)) :: l' => check (v_monomer y <? nm) ;; addSolvents l' (addTo (v_monomer y) c acc)
  end.

(** MixturePrdc.tpp 151-218: compute; the results are the species and cFields *)
Definition mixtureCompute (mols : list molecule) (solvs : list solvent) (w : fields)
  : outcome (list species * list species * fields) :=
  check (0 <? nR dims) ;;
  check (0 <? nm) ;;
  check (0 <? length mols + length solvs) ;;
  ps <- computePolymers w mols ;;
  acc <- addPolymers ps (fun _ _ => 0) ;;
  vs <- computeSolvents w solvs ;;
  acc <- addSolvents vs acc ;;
  Ok (map (fun r => fst (snd r)) ps, map (fun r => fst (snd r)) vs, acc).
End Mixture.

(** What IntraCorrelation reads of the species *)
Definition chainOf (y : molecule) : chain :=
  Chain (m_graph y) (fun j => pb_length (pblockAt (m_blocks y) j)) (fun j => pb_nBead (pblockAt (m_blocks y) j))
    (fun j => pb_kuhn (pblockAt (m_blocks y) j)) (sp_phi (m_species y)).
Definition smallOf (y : solvent) : small_ := Small (sp_phi (v_species y)) (v_size y).

(** LrCompressor.tpp 209-219: the residual is transformed, multiplied by
    1 / (vMonomer * intraCorrelationK_), and transformed back *)
Definition lrShift (dims : list Z) (vMonomer : R) (corr : nat -> R) (resid : nat -> R) : nat -> R :=
  kOp dims (fun k => 1 / (vMonomer * corr k)) resid.
