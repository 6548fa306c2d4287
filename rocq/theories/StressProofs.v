(** Derivative of the partition function of a polymer of beads in terms of what
    the solver computes. *)
From Coq Require Import Reals ZArith List Bool Arith Lia Lra.
From Coquelicot Require Import Coquelicot.
From Coq Require Import List.
From Verif Require Import Base RSum UnitCellProofs MeshSpec Polymer PolymerSpec PolymerProofs PropsPolymer Solve SolveProofs
  Species Fft FftProofs R1d R1dProofs Rpc RpcProofs PropsRpc Stress TreeDerivative BeadDerivative.
Import ListNotations.
Local Open Scope R_scope.

Lemma stress_swap : forall dims kSq dKSq kuhn nb he te l0 l1 pre, (1 <= nb)%nat ->
  blockStressBead dims kSq dKSq kuhn (nb + 2) te he l1 l0 pre = blockStressBead dims kSq dKSq kuhn (nb + 2) he te l0 l1 pre.
Proof.
  intros dims kSq dKSq kuhn nb he te l0 l1 pre Hnb. unfold blockStressBead.
  replace (nb + 2 - 2)%nat with nb by lia. replace (nb + 2 - 3)%nat with (nb - 1)%nat by lia.
  set (half := fun m => dKSq m * expKsq2 kSq Bead kuhn 1 m). set (full := fun m => dKSq m * expKsq kSq Bead kuhn 1 m).
  assert (S : rsum (nb - 1) (fun k => waveSum dims full (qAt l1 (S k)) (qAt l0 (nb - S k)) * (kuhn * kuhn / 6))
    = rsum (nb - 1) (fun k => waveSum dims full (qAt l0 (S k)) (qAt l1 (nb - S k)) * (kuhn * kuhn / 6))).
  { rewrite rsum_rev. apply rsum_ext. intros k K. rewrite waveSum_comm.
    replace (S (nb - 1 - 1 - k)) with (nb - S k)%nat by lia. replace (nb - (nb - S k))%nat with (S k) by lia. reflexivity. }
  rewrite S, (waveSum_comm dims half (qAt l1 0)), (waveSum_comm dims half (qAt l1 nb)). destruct he, te; ring.
Qed.

Lemma len_pos : forall {A} (l : list A), l <> [] -> (0 < length l)%nat.
Proof. intros A [|a l] H; [congruence|simpl; lia]. Qed.

Section P.
Variables (dims : list Z) (bs : list pblock) (es : list (nat * nat)) (fuel : nat) (p : polymer).
Variables (w : nat -> nat -> R -> R) (dw : nat -> nat -> R) (kSq : nat -> R -> R) (dk : nat -> R) (t0 : R).
Hypothesis HD : positive dims.
Hypothesis HT : tree es.
Hypothesis Hne : es <> [].
Hypothesis HLen : length bs = length es.
Hypothesis HB : Forall (fun b => (1 <= pb_nBead b)%nat) bs.
Hypothesis Hf : (2 * length es <= fuel)%nat.
Hypothesis HG : readGraph fuel es = Ok p.
Hypothesis Hw : forall b i, (b < length es)%nat -> (i < nR dims)%nat ->
  is_derive (w (pb_monomer (pblockAt bs b)) i) t0 (dw (pb_monomer (pblockAt bs b)) i).
Hypothesis Hk : forall k, (k < nK dims)%nat -> is_derive (kSq k) t0 (dk k).
Notation vs := (p_vertices p).
Notation n := (nR dims).
Notation avg := (wavg (nR dims) (fun _ : nat => 1 / INR (nR dims))).
Notation kAt t := (fun k => kSq k t).
Notation wAt t := (fun m i => w m i t).
Notation slicesAt t := (rpcSlices Bead dims (kAt t) 1 bs (wAt t)).

Definition stAt (t : R) : props :=
  match solveAll (slicesAt t) (rpcTailOk Bead) true es vs (p_plan p) with Ok st => st | _ => fun _ => None end.
Definition QAt (t : R) : R :=
  match rpcComputeQ Bead dims 1 bs es vs (stAt t) (O, false) with Ok Q => Q | _ => 0 end.

Lemma at_facts : forall t,
  solveAll (slicesAt t) (rpcTailOk Bead) true es vs (p_plan p) = Ok (stAt t) /\
  rpcComputeQ Bead dims 1 bs es vs (stAt t) (O, false) = Ok (QAt t) /\
  (forall x, is_prop es x -> solved (slicesAt t) es vs (stAt t) x /\ avg (headF (stAt t) x) (tailF (stAt t) (partner x)) = QAt t).
Proof.
  intros t. destruct (solve_facts Bead dims (kAt t) 1 bs (wAt t) es HD HT HLen HB fuel p Hf HG) as [st [Q [E [F [G _]]]]].
  assert (ES : stAt t = st) by (unfold stAt; rewrite E; reflexivity).
  assert (P0 : is_prop es (O, false)) by (exact (len_pos es Hne)).
  assert (EQ : QAt t = Q) by (unfold QAt; rewrite ES, (F _ P0); reflexivity).
  rewrite ES, EQ. auto.
Qed.

Lemma nb_pos : forall b, (b < length es)%nat -> (1 <= pb_nBead (pblockAt bs b))%nat.
Proof. intros b Hb. rewrite Forall_forall in HB. apply HB. eapply block_in; eauto. Qed.

(** A propagator in terms of its head. *)
Lemma slices_of_head : forall t x, is_prop es x ->
  stAt t x = Some (beadSlices dims (kAt t) (pb_nBead (pblockAt bs (fst x))) (pb_kuhn (pblockAt bs (fst x)))
     (fun i => w (pb_monomer (pblockAt bs (fst x))) i t) (isHeadEnd es vs x) (isTailEnd es vs x) (headF (stAt t) x)).
Proof.
  intros t x Px. destruct (at_facts t) as [_ [_ F]]. destruct (F x Px) as [[h [E _]] _].
  unfold rpcSlices in E. unfold headF. rewrite E. rewrite hd_beadSlices. reflexivity.
Qed.

Lemma head_product : forall x t i, is_prop es x ->
  headF (stAt t) x i = lprod (fun y => tailF (stAt t) y i) (sources es vs x).
Proof.
  intros x t i Px. destruct (at_facts t) as [_ [_ F]]. destruct (F x Px) as [[h [E [S L]]] _].
  unfold headF. rewrite E. unfold rpcSlices. rewrite hd_beadSlices, L. apply lprod_ext. intros y Y.
  unfold tailF. destruct (stAt t y); reflexivity.
Qed.

(** The weights that the derivative needs. *)
Definition rightDKSq (m : nat) : R := c2rWeight dims m * dk m.
Definition prop0 (b : nat) : list field := match stAt t0 (b, false) with Some l => l | None => [] end.
Definition prop1 (b : nat) : list field := match stAt t0 (b, true) with Some l => l | None => [] end.
Definition bondPart (b : nat) : R :=
  blockStressBead dims (kAt t0) rightDKSq (pb_kuhn (pblockAt bs b)) (pNs Bead 1 bs b)
    (isHeadEnd es vs (b, false)) (isTailEnd es vs (b, false)) (prop0 b) (prop1 b) 1.
Definition fieldPart (b : nat) : R :=
  gridAvg dims (fun i => concBead Bead 1 bs (wAt t0) b (prop0 b) (prop1 b) 1 i * dw (pb_monomer (pblockAt bs b)) i).

Lemma stress_block : forall kuhn nb wb he te h0 h1, (1 <= nb)%nat ->
  blockStressBead dims (kAt t0) rightDKSq kuhn (nb + 2) he te
    (beadSlices dims (kAt t0) nb kuhn wb he te h0) (beadSlices dims (kAt t0) nb kuhn wb te he h1) 1
  = - (avg (dEnd dims t0 kuhn kSq dk he h0) (qAt (beadSlices dims (kAt t0) nb kuhn wb te he h1) nb)
       + rsum (nb - 1) (fun k => avg (kOp dims (dFull t0 kuhn kSq dk) (qAt (beadSlices dims (kAt t0) nb kuhn wb he te h0) (S k)))
                                     (qAt (beadSlices dims (kAt t0) nb kuhn wb te he h1) (nb - S k)))
       + avg (dEnd dims t0 kuhn kSq dk te (qAt (beadSlices dims (kAt t0) nb kuhn wb he te h0) nb)) h1).
Proof.
  intros kuhn nb wb he te h0 h1 Hnb. unfold blockStressBead.
  replace (nb + 2 - 2)%nat with nb by lia. replace (nb + 2 - 3)%nat with (nb - 1)%nat by lia.
  assert (Q0 : qAt (beadSlices dims (kAt t0) nb kuhn wb he te h0) 0 = h0) by (destruct nb; reflexivity).
  assert (Q1 : qAt (beadSlices dims (kAt t0) nb kuhn wb te he h1) 0 = h1) by (destruct nb; reflexivity).
  rewrite Q0, Q1.
  set (l0 := beadSlices dims (kAt t0) nb kuhn wb he te h0). set (l1 := beadSlices dims (kAt t0) nb kuhn wb te he h1).
  assert (A : forall e f g, avg (dEnd dims t0 kuhn kSq dk e f) g = if e then 0 else
     - (waveSum dims (fun m => rightDKSq m * expKsq2 (kAt t0) Bead kuhn 1 m) f g * (1/2 * (kuhn * kuhn / 6)))).
  { intros [] f g; unfold dEnd.
    - unfold wavg. rewrite (rsum_ext _ _ (fun _ => 0)) by (intros; ring). apply rsum_zero.
    - rewrite kOp_parseval.
      rewrite (waveSum_ext dims _ (fun m => rightDKSq m * expKsq2 (kAt t0) Bead kuhn 1 m * (- (1/2 * (kuhn * kuhn / 6))))).
      + rewrite waveSum_scal. ring.
      + intros m _. unfold rightDKSq, dHalf, bSq6. ring. }
  assert (F : forall k, avg (kOp dims (dFull t0 kuhn kSq dk) (qAt l0 (S k))) (qAt l1 (nb - S k)) =
     - (waveSum dims (fun m => rightDKSq m * expKsq (kAt t0) Bead kuhn 1 m) (qAt l0 (S k)) (qAt l1 (nb - S k)) * (kuhn * kuhn / 6))).
  { intros k. rewrite kOp_parseval.
    rewrite (waveSum_ext dims _ (fun m => rightDKSq m * expKsq (kAt t0) Bead kuhn 1 m * (- (kuhn * kuhn / 6)))).
    - rewrite waveSum_scal. ring.
    - intros m _. unfold rightDKSq, dFull, bSq6. ring. }
  rewrite (rsum_ext (nb - 1) (fun k => avg _ _) _ (fun k _ => F k)), rsum_opp, !A. destruct he, te; ring.
Qed.

Lemma conc_block : forall nb wb dwb l0 l1, 
  gridAvg dims (fun i => rsum nb (fun k => qAt l0 (S k) i * qAt l1 (nb + 1 - S k) i * expWInv wb i) * 1 * dwb i)
  = rsum nb (fun k => avg (fun i => dwb i * qAt l0 (S k) i) (fun i => qAt l1 (nb - k) i * expWInv wb i)).
Proof.
  intros. unfold gridAvg, wavg. rewrite <- rsum_swap. unfold Rdiv. rewrite <- rsum_scal_r. apply rsum_ext. intros i _.
  rewrite Rmult_1_r, <- !rsum_scal_r. apply rsum_ext. intros k _. replace (nb + 1 - S k)%nat with (nb - k)%nat by lia. ring.
Qed.

(** Both directions of a block give the same change. *)
Lemma block_change : forall x dH, is_prop es x ->
  (forall i, (i < n)%nat -> is_derive (fun t => headF (stAt t) x i) t0 (dH i)) ->
  exists dT, (forall i, (i < n)%nat -> is_derive (fun t => tailF (stAt t) x i) t0 (dT i)) /\
    avg dT (headF (stAt t0) (partner x)) = avg dH (tailF (stAt t0) (partner x)) + (- (bondPart (fst x) + fieldPart (fst x))).
Proof.
  intros x dH Px DH. set (b := fst x).
  set (nb := pb_nBead (pblockAt bs b)). set (ku := pb_kuhn (pblockAt bs b)). set (m := pb_monomer (pblockAt bs b)).
  assert (Hnb : (1 <= nb)%nat) by (now apply nb_pos).
  destruct (block_derivative dims t0 ku (w m) (dw m) kSq dk nb Hnb (fun i I => Hw b i Px I) Hk
      (isHeadEnd es vs x) (isTailEnd es vs x) (fun t => headF (stAt t) x) dH (headF (stAt t0) (partner x)) DH) as [dT [D E]].
  exists dT. split.
  { intros i I. eapply is_derive_ext; [|exact (D i I)]. intros t. unfold tailF. rewrite (slices_of_head t x Px). reflexivity. }
  assert (TE : isTailEnd es vs x = isHeadEnd es vs (partner x)) by apply tailEnd_partner.
  assert (TE' : isTailEnd es vs (partner x) = isHeadEnd es vs x) by (rewrite tailEnd_partner, partner_partner; reflexivity).
  set (he := isHeadEnd es vs x) in *. set (te := isTailEnd es vs x) in *.
  set (h0 := headF (stAt t0) x) in *. set (h1 := headF (stAt t0) (partner x)) in *.
  set (l0 := beadSlices dims (kAt t0) nb ku (fun i => w m i t0) he te h0).
  set (l1 := beadSlices dims (kAt t0) nb ku (fun i => w m i t0) te he h1).
  assert (S0 : stAt t0 x = Some l0) by (apply slices_of_head; auto).
  assert (S1 : stAt t0 (partner x) = Some l1).
  { assert (X := slices_of_head t0 (partner x) Px). rewrite TE', <- TE in X. exact X. }
  rewrite E. unfold tailF. rewrite S1. fold l1. f_equal.
  (* identify the terms with slices *)
  assert (N1 : forall k, (k < nb)%nat -> partnerAt dims t0 ku (w m) kSq te h1 k = qAt l1 (S k)).
  { intros k K. unfold qAt, l1. rewrite nth_beadSlices by lia. replace (S k - 1)%nat with k by lia. reflexivity. }
  assert (N0 : forall k, (k < nb)%nat -> beadAt dims ku (w m) kSq he (fun t => headF (stAt t) x) t0 k = qAt l0 (S k)).
  { intros k K. unfold qAt, l0. rewrite nth_beadSlices by lia. replace (S k - 1)%nat with k by lia. reflexivity. }
  assert (BB : bondPart b = blockStressBead dims (kAt t0) rightDKSq ku (nb + 2) he te l0 l1 1).
  { unfold bondPart, prop0, prop1. change (pNs Bead 1 bs b) with (nb + 2)%nat. fold ku.
    assert (EX : x = (b, snd x)) by (unfold b; destruct x; reflexivity).
    destruct (snd x) eqn:SX.
    - assert (PX : partner x = (b, false)) by (rewrite EX; reflexivity).
      rewrite <- PX, <- EX, S0, S1. rewrite TE', <- TE. apply stress_swap. exact Hnb.
    - assert (PX : partner x = (b, true)) by (rewrite EX; reflexivity).
      rewrite <- PX, <- EX, S0, S1. reflexivity. }
  assert (FF : fieldPart b = rsum nb (fun k => avg (fun i => dw m i * qAt l0 (S k) i) (fun i => qAt l1 (nb - k) i * expWInv (fun i => w m i t0) i))).
  { unfold fieldPart, concBead, prop0, prop1. change (pNs Bead 1 bs b) with (nb + 2)%nat.
    replace (nb + 2 - 2)%nat with nb by lia. replace (nb + 2 - 1)%nat with (nb + 1)%nat by lia.
    change (wOf bs (wAt t0) b) with (fun i => w m i t0). fold m.
    assert (EX : x = (b, snd x)) by (unfold b; destruct x; reflexivity).
    destruct (snd x) eqn:SX.
    - assert (PX : partner x = (b, false)) by (rewrite EX; reflexivity).
      rewrite <- PX, <- EX, S0, S1. rewrite conc_block. rewrite rsum_rev. apply rsum_ext. intros k K.
      replace (S (nb - 1 - k)) with (nb - k)%nat by lia. replace (nb - (nb - 1 - k))%nat with (S k) by lia.
      apply wavg_ext. intros i. ring.
    - assert (PX : partner x = (b, true)) by (rewrite EX; reflexivity).
      rewrite <- PX, <- EX, S0, S1. apply conc_block. }
  rewrite BB, FF. unfold l0 at 1, l1 at 1. rewrite stress_block by exact Hnb. fold l0 l1.
  rewrite (N1 (nb - 1)%nat), (N0 (nb - 1)%nat) by lia. replace (S (nb - 1)) with nb by lia.
  fold h0.
  rewrite (rsum_ext (nb - 1) (bondTerm _ _ _ _ _ _ _ _ _ _ _) (fun k => avg (kOp dims (dFull t0 ku kSq dk) (qAt l0 (S k))) (qAt l1 (nb - S k)))).
  2:{ intros k K. unfold bondTerm. rewrite N0, N1 by lia. replace (S (nb - 2 - k)) with (nb - S k)%nat by lia. reflexivity. }
  rewrite (rsum_ext nb (fieldTerm _ _ _ _ _ _ _ _ _ _ _) (fun k => avg (fun i => dw m i * qAt l0 (S k) i) (fun i => qAt l1 (nb - k) i * expWInv (fun i => w m i t0) i))).
  2:{ intros k K. unfold fieldTerm. rewrite N0, N1 by lia. replace (S (nb - 1 - k)) with (nb - k)%nat by lia. reflexivity. }
  ring.
Qed.

Lemma Q_derivative : is_derive QAt t0 (- rsum (length es) (fun b => bondPart b + fieldPart b)).
Proof.
  rewrite <- rsum_opp.
  assert (HV : graphVertices es vs).
  { apply (solveAll_ok (slicesAt t0) (rpcTailOk Bead) true es fuel p HT eq_refl Hf HG). }
  apply (tree_derivative es vs HT HV Hne n (fun _ => 1 / INR n) t0
    (fun x t => headF (stAt t) x) (fun x t => tailF (stAt t) x)
    (fun x t i Px _ => head_product x t i Px) (fun b => - (bondPart b + fieldPart b)) block_change QAt
    (fun x t Px => proj2 (proj2 (proj2 (at_facts t)) x Px)) fuel p Hf HG).
Qed.
End P.
