(** C09, C10, C11, C14 for the periodic solver, and facts about the transforms
    it uses. *)
From Coq Require Import Reals ZArith List Bool Arith Lia Lra.
From Verif Require Import Base RSum MeshSpec Polymer PolymerSpec PolymerProofs PropsPolymer Solve SolveProofs
  Species Fft FftProofs R1d R1dProofs PropsR1d Rpc RpcProofs.
Import ListNotations.
Local Open Scope R_scope.

(** C14, periodic solver: for every positive length and target step. *)
Theorem rpc_discretization : forall len ds, 0 < len -> 0 < ds ->
  exists m, (1 <= m)%Z /\ rpcNs len ds = (2 * m + 1)%Z /\
    IZR (rpcNs len ds - 1) * rpcDs len ds = len /\ 0 < rpcDs len ds.
Proof.
  intros len ds H1 H2. destruct (rpcNs_cases len ds H1 H2) as [m [A [B [C D]]]].
  exists m. rewrite B. replace (2 * m + 1 - 1)%Z with (2 * m)%Z by lia. auto.
Qed.

Definition blocks_ok (model : polyModel) (dsT : R) (bs : list pblock) : Prop :=
  match model with
  | Thread => 0 < dsT /\ Forall (fun b => 0 < pb_length b) bs
  | Bead => Forall (fun b => (1 <= pb_nBead b)%nat) bs
  end.
(** The size of a block in the units of the model, and of the polymer. *)
Definition blockSize (model : polyModel) (b : pblock) : R :=
  match model with Thread => pb_length b | Bead => INR (pb_nBead b) end.
Definition polymerSize (model : polyModel) (bs : list pblock) : R := lsum (blockSize model) bs.

Section M.
Variables (model : polyModel) (dims : list Z) (kSq : nat -> R) (dsT : R) (bs : list pblock)
          (w : nat -> field) (es : list (nat * nat)).
Hypothesis HD : positive dims.
Hypothesis HT : tree es.
Hypothesis HLen : length bs = length es.
Hypothesis HB : blocks_ok model dsT bs.
Notation n := (nR dims).
Notation wt := (fun _ : nat => 1 / INR (nR dims)).
Notation slices := (rpcSlices model dims kSq dsT bs w).

Lemma n_pos : 0 < INR n.
Proof. apply INR_nR; auto. Qed.
Lemma gridAvg_wavg : forall f g, gridAvg dims (fun i => f i * g i) = wavg n wt f g.
Proof. intros. unfold gridAvg, wavg. rewrite rsum_scal. assert (P := n_pos). field. lra. Qed.
Lemma gridAvg_scal : forall c f, gridAvg dims (fun i => f i * c) = gridAvg dims f * c.
Proof. intros. unfold gridAvg. rewrite rsum_scal_r. assert (P := n_pos). unfold Rdiv. lra. Qed.
Lemma gridAvg_plus : forall f g, gridAvg dims (fun i => f i + g i) = gridAvg dims f + gridAvg dims g.
Proof. intros. unfold gridAvg. rewrite rsum_plus. unfold Rdiv. lra. Qed.
Lemma gridAvg_rsum : forall k (f : nat -> field),
  gridAvg dims (fun i => rsum k (fun j => f j i)) = rsum k (fun j => gridAvg dims (f j)).
Proof.
  intros. unfold gridAvg. rewrite rsum_swap. unfold Rdiv. rewrite <- rsum_scal_r. reflexivity.
Qed.
Lemma gridAvg_ext : forall f g, (forall i, f i = g i) -> gridAvg dims f = gridAvg dims g.
Proof. intros. unfold gridAvg. f_equal. apply rsum_ext. auto. Qed.

Lemma block_in : forall b, (b < length es)%nat -> In (pblockAt bs b) bs.
Proof. intros. unfold pblockAt. apply nth_In. lia. Qed.

Lemma recip : reciprocal slices es n wt.
Proof.
  intros b Hb he te h h'. assert (I := block_in b Hb). unfold rpcSlices, blocks_ok in *. destruct model.
  - destruct HB as [Hd HB']. rewrite Forall_forall in HB'.
    destruct (rpcNs_cases _ dsT (HB' _ I) Hd) as [m [A [B _]]].
    assert (N : (3 <= pNs Thread dsT bs b)%nat) by (unfold pNs; rewrite B; lia).
    unfold threadSlices. rewrite !hd_nth0, !last_nth, !iterSlices_length, !nth_iterSlices by lia.
    split; [|reflexivity].
    assert (SA := stepThread_selfadj dims kSq (pb_kuhn (pblockAt bs b)) (pDs Thread dsT bs b) (wOf bs w b)).
    rewrite (iter_selfadj _ _ _ SA _ O h h'). rewrite Nat.add_0_r. reflexivity.
  - rewrite Forall_forall in HB. specialize (HB _ I).
    rewrite !hd_beadSlices, !last_beadSlices by auto. split; [|reflexivity].
    set (T := fun f => Nat.iter (pb_nBead (pblockAt bs b) - 1)
        (stepBead dims kSq (pb_kuhn (pblockAt bs b)) (wOf bs w b)) (stepFieldB (wOf bs w b) f)).
    set (E := endOp dims kSq (pb_kuhn (pblockAt bs b))).
    assert (A := Adj_comp n wt _ _ _ _ (endOp_adj dims kSq (pb_kuhn (pblockAt bs b)) te)
       (Adj_comp n wt T T _ _ (WBW_adj dims kSq _ _ _) (endOp_adj dims kSq (pb_kuhn (pblockAt bs b)) he)) h h').
    symmetry. exact A.
Qed.

Variables (fuel : nat) (p : polymer).
Hypothesis Hf : (2 * length es <= fuel)%nat.
Hypothesis HG : readGraph fuel es = Ok p.
Notation vs := (p_vertices p).

Lemma solve_facts : exists st Q,
  solveAll slices (rpcTailOk model) true es vs (p_plan p) = Ok st /\
  (forall x, is_prop es x -> rpcComputeQ model dims dsT bs es vs st x = Ok Q) /\
  (forall x, is_prop es x -> solved slices es vs st x /\ wavg n wt (headF st x) (tailF st (partner x)) = Q) /\
  (forall b, (b < length es)%nat -> exists l0 l1,
     st (b, false) = Some l0 /\ st (b, true) = Some l1 /\
     match model with
     | Thread => forall j, (j < pNs Thread dsT bs b)%nat ->
         gridAvg dims (fun i => qAt l0 j i * qAt l1 (pNs Thread dsT bs b - 1 - j) i) = Q
     | Bead => forall j, (1 <= j <= pb_nBead (pblockAt bs b))%nat ->
         gridAvg dims (fun i => qAt l0 j i * qAt l1 (pNs Bead dsT bs b - 1 - j) i * expWInv (wOf bs w b) i) = Q
     end).
Proof.
  assert (TO : rpcTailOk model false = true) by (unfold rpcTailOk; destruct model; auto).
  destruct (solveAll_ok slices (rpcTailOk model) true es fuel p HT TO Hf HG) as [HV [_ [st [E S]]]].
  assert (HT' := HT). destruct HT' as [HW HC].
  set (Qx := fun x => wavg n wt (headF st x) (tailF st (partner x))).
  exists st, (Qx (O, false)). split; auto.
  assert (QS : forall x, is_prop es x -> Qx x = Qx (O, false)).
  { intros x Hx. unfold Qx. assert (H0 : is_prop es (O, false)) by (unfold is_prop in *; cbn [fst]; lia).
    eapply Q_same; eauto using recip. exact true. }
  split.
  - intros x Hx. unfold rpcComputeQ. destruct (S x Hx) as [h [E1 [_ G1]]].
    destruct (S (partner x) Hx) as [h' [E2 _]]. rewrite <- (QS x Hx). unfold Qx, headF, tailF. rewrite E1, E2.
    rewrite (tailEnd_partner es vs (partner x)), partner_partner, eqb_reflx. cbn [check bind].
    assert (HD1 : forall i, hd zero_field (slices (fst x) (isHeadEnd es vs x) (isTailEnd es vs x) h) i = h i)
      by (apply (recip (fst x) Hx _ _ h h)).
    assert (C : gridAvg dims (fun i => hd zero_field (slices (fst x) (isHeadEnd es vs x) (isTailEnd es vs x) h) i *
       last (slices (fst (partner x)) (isHeadEnd es vs (partner x)) (isHeadEnd es vs x) h') zero_field i) =
       wavg n wt (hd zero_field (slices (fst x) (isHeadEnd es vs x) (isTailEnd es vs x) h))
         (last (slices (fst (partner x)) (isHeadEnd es vs (partner x)) (isHeadEnd es vs x) h') zero_field))
      by (apply gridAvg_wavg).
    unfold rpcTailOk, rpcSlices in *. destruct model.
    + cbn [check bind]. f_equal. exact C.
    + destruct (isHeadEnd es vs x) eqn:HE.
      2:{ cbn [negb check bind]. f_equal. exact C. }
      f_equal. rewrite <- C. apply gridAvg_ext. intros i. rewrite HD1, G1.
      rewrite (headEnd_no_sources (fun _ _ _ _ => []) true es vs HW HV x Hx HE). cbn [lprod].
      change (fst (partner x)) with (fst x).
      assert (I := block_in (fst x) Hx). unfold blocks_ok in HB. rewrite Forall_forall in HB. specialize (HB _ I).
      unfold qAt, pNs. rewrite last_beadSlices by auto.
      replace (pb_nBead (pblockAt bs (fst x)) + 2 - 2)%nat with (pb_nBead (pblockAt bs (fst x))) by lia.
      rewrite nth_beadSlices by lia. unfold endOp at 2. lra.
  - split; [intros x Hx; split; [apply S; auto|apply QS; auto]|].
    intros b Hb. assert (I := block_in b Hb).
    destruct (S (b, false) Hb) as [h0 [E0 _]]. destruct (S (b, true) Hb) as [h1 [E1 _]].
    do 2 eexists. split; [exact E0|]. split; [exact E1|].
    assert (QB := QS (b, false) Hb). unfold Qx, headF, tailF, partner in QB; cbn [fst snd negb] in QB.
    rewrite E0, E1 in QB. cbn [fst] in QB |- *.
    assert (TE : isTailEnd es vs (b, true) = isHeadEnd es vs (b, false)) by reflexivity.
    unfold rpcSlices, blocks_ok in *. destruct model.
    + intros j Hj. rewrite gridAvg_wavg. etransitivity; [|exact QB].
      unfold qAt, threadSlices.
      assert (SA := stepThread_selfadj dims kSq (pb_kuhn (pblockAt bs b)) (pDs Thread dsT bs b) (wOf bs w b)).
      rewrite !hd_nth0, !last_nth, !iterSlices_length, !nth_iterSlices by lia.
      rewrite (iter_selfadj _ _ _ SA). replace (j + (pNs Thread dsT bs b - 1 - j))%nat with (pNs Thread dsT bs b - 1)%nat by lia.
      reflexivity.
    + rewrite Forall_forall in HB. specialize (HB _ I).
      intros j Hj. etransitivity; [|exact QB]. unfold qAt, pNs.
      rewrite hd_beadSlices, last_beadSlices by auto.
      rewrite !nth_beadSlices by lia.
      set (nb := pb_nBead (pblockAt bs b)) in *.
      assert (BP := bead_product dims kSq (pb_kuhn (pblockAt bs b)) (wOf bs w b) (j - 1) (nb + 2 - 1 - j - 1)
         (endOp dims kSq (pb_kuhn (pblockAt bs b)) (isHeadEnd es vs (b, false)) h0)
         (endOp dims kSq (pb_kuhn (pblockAt bs b)) (isHeadEnd es vs (b, true)) h1)).
      rewrite <- gridAvg_wavg in BP. etransitivity; [|etransitivity; [exact BP|]].
      * apply gridAvg_ext. intros i. lra.
      * replace (j - 1 + (nb + 2 - 1 - j - 1))%nat with (nb - 1)%nat by lia.
        rewrite TE. assert (EA := endOp_adj dims kSq (pb_kuhn (pblockAt bs b)) (isHeadEnd es vs (b, false)) h0
          (Nat.iter (nb - 1) (stepBead dims kSq (pb_kuhn (pblockAt bs b)) (wOf bs w b))
             (stepFieldB (wOf bs w b) (endOp dims kSq (pb_kuhn (pblockAt bs b)) (isHeadEnd es vs (b, true)) h1)))).
        exact EA.
Qed.
End M.

Lemma concThread_avg : forall dims dsT bs b l0 l1 Q pref, positive dims -> 0 < dsT ->
  0 < pb_length (pblockAt bs b) ->
  (forall j, (j < pNs Thread dsT bs b)%nat ->
     gridAvg dims (fun i => qAt l0 j i * qAt l1 (pNs Thread dsT bs b - 1 - j) i) = Q) ->
  gridAvg dims (concThread Thread dsT bs b l0 l1 pref) = pref * pb_length (pblockAt bs b) * Q.
Proof.
  intros dims dsT bs b l0 l1 Q pref HD Hd HL HQ. unfold concThread.
  destruct (rpcNs_cases _ dsT HL Hd) as [m [A [B [C _]]]].
  set (ns := pNs Thread dsT bs b) in *.
  assert (EN : ns = (2 * Z.to_nat m + 1)%nat) by (unfold ns, pNs; rewrite B; lia).
  destruct (Z.to_nat m) as [|k] eqn:Em; [lia|].
  rewrite gridAvg_scal by auto. rewrite !gridAvg_plus, !gridAvg_rsum.
  rewrite (rsum_ext (ns - 1) _ (fun j => (if Nat.odd j then 4 else 0) * Q)).
  2:{ intros j Hj. rewrite <- (HQ j) by lia. destruct (Nat.odd j).
      - rewrite gridAvg_scal by auto. lra.
      - unfold gridAvg. rewrite rsum_zero. unfold Rdiv. lra. }
  rewrite (rsum_ext (ns - 2) _ (fun j => (if Nat.even j && (2 <=? j)%nat then 2 else 0) * Q)).
  2:{ intros j Hj. rewrite <- (HQ j) by lia. destruct (Nat.even j && (2 <=? j)%nat).
      - rewrite gridAvg_scal by auto. lra.
      - unfold gridAvg. rewrite rsum_zero. unfold Rdiv. lra. }
  rewrite !rsum_scal_r.
  assert (Q0 := HQ O ltac:(lia)). rewrite Nat.sub_0_r in Q0. rewrite Q0.
  assert (Q1 := HQ (ns - 1)%nat ltac:(lia)). rewrite Nat.sub_diag in Q1. rewrite Q1.
  replace (ns - 1)%nat with (2 * S k)%nat by lia. replace (ns - 2)%nat with (2 * k + 1)%nat by lia.
  rewrite (proj1 (simpson_weights (S k))), (proj2 (simpson_weights k)).
  unfold pDs. rewrite <- C at 2.
  assert (IM : IZR (2 * m) = 2 * INR (S k)).
  { rewrite INR_IZR_INZ. rewrite <- mult_IZR. f_equal. lia. }
  rewrite IM. rewrite !mult_INR, (S_INR k). replace (INR 4) with 4 by (simpl; lra). replace (INR 2) with 2 by (simpl; lra). field.
Qed.

Lemma concBead_avg : forall dims dsT bs w b l0 l1 Q pref, positive dims ->
  (forall j, (1 <= j <= pb_nBead (pblockAt bs b))%nat ->
     gridAvg dims (fun i => qAt l0 j i * qAt l1 (pNs Bead dsT bs b - 1 - j) i * expWInv (wOf bs w b) i) = Q) ->
  gridAvg dims (concBead Bead dsT bs w b l0 l1 pref) = pref * INR (pb_nBead (pblockAt bs b)) * Q.
Proof.
  intros dims dsT bs w b l0 l1 Q pref HD HQ. unfold concBead.
  rewrite gridAvg_scal by auto. rewrite gridAvg_rsum.
  assert (EN : (pNs Bead dsT bs b - 2 = pb_nBead (pblockAt bs b))%nat) by (unfold pNs; lia).
  rewrite (rsum_ext _ _ (fun _ => Q)).
  - rewrite rsum_const, EN. lra.
  - intros k Hk. apply HQ. lia.
Qed.

Lemma polymerSize_pos : forall model dsT bs, blocks_ok model dsT bs -> bs <> [] -> 0 < polymerSize model bs.
Proof.
  intros model dsT bs HB Hne.
  assert (P : Forall (fun b => 0 < blockSize model b) bs).
  { unfold blocks_ok, blockSize in *. destruct model; [tauto|].
    rewrite Forall_forall in *. intros b Hb. apply lt_0_INR. specialize (HB b Hb). lia. }
  unfold polymerSize. clear HB. induction bs as [|b bs IH]; [congruence|]. inversion P; subst. simpl.
  destruct bs; [simpl; lra|]. assert (0 < lsum (blockSize model) (p :: bs)) by (apply IH; auto; discriminate). lra.
Qed.

Lemma sum_blockSize : forall model bs,
  rsum (length bs) (fun b => blockSize model (pblockAt bs b)) = polymerSize model bs.
Proof.
  intros. unfold pblockAt, polymerSize. induction bs as [|a bs IH]; [reflexivity|].
  cbn [length]. rewrite rsum_S_first. simpl. rewrite <- IH. auto.
Qed.

(** C10: computeQ gives the same value for every propagator, and so does the
    product of the two propagators of any block at any contour point (thread
    model) or any bead (bead model). *)
Theorem rpc_Q_independent_of_propagator : forall model dims kSq dsT bs w es fuel p,
  positive dims -> tree es -> length bs = length es -> blocks_ok model dsT bs ->
  (2 * length es <= fuel)%nat -> readGraph fuel es = Ok p ->
  exists st Q,
    solveAll (rpcSlices model dims kSq dsT bs w) (rpcTailOk model) true es (p_vertices p) (p_plan p) = Ok st /\
    (forall b dir, (b < length es)%nat ->
       rpcComputeQ model dims dsT bs es (p_vertices p) st (b, dir) = Ok Q) /\
    (forall b, (b < length es)%nat -> exists l0 l1,
       st (b, false) = Some l0 /\ st (b, true) = Some l1 /\
       match model with
       | Thread => forall j, (j < pNs Thread dsT bs b)%nat ->
           gridAvg dims (fun i => qAt l0 j i * qAt l1 (pNs Thread dsT bs b - 1 - j) i) = Q
       | Bead => forall j, (1 <= j <= pb_nBead (pblockAt bs b))%nat ->
           gridAvg dims (fun i => qAt l0 j i * qAt l1 (pNs Bead dsT bs b - 1 - j) i
                                  * exp (w (pb_monomer (pblockAt bs b)) i)) = Q
       end).
Proof.
  intros model dims kSq dsT bs w es fuel p HD HT HLen HB Hf HG.
  destruct (solve_facts model dims kSq dsT bs w es HD HT HLen HB fuel p Hf HG) as [st [Q [E [F [_ G]]]]].
  exists st, Q. split; auto. split; [intros; apply F; auto|].
  intros b Hb. destruct (G b Hb) as [l0 [l1 [A [B C]]]]. exists l0, l1. split; auto. split; auto.
  destruct model; auto. intros j Hj. rewrite <- (C j Hj). apply gridAvg_ext. intros i. f_equal.
  unfold expWInv, wOf. rewrite exp_Ropp. field. assert (P := exp_pos (w (pb_monomer (pblockAt bs b)) i)). lra.
Qed.

(** C09 and C11: the average of every block concentration is its share of phi
    (times the occupied fraction phiTot of the unit cell, 1 without a mask). *)
Theorem rpc_block_mass_conserved : forall model dims kSq dsT bs w es fuel p s phiTot,
  positive dims -> tree es -> es <> [] -> length bs = length es -> blocks_ok model dsT bs ->
  (2 * length es <= fuel)%nat -> readGraph fuel es = Ok p -> phiTot <> 0 ->
  exists s' c, rpcCompute model dims kSq dsT bs w es p s phiTot = Ok (s', c) /\
    (sp_ens s = Closed -> sp_phi s' = sp_phi s) /\
    (sp_q s' <> 0 ->
      (forall b, (b < length es)%nat ->
         gridAvg dims (c b) = sp_phi s' * phiTot * blockSize model (pblockAt bs b) / polymerSize model bs) /\
      rsum (length es) (fun b => gridAvg dims (c b)) = sp_phi s' * phiTot).
Proof.
  intros model dims kSq dsT bs w es fuel p s phiTot HD HT Hne HLen HB Hf HG HphiT.
  destruct (solve_facts model dims kSq dsT bs w es HD HT HLen HB fuel p Hf HG) as [st [Q [E [F [_ G]]]]].
  assert (L0 : (0 < length es)%nat) by (destruct es; simpl; [congruence|lia]).
  assert (PS : 0 < polymerSize model bs).
  { eapply polymerSize_pos; eauto. destruct bs; simpl in HLen; [lia|discriminate]. }
  unfold rpcCompute. rewrite E. cbn [bind]. rewrite (F (O, false) L0). cbn [bind].
  do 2 eexists. split; [reflexivity|]. split.
  { unfold setQ. intros ->. reflexivity. }
  intros Hq.
  assert (EQ : sp_q (setQ s (Q / phiTot)) = Q / phiTot) by (unfold setQ; destruct (sp_ens s); reflexivity).
  rewrite EQ in *.
  assert (Q0 : Q <> 0) by (intros ->; apply Hq; unfold Rdiv; lra).
  assert (A : forall b, (b < length es)%nat ->
     gridAvg dims match st (b, false) with
       | Some l0 => match st (b, true) with
           | Some l1 => match model with
               | Thread => concThread model dsT bs b l0 l1
                   match model with Thread => sp_phi (setQ s (Q / phiTot)) / (Q / phiTot * pLength bs)
                                  | Bead => sp_phi (setQ s (Q / phiTot)) / (Q / phiTot * pBeads bs) end
               | Bead => concBead model dsT bs w b l0 l1
                   match model with Thread => sp_phi (setQ s (Q / phiTot)) / (Q / phiTot * pLength bs)
                                  | Bead => sp_phi (setQ s (Q / phiTot)) / (Q / phiTot * pBeads bs) end
               end
           | None => zero_field end
       | None => zero_field end
     = sp_phi (setQ s (Q / phiTot)) * phiTot * blockSize model (pblockAt bs b) / polymerSize model bs).
  { intros b Hb. destruct (G b Hb) as [l0 [l1 [E0 [E1 H]]]]. rewrite E0, E1.
    assert (I := block_in bs es HLen b Hb). destruct model.
    - destruct HB as [Hd HB]. rewrite Forall_forall in HB.
      rewrite (concThread_avg _ _ _ _ _ _ Q) by auto.
      unfold polymerSize, blockSize in *. unfold pLength.
      generalize (sp_phi (setQ s (Q / phiTot))). intros ph.
      change (lsum (fun b0 => pb_length b0) bs) with (lsum pb_length bs) in *.
      field. repeat split; auto; lra.
    - rewrite (concBead_avg _ _ _ _ _ _ _ Q) by auto.
      unfold polymerSize, blockSize in *. unfold pBeads.
      generalize (sp_phi (setQ s (Q / phiTot))). intros ph.
      field. repeat split; auto; lra. }
  split; [exact A|].
  rewrite (rsum_ext _ _ (fun b => sp_phi (setQ s (Q / phiTot)) * phiTot / polymerSize model bs * blockSize model (pblockAt bs b))).
  2:{ intros b Hb. rewrite A by auto. field. lra. }
  rewrite rsum_scal, <- HLen, sum_blockSize. field. lra.
Qed.

(** The named special cases of the property list: no mask. *)
Theorem rpc_thread_block_mass : forall dims kSq dsT bs w es fuel p s,
  positive dims -> tree es -> es <> [] -> length bs = length es ->
  0 < dsT -> Forall (fun b => 0 < pb_length b) bs ->
  (2 * length es <= fuel)%nat -> readGraph fuel es = Ok p ->
  exists s' c, rpcCompute Thread dims kSq dsT bs w es p s 1 = Ok (s', c) /\
    (sp_q s' <> 0 ->
      (forall b, (b < length es)%nat ->
         gridAvg dims (c b) = sp_phi s' * pb_length (pblockAt bs b) / lsum pb_length bs) /\
      rsum (length es) (fun b => gridAvg dims (c b)) = sp_phi s').
Proof.
  intros dims kSq dsT bs w es fuel p s HD HT Hne HLen Hd HB Hf HG.
  destruct (rpc_block_mass_conserved Thread dims kSq dsT bs w es fuel p s 1) as [s' [c [E [_ M]]]]; auto.
  { split; auto. }
  exists s', c. split; auto. intros Hq. destruct (M Hq) as [M1 M2]. split.
  - intros b Hb. rewrite M1 by auto. rewrite Rmult_1_r. reflexivity.
  - rewrite M2. lra.
Qed.
Theorem rpc_bead_block_mass : forall dims kSq bs w es fuel p s,
  positive dims -> tree es -> es <> [] -> length bs = length es ->
  Forall (fun b => (1 <= pb_nBead b)%nat) bs ->
  (2 * length es <= fuel)%nat -> readGraph fuel es = Ok p ->
  exists s' c, rpcCompute Bead dims kSq 1 bs w es p s 1 = Ok (s', c) /\
    (sp_q s' <> 0 ->
      (forall b, (b < length es)%nat ->
         gridAvg dims (c b) = sp_phi s' * INR (pb_nBead (pblockAt bs b)) / lsum (fun b => INR (pb_nBead b)) bs) /\
      rsum (length es) (fun b => gridAvg dims (c b)) = sp_phi s').
Proof.
  intros dims kSq bs w es fuel p s HD HT Hne HLen HB Hf HG.
  destruct (rpc_block_mass_conserved Bead dims kSq 1 bs w es fuel p s 1) as [s' [c [E [_ M]]]]; auto.
  exists s', c. split; auto. intros Hq. destruct (M Hq) as [M1 M2]. split.
  - intros b Hb. rewrite M1 by auto. rewrite Rmult_1_r. reflexivity.
  - rewrite M2. lra.
Qed.

(** Sanity of the transform model: inverse after forward is the identity. *)
Theorem fft_roundtrip : forall dims f r, dims <> [] -> positive dims -> (r < nR dims)%nat ->
  fftInverse dims (fftForward dims f) r = f r.
Proof. apply fft_inverse_forward. Qed.

(** Hypotheses are met by a three-arm star on a 4x3 mesh, in both models. *)
Example rpc_example : exists p, readGraph 6 exStar = Ok p /\ tree exStar /\ positive [4;3]%Z /\
  blocks_ok Thread (1/10) [mkPBlock 1 3 1 0; mkPBlock (1/100) 1 2 1; mkPBlock 2 5 1 0] /\
  blocks_ok Bead (1/10) [mkPBlock 1 3 1 0; mkPBlock (1/100) 1 2 1; mkPBlock 2 5 1 0].
Proof.
  eexists. split; [vm_compute; reflexivity|]. split; [apply exStar_tree|].
  repeat split; repeat constructor; simpl; try lra; lia.
Qed.

Print Assumptions rpc_discretization.
Print Assumptions rpc_Q_independent_of_propagator.
Print Assumptions rpc_block_mass_conserved.
Print Assumptions rpc_thread_block_mass.
Print Assumptions rpc_bead_block_mass.
Print Assumptions fft_roundtrip.
