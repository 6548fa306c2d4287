(** C57: with spatially uniform fields the periodic solver reproduces the exact
    partition function of the chain, and uniform concentrations. *)
From Coq Require Import Reals ZArith List Bool Arith Lia Lra Permutation Relations.
From Verif Require Import Base RSum MeshSpec Mesh MeshProofs Polymer PolymerSpec PolymerProofs PolymerTree PropsPolymer
  Solve SolveProofs Species Fft FftProofs R1d R1dProofs PropsR1d Rpc RpcProofs PropsRpc.
Import ListNotations.
Local Open Scope R_scope.

(* ---------- transforms of a constant ---------- *)
Lemma phase_comm : forall dims k r, phase dims k r = phase dims r k.
Proof.
  induction dims as [|d ds IH]; intros [|a k] [|b r]; simpl; auto. rewrite IH, Z.mul_comm. reflexivity.
Qed.
Definition zeros (p : list Z) : Prop := Forall (fun a => a = 0%Z) p.
Lemma phase_zeros : forall dims k r, zeros k -> phase dims k r = 0.
Proof.
  induction dims as [|d ds IH]; intros [|a k] [|b r] H; simpl; auto. inversion H; subst.
  rewrite (IH k r) by auto. simpl. unfold Rdiv. lra.
Qed.
Lemma kbox_zero_mod : forall dims k, dims <> [] -> positive dims -> in_box (computeKMesh dims) k ->
  zero_mod dims k = true -> zeros k.
Proof.
  intros dims k Hne HP HK HZ. revert k HK HZ.
  assert (G : forall ds n k, positive (ds ++ [n]) -> in_box (ds ++ [(Z.quot n 2 + 1)%Z]) k ->
     zero_mod (ds ++ [n]) k = true -> zeros k).
  { induction ds as [|d ds IH]; intros n k HP0 HK HZ; simpl in *.
    - inversion HK; subst. inversion H3; subst. inversion HP0; subst. rewrite Z.quot_div_nonneg in H1 by lia.
      apply andb_true_iff in HZ. destruct HZ as [HZ _]. apply Z.eqb_eq in HZ.
      constructor; [|constructor]. rewrite Z.mod_small in HZ; auto.
      Z.div_mod_to_equations; lia.
    - inversion HK; subst. inversion HP0; subst. apply andb_true_iff in HZ. destruct HZ as [H1' HZ].
      apply Z.eqb_eq in H1'. rewrite Z.mod_small in H1' by auto. constructor; auto. eapply IH; eauto. }
  destruct (snoc_cases dims Hne) as [ds [n ->]]. intros k HK HZ. rewrite computeKMesh_snoc in HK. eauto.
Qed.

Lemma gridPos_0 : forall dims, positive dims -> zeros (gridPos dims 0).
Proof.
  intros dims HP. rewrite gridPos_ps by auto. unfold zeros. induction HP; simpl; constructor; auto.
Qed.
Lemma zeros_gridPos : forall dims k, positive dims -> (k < nR dims)%nat -> zeros (gridPos dims k) -> k = O.
Proof.
  intros dims k HP Hk HZ. apply (gridPos_inj dims); auto.
  - assert (P := INR_nR dims HP). destruct (nR dims); simpl in *; [lra|lia].
  - assert (Z0 := gridPos_0 dims HP).
    assert (L1 := in_box_length _ _ (gridPos_in_box dims k HP Hk)).
    assert (L2 := in_box_length _ _ (gridPos_in_box dims 0 HP ltac:(lia))).
    revert HZ Z0 L1 L2. generalize (gridPos dims k), (gridPos dims 0), (length dims). clear.
    induction l; intros [|b l'] n Z1 Z2 L1 L2; simpl in *; auto; try lia. inversion Z1; inversion Z2; subst.
    f_equal. eapply (IHl l' (pred (S (length l)))); auto; simpl; lia.
Qed.

Lemma fft_const : forall dims c k, dims <> [] -> positive dims -> (k < nK dims)%nat ->
  fftForward dims (fun _ => c) k = if (k =? 0)%nat then (c, 0) else (0, 0).
Proof.
  intros dims c k Hne HP Hk. destruct (INR_nR dims HP) as [EN PN].
  assert (KP := kmesh_positive dims HP).
  assert (BK : in_box (computeKMesh dims) (gridPos (computeKMesh dims) k)) by (apply gridPos_in_box; auto).
  assert (LK : length (gridPos (computeKMesh dims) k) = length dims).
  { rewrite (in_box_length _ _ BK). destruct (snoc_cases dims Hne) as [ds [n ->]].
    rewrite computeKMesh_snoc, !app_length. reflexivity. }
  set (K := gridPos (computeKMesh dims) k) in *.
  assert (S : forall phi, rsum (nR dims) (fun r => cos (theta dims k r + phi)) =
     if (k =? 0)%nat then INR (nR dims) * cos phi else 0).
  { intros phi. unfold theta. fold K.
    rewrite (nR_msum dims (fun p => cos (phase dims K p + phi))) by auto.
    rewrite (msum_ext dims _ (fun p => cos (phase dims p K + phi))) by (intros; rewrite phase_comm; auto).
    rewrite cos_sum by auto. rewrite EN. destruct (zero_mod dims K) eqn:Z.
    - apply kbox_zero_mod in Z; auto. apply zeros_gridPos in Z; auto. subst k. reflexivity.
    - destruct (Nat.eqb_spec k 0); auto. subst k. exfalso.
      assert (ZK := gridPos_0 _ KP). fold K in ZK. clear -Z ZK LK HP. revert Z ZK LK. generalize K.
      induction HP; intros [|a K'] Z ZK LK; simpl in *; try discriminate. inversion ZK; subst.
      rewrite Z.mod_0_l in Z by lia. simpl in Z. eapply IHHP; eauto. }
  unfold fftForward. rewrite !rsum_scal.
  assert (C := S 0). rewrite (rsum_ext _ _ (fun r => cos (theta dims k r))) in C by (intros; rewrite Rplus_0_r; auto).
  assert (D := S (- (PI / 2))).
  rewrite (rsum_ext _ _ (fun r => sin (theta dims k r))) in D.
  2:{ intros. rewrite cos_plus. rewrite cos_neg, sin_neg, cos_PI2, sin_PI2. lra. }
  rewrite C, D, cos_0, cos_neg, cos_PI2. destruct (k =? 0)%nat; f_equal; field; lra.
Qed.

Lemma kOp_const : forall dims e c f, dims <> [] -> positive dims -> (forall i, f i = c) ->
  forall i, kOp dims e f i = e O * c.
Proof.
  intros dims e c f Hne HP Hf i. unfold kOp, fftInverse.
  assert (NK : (0 < nK dims)%nat).
  { assert (KP := kmesh_positive dims HP). assert (P := INR_nR _ KP). unfold nK. unfold nR in P.
    destruct (Z.to_nat _); simpl in *; [lra|lia]. }
  assert (FE : forall k, fftForward dims f k = fftForward dims (fun _ => c) k).
  { intros. unfold fftForward.
    rewrite (rsum_ext _ (fun r => f r * cos (theta dims k r)) (fun r => c * cos (theta dims k r))) by (intros; rewrite Hf; auto).
    rewrite (rsum_ext _ (fun r => f r * sin (theta dims k r)) (fun r => c * sin (theta dims k r))) by (intros; rewrite Hf; auto).
    reflexivity. }
  assert (KP := kmesh_positive dims HP). assert (Z0 := gridPos_0 _ KP).
  rewrite (rsum_single _ O).
  - unfold mulK. rewrite FE, fft_const by auto. cbn [Nat.eqb fst snd].
    unfold theta. rewrite (phase_zeros dims _ _ Z0), cos_0, sin_0. unfold c2rWeight.
    assert (L0 : last (gridPos (computeKMesh dims) 0) 0%Z = 0%Z).
    { clear -Z0. induction Z0; simpl; auto. destruct l; auto. }
    rewrite L0. cbn [Z.eqb orb]. lra.
  - auto.
  - intros k Hk Nk. unfold mulK. rewrite FE, fft_const by auto. destruct (Nat.eqb_spec k 0); [lia|]. cbn [fst snd]. lra.
Qed.

(* ---------- counting over a tree ---------- *)
Lemma lsum_flat_map : forall {A B} (f : B -> R) (g : A -> list B) l,
  lsum f (flat_map g l) = lsum (fun a => lsum f (g a)) l.
Proof. induction l; simpl; auto. rewrite lsum_app, IHl. auto. Qed.
Lemma lsum_perm : forall {A} (f : A -> R) l1 l2, Permutation l1 l2 -> lsum f l1 = lsum f l2.
Proof. induction 1; simpl; try lra; try congruence. Qed.
Lemma lsum_rsum_swap : forall {A} n (f : nat -> A -> R) l,
  rsum n (fun i => lsum (f i) l) = lsum (fun a => rsum n (fun i => f i a)) l.
Proof. induction l; simpl; [apply rsum_zero|]. rewrite rsum_plus, IHl. auto. Qed.
Lemma lsum_combine_seq : forall (es : list edge) s (f : nat * edge -> R),
  lsum f (combine (seq s (length es)) es) = rsum (length es) (fun b => f ((s + b)%nat, nth b es (O, O))).
Proof.
  induction es as [|e es IH]; intros; [reflexivity|]. cbn [length]. rewrite rsum_S_first. cbn [seq combine lsum].
  rewrite IH. rewrite Nat.add_0_r. cbn [nth]. f_equal. apply rsum_ext. intros. rewrite Nat.add_succ_r. reflexivity.
Qed.

Section Count.
Variables (es : list edge) (vs : list vertex).
Hypothesis HW : well_formed es.
Hypothesis HC : connected es.
Hypothesis HV : graphVertices es vs.
Variables (T : dart -> R) (E : nat -> R).
Hypothesis HT : forall x, is_prop es x -> T x = lsum T (sources es vs x) + E (fst x).

Definition vsum (v : nat) : R := lsum T (inIds (vertexAt vs v)).
Lemma vsum_start : forall x, is_prop es x -> vsum (s_start es x) = T (partner x) + lsum T (sources es vs x).
Proof.
  intros x Hx. unfold vsum. change (vertexAt vs (s_start es x)) with (headVertex es vs x).
  rewrite (lsum_perm T _ _ (head_perm (fun _ _ _ _ => []) true es vs HW HV x Hx)). reflexivity.
Qed.
Lemma vsum_ends : forall x, is_prop es x -> vsum (s_start es x) = vsum (s_end es x).
Proof.
  intros x Hx. rewrite (vsum_start x Hx). rewrite <- s_start_partner.
  rewrite (vsum_start (partner x) Hx), partner_partner.
  rewrite (HT x Hx), (HT (partner x) Hx). change (fst (partner x)) with (fst x). lra.
Qed.
Lemma vsum_const : forall u v, (u <= length es)%nat -> (v <= length es)%nat -> vsum u = vsum v.
Proof.
  intros u v Hu Hv. assert (H := HC u v Hu Hv). clear Hu Hv. induction H as [u v [b [Hb H]]| |]; try congruence.
  assert (A := vsum_ends (b, false) Hb). unfold s_start, s_end in A. cbn [fst snd] in A.
  destruct H as [H|H]; rewrite H in A; cbn [fst snd] in A; congruence.
Qed.
(** The sum of all incoming values at any vertex is the sum over all blocks. *)
Lemma vsum_total : forall v, (v <= length es)%nat -> vsum v = rsum (length es) E.
Proof.
  intros v Hv. set (q := vsum v).
  assert (A : rsum (S (length es)) vsum = INR (S (length es)) * q).
  { rewrite <- rsum_const. apply rsum_ext. intros i Hi. apply vsum_const; auto; lia. }
  assert (B : rsum (S (length es)) vsum = rsum (length es) (fun b => T (b, false) + T (b, true))).
  { rewrite (rsum_ext _ _ (fun v => lsum (fun be => lsum T (inOf v be)) (combine (seq 0 (length es)) es))).
    2:{ intros u Hu. unfold vsum. destruct HV as [_ H]. rewrite (proj1 (H u ltac:(lia))). apply lsum_flat_map. }
    rewrite lsum_rsum_swap, lsum_combine_seq. apply rsum_ext. intros b Hb. cbn [Nat.add].
    assert (WF := wf_edge es b HW Hb).
    change (nth b es (O, O)) with (s_edge es b). set (e := s_edge es b) in *. destruct WF as [W1 [W2 W3]].
    fold e in W1, W2, W3.
    rewrite (rsum_ext _ _ (fun u => (if Nat.eqb u (fst e) then T (b, true) else 0) + (if Nat.eqb u (snd e) then T (b, false) else 0))).
    - rewrite rsum_plus. rewrite (rsum_single _ (fst e)), (rsum_single _ (snd e)); try lia.
      + rewrite !Nat.eqb_refl. lra.
      + intros i _ N. apply Nat.eqb_neq in N. rewrite N. auto.
      + intros i _ N. apply Nat.eqb_neq in N. rewrite N. auto.
    - intros u _. unfold inOf. cbn [fst snd]. rewrite (Nat.eqb_sym u (fst e)), (Nat.eqb_sym u (snd e)).
      destruct (Nat.eqb_spec (fst e) u); destruct (Nat.eqb_spec (snd e) u); simpl; try lra. exfalso; apply W3; congruence. }
  assert (C : rsum (length es) (fun b => T (b, false) + T (b, true)) = INR (length es) * q + rsum (length es) E).
  { rewrite <- rsum_const, <- rsum_plus. apply rsum_ext. intros b Hb.
    assert (VS := vsum_start (b, false) Hb). assert (VT := HT (b, false) Hb). cbn [fst] in VT.
    change (partner (b, false)) with (b, true) in VS.
    assert (VC : vsum (s_start es (b, false)) = q) by (apply vsum_const; auto; apply start_le; auto).
    lra. }
  rewrite S_INR in A. lra.
Qed.
End Count.

(* ---------- uniform fields ---------- *)
Section U.
Variables (model : polyModel) (dims : list Z) (kSq : nat -> R) (dsT : R) (bs : list pblock)
          (w : nat -> field) (W : nat -> R) (es : list edge).
Hypothesis Hne : dims <> [].
Hypothesis HD : positive dims.
Hypothesis HK : kSq O = 0.
Hypothesis HU : forall m i, w m i = W m.
Hypothesis HLen : length bs = length es.
Hypothesis HB : blocks_ok model dsT bs.
Notation slices := (rpcSlices model dims kSq dsT bs w).
Definition Wb (b : nat) : R := W (pb_monomer (pblockAt bs b)).
Definition blockE (b : nat) : R := - (blockSize model (pblockAt bs b) * Wb b).

Definition uconst (f : field) (c : R) : Prop := forall i, f i = c.

Lemma e0 : forall m k d, expKsq kSq m k d O = 1.
Proof. intros. unfold expKsq. rewrite HK, Rmult_0_l. apply exp_0. Qed.
Lemma e20 : forall m k d, expKsq2 kSq m k d O = 1.
Proof. intros. unfold expKsq2. rewrite HK, Rmult_0_l, Rmult_0_r. apply exp_0. Qed.

Lemma stepThread_const : forall kuhn ds b q c, uconst q c ->
  uconst (stepThread dims kSq kuhn ds (wOf bs w b) q) (c * exp (- (ds * Wb b))).
Proof.
  intros kuhn ds b q c Hq i. unfold stepThread.
  assert (K1 : forall c' f, (forall i, f i = c') -> forall i, kOp dims (expKsq kSq Thread kuhn ds) f i = c').
  { intros c' f Hf j. rewrite (kOp_const dims _ c' f Hne HD Hf), e0. lra. }
  assert (K2 : forall c' f, (forall i, f i = c') -> forall i, kOp dims (expKsq2 kSq Thread kuhn ds) f i = c').
  { intros c' f Hf j. rewrite (kOp_const dims _ c' f Hne HD Hf), e20. lra. }
  assert (A : forall i, expW Thread ds (wOf bs w b) i = exp (- (1/2) * ds * Wb b)).
  { intros j. unfold expW, wOf. rewrite HU. reflexivity. }
  assert (A2 : forall i, expW2 ds (wOf bs w b) i = exp (1/2 * (- (1/2) * ds * Wb b))).
  { intros j. unfold expW2, wOf. rewrite HU. reflexivity. }
  set (x := - (1/2) * ds * Wb b) in *.
  rewrite (K1 (c * exp x)) by (intros j; rewrite Hq, A; auto).
  rewrite (K2 (c * exp (1/2 * x) * exp x)).
  2:{ intros j. rewrite (K2 (c * exp (1/2 * x))) by (intros; rewrite Hq, A2; auto). rewrite A. auto. }
  rewrite A, A2.
  assert (E : exp (- (ds * Wb b)) = exp x * exp x).
  { rewrite <- exp_plus. f_equal. unfold x. field. }
  assert (E2 : exp x = exp (1/2 * x) * exp (1/2 * x)).
  { rewrite <- exp_plus. f_equal. field. }
  rewrite E. set (y := exp (1/2 * x)) in *. rewrite E2. field.
Qed.

Lemma stepFieldB_const : forall b q c, uconst q c -> uconst (stepFieldB (wOf bs w b) q) (c * exp (- Wb b)).
Proof. intros b q c Hq i. unfold stepFieldB, expW, wOf. rewrite HU, Hq. reflexivity. Qed.
Lemma stepBead_const : forall kuhn b q c, uconst q c -> uconst (stepBead dims kSq kuhn (wOf bs w b) q) (c * exp (- Wb b)).
Proof.
  intros kuhn b q c Hq. apply stepFieldB_const. intros i. unfold stepBond.
  rewrite (kOp_const dims _ c q Hne HD Hq), e0. lra.
Qed.
Lemma endOp_const : forall kuhn e q c, uconst q c -> uconst (endOp dims kSq kuhn e q) c.
Proof.
  intros kuhn [] q c Hq; auto. intros i. unfold endOp, stepHalfBond.
  rewrite (kOp_const dims _ c q Hne HD Hq), e20. lra.
Qed.
Lemma iter_const : forall (T : field -> field) a, (forall q c, uconst q c -> uconst (T q) (c * exp a)) ->
  forall j q c, uconst q c -> uconst (Nat.iter j T q) (c * exp (INR j * a)).
Proof.
  intros T a HT. induction j; intros q c Hq.
  - simpl. rewrite Rmult_0_l, exp_0, Rmult_1_r. auto.
  - intros i. change (Nat.iter (S j) T q i) with (T (Nat.iter j T q) i). rewrite (HT _ _ (IHj q c Hq)), S_INR.
    replace ((INR j + 1) * a) with (INR j * a + a) by lra. rewrite exp_plus. lra.
Qed.

Lemma slices_const : forall b he te h c, (b < length es)%nat -> uconst h c ->
  uconst (last (slices b he te h) zero_field) (c * exp (blockE b)) /\
  forall j, exists c', uconst (qAt (slices b he te h) j) c'.
Proof.
  intros b he te h c Hb Hh. assert (I := block_in bs es HLen b Hb).
  unfold rpcSlices, blocks_ok, blockE, blockSize, qAt in *. destruct model.
  - destruct HB as [Hd HB']. rewrite Forall_forall in HB'.
    destruct (rpcNs_cases _ dsT (HB' _ I) Hd) as [m [A [B [C _]]]].
    assert (N : (pNs Thread dsT bs b = 2 * Z.to_nat m + 1)%nat) by (unfold pNs; rewrite B; lia).
    assert (ST := iter_const _ _ (stepThread_const (pb_kuhn (pblockAt bs b)) (pDs Thread dsT bs b) b)).
    unfold threadSlices. split.
    + rewrite last_nth, iterSlices_length, nth_iterSlices by lia.
      intros i. rewrite (ST _ _ _ Hh). f_equal. f_equal.
      replace (pNs Thread dsT bs b - 1)%nat with (2 * Z.to_nat m)%nat by lia.
      rewrite INR_IZR_INZ. replace (Z.of_nat (2 * Z.to_nat m)) with (2 * m)%Z by lia.
      unfold pDs. rewrite <- C at 2. lra.
    + intros j. destruct (Nat.lt_ge_cases j (pNs Thread dsT bs b)) as [L|L].
      * rewrite nth_iterSlices by auto. eexists. apply ST, Hh.
      * rewrite nth_overflow by (rewrite iterSlices_length; auto). exists 0. intros i; reflexivity.
  - rewrite Forall_forall in HB. specialize (HB _ I).
    set (nb := pb_nBead (pblockAt bs b)) in *.
    assert (SB := iter_const _ _ (stepBead_const (pb_kuhn (pblockAt bs b)) b)).
    assert (H1 : forall e k, uconst (Nat.iter k (stepBead dims kSq (pb_kuhn (pblockAt bs b)) (wOf bs w b))
        (stepFieldB (wOf bs w b) (endOp dims kSq (pb_kuhn (pblockAt bs b)) e h))) (c * exp (- (INR (S k) * Wb b)))).
    { intros e k i. erewrite SB by (apply stepFieldB_const, endOp_const, Hh). rewrite Rmult_assoc, <- exp_plus.
      f_equal. f_equal. rewrite S_INR. lra. }
    assert (LS : uconst (last (beadSlices dims kSq nb (pb_kuhn (pblockAt bs b)) (wOf bs w b) he te h) zero_field)
       (c * exp (- (INR nb * Wb b)))).
    { rewrite last_beadSlices by auto. apply endOp_const. replace (INR nb) with (INR (S (nb - 1))) by (f_equal; lia). apply H1. }
    split; [exact LS|].
    assert (LL : length (beadSlices dims kSq nb (pb_kuhn (pblockAt bs b)) (wOf bs w b) he te h) = (nb + 2)%nat).
    { unfold beadSlices. destruct nb; [lia|]. cbn [length]. rewrite app_length, iterSlices_length. simpl. lia. }
    intros j. destruct (Nat.eq_dec j 0) as [->|N0].
    + exists c. rewrite <- hd_nth0, hd_beadSlices; auto.
    + destruct (Nat.le_gt_cases j nb) as [L|L].
      * rewrite nth_beadSlices by lia. eexists. apply H1.
      * destruct (Nat.eq_dec j (nb + 1)) as [->|N1].
        -- rewrite last_nth, LL in LS. replace (nb + 1)%nat with (nb + 2 - 1)%nat by lia. eauto.
        -- rewrite nth_overflow by lia. exists 0. intros i; reflexivity.
Qed.

(** All tails are uniform and positive, by induction along the plan. *)
Lemma tails_const : forall fuel p st, tree es -> (2 * length es <= fuel)%nat -> readGraph fuel es = Ok p ->
  (forall x, is_prop es x -> solved slices es (p_vertices p) st x) ->
  forall x, is_prop es x -> exists v, uconst (tailF st x) (exp v).
Proof.
  intros fuel p st HT Hf HG HS.
  destruct (polymer_plan_is_valid_order es fuel HT Hf) as [p' [E [ND [IN [_ BF]]]]].
  rewrite HG in E. inversion E; subst p'. clear E.
  assert (HT' := HT). destruct HT' as [HW _].
  destruct (solveAll_ok (fun _ _ _ _ => []) (fun _ => true) true es fuel p HT eq_refl Hf HG) as [HV _].
  assert (G : forall k l1 y l2, length l1 = k -> p_plan p = l1 ++ y :: l2 -> exists v, uconst (tailF st y) (exp v)).
  { induction k as [k IH] using lt_wf_ind. intros l1 y l2 Hk E.
    assert (Py : is_prop es y) by (apply IN; rewrite E, in_app_iff; simpl; auto).
    destruct (HS y Py) as [h [E1 [F1 G1]]].
    assert (HH : exists v, uconst h (exp v)).
    { assert (A : forall z, In z (sources es (p_vertices p) y) -> exists v, uconst (tailF st z) (exp v)).
      { intros z Hz. apply (sources_iff (fun _ _ _ _ => []) true es (p_vertices p) HW HV) in Hz; auto.
        destruct (BF z y Hz) as [l1' [l2' [E' I']]].
        destruct (in_split _ _ I') as [a [b Eb]].
        assert (EL : l1' = l1).
        { rewrite E in E'. clear -E E' ND. rewrite E in ND. revert l1' E'. revert ND. clear E. induction l1 as [|u l1 IH]; intros ND [|v l1'] E'; simpl in *; auto.
          - inversion E'; subst. inversion ND; subst. exfalso. apply H1. rewrite in_app_iff; simpl; auto.
          - inversion E'; subst. inversion ND; subst. exfalso. apply H1. rewrite in_app_iff; simpl; auto.
          - inversion E'; subst. inversion ND; subst. f_equal. apply IH; auto. }
        rewrite EL in Eb. apply (IH (length a)) with (l1 := a) (l2 := b ++ y :: l2); auto.
        - rewrite <- Hk, Eb, app_length. simpl. lia.
        - rewrite E, Eb, <- app_assoc. reflexivity. }
      assert (B : exists v, forall i, lprod (fun z => tailF st z i) (sources es (p_vertices p) y) = exp v).
      { clear -A. induction (sources es (p_vertices p) y) as [|z l IH].
        - exists 0. intros. simpl. rewrite exp_0; auto.
        - destruct IH as [v Hv]; [intros; apply A; simpl; auto|]. destruct (A z (or_introl eq_refl)) as [u Hu].
          exists (u + v). intros. simpl. rewrite Hv, Hu, exp_plus. auto. }
      destruct B as [v Hv]. exists v. intros i. rewrite G1, <- (Hv i). apply lprod_ext. intros z Hz. unfold tailF.
      destruct (F1 z Hz) as [l El]. rewrite El. auto. }
    destruct HH as [v Hv]. exists (v + blockE (fst y)). unfold tailF. rewrite E1. intros i.
    rewrite (proj1 (slices_const (fst y) _ _ h _ Py Hv)), exp_plus. auto. }
  intros x Hx. assert (I : In x (p_plan p)) by (apply IN; auto). destruct (in_split _ _ I) as [l1 [l2 E]].
  apply (G (length l1) l1 x l2); auto.
Qed.
End U.

Lemma gridAvg_const : forall dims f c, positive dims -> uconst f c -> gridAvg dims f = c.
Proof.
  intros dims f c HD Hf. unfold gridAvg. rewrite (rsum_ext _ _ (fun _ => c)) by auto. rewrite rsum_const.
  destruct (INR_nR dims HD) as [_ P]. field. lra.
Qed.

(** C57. *)
Theorem rpc_uniform_fields : forall model dims kSq dsT bs w W es fuel p s phiTot,
  dims <> [] -> positive dims -> kSq O = 0 -> (forall m i, w m i = W m) ->
  tree es -> es <> [] -> length bs = length es -> blocks_ok model dsT bs ->
  (2 * length es <= fuel)%nat -> readGraph fuel es = Ok p -> phiTot <> 0 ->
  exists s' c, rpcCompute model dims kSq dsT bs w es p s phiTot = Ok (s', c) /\
    sp_q s' = exp (- rsum (length bs) (fun b => blockSize model (pblockAt bs b) * W (pb_monomer (pblockAt bs b)))) / phiTot /\
    forall b i, (b < length bs)%nat ->
      c b i = sp_phi s' * phiTot * blockSize model (pblockAt bs b) / polymerSize model bs.
Proof.
  intros model dims kSq dsT bs w W es fuel p s phiTot Hne HD HK HU HT Hes HLen HB Hf HG HphiT.
  destruct (solve_facts model dims kSq dsT bs w es HD HT HLen HB fuel p Hf HG) as [st [Q [E [F [S G]]]]].
  assert (L0 : (0 < length es)%nat) by (destruct es; simpl; [congruence|lia]).
  destruct (INR_nR dims HD) as [_ PN].
  assert (HV : graphVertices es (p_vertices p)).
  { destruct (solveAll_ok (fun _ _ _ _ => []) (fun _ => true) true es fuel p HT eq_refl Hf HG) as [HV _]; auto. }
  assert (HT' := HT). destruct HT' as [HW HC].
  set (sl := rpcSlices model dims kSq dsT bs w) in *.
  assert (TC := tails_const model dims kSq dsT bs w W es Hne HD HK HU HLen HB fuel p st HT Hf HG (fun x Hx => proj1 (S x Hx))).
  set (T := fun x => ln (tailF st x O)).
  assert (TT : forall x, is_prop es x -> uconst (tailF st x) (exp (T x))).
  { intros x Hx. destruct (TC x Hx) as [v Hv]. unfold T. rewrite (Hv O), ln_exp. auto. }
  assert (HH : forall x, is_prop es x -> exists h,
     st x = Some (sl (fst x) (isHeadEnd es (p_vertices p) x) (isTailEnd es (p_vertices p) x) h) /\
     uconst h (exp (lsum T (sources es (p_vertices p) x)))).
  { intros x Hx. destruct (S x Hx) as [[h [E1 [F1 G1]]] _]. exists h. split; auto. intros i. rewrite G1.
    rewrite (lprod_ext _ (fun z => exp (T z))).
    - clear. induction (sources es (p_vertices p) x); simpl; [rewrite exp_0; auto|]. rewrite IHl, exp_plus; auto.
    - intros z Hz. destruct (F1 z Hz) as [l El].
      apply (sources_iff (fun _ _ _ _ => []) true es (p_vertices p) HW HV) in Hz; auto.
      rewrite <- (TT z (proj1 Hz) i). unfold tailF. rewrite El. auto. }
  assert (TS : forall x, is_prop es x -> T x = lsum T (sources es (p_vertices p) x) + blockE model bs W (fst x)).
  { intros x Hx. destruct (HH x Hx) as [h [E1 Hh]]. unfold T at 1. unfold tailF. rewrite E1. unfold sl.
    rewrite (proj1 (slices_const model dims kSq dsT bs w W es Hne HD HK HU HLen HB (fst x) _ _ h _ Hx Hh)).
    rewrite <- exp_plus. apply ln_exp. }
  assert (QV : Q = exp (rsum (length es) (blockE model bs W))).
  { assert (P0 : is_prop es (O, false)) by exact L0.
    destruct (S (O, false) P0) as [_ <-]. destruct (HH _ P0) as [h [E1 Hh]].
    assert (P1 : is_prop es (partner (O, false))) by exact L0.
    unfold wavg. rewrite (rsum_ext _ _ (fun _ => 1 / INR (nR dims) * exp (rsum (length es) (blockE model bs W)))).
    - rewrite rsum_const. field. lra.
    - intros i _. f_equal. rewrite (TT _ P1 i). unfold headF. rewrite E1.
      assert (R := recip model dims kSq dsT bs w es HLen HB O L0).
      rewrite (proj2 (R _ _ h h) i), (Hh i), <- exp_plus. f_equal.
      rewrite <- (vsum_total es (p_vertices p) HW HC HV T _ TS (s_start es (O, false)) (start_le es _ HW P0)).
      rewrite (vsum_start es (p_vertices p) HW HV T _ P0). lra. }
  destruct (rpc_block_mass_conserved model dims kSq dsT bs w es fuel p s phiTot) as [s' [c [E1 [_ M]]]]; auto.
  exists s', c. split; auto.
  unfold rpcCompute in E1. fold sl in E1. rewrite E in E1. cbn [bind] in E1. rewrite (F (O, false) L0) in E1. cbn [bind] in E1.
  assert (ES : s' = setQ s (Q / phiTot)) by (inversion E1; auto).
  assert (EQ : sp_q s' = Q / phiTot) by (rewrite ES; unfold setQ; destruct (sp_ens s); reflexivity).
  split.
  { rewrite EQ, QV, HLen. f_equal. f_equal. rewrite <- rsum_opp. reflexivity. }
  assert (NQ : sp_q s' <> 0).
  { rewrite EQ. assert (P := exp_pos (rsum (length es) (blockE model bs W))). rewrite <- QV in P.
    apply Rmult_integral_contrapositive_currified; [lra|apply Rinv_neq_0_compat; auto]. }
  destruct (M NQ) as [M1 _]. intros b i Hb. rewrite HLen in Hb. rewrite <- (M1 b Hb).
  assert (P0 : is_prop es (b, false)) by exact Hb. assert (P1 : is_prop es (b, true)) by exact Hb.
  destruct (HH _ P0) as [h0 [E0 H0]]. destruct (HH _ P1) as [h1 [E1' H1]].
  symmetry. apply gridAvg_const; auto. intros k. inversion E1 as [[A B]]. clear A. rewrite E0, E1'. cbn [fst].
  assert (C0 := proj2 (slices_const model dims kSq dsT bs w W es Hne HD HK HU HLen HB b
     (isHeadEnd es (p_vertices p) (b, false)) (isTailEnd es (p_vertices p) (b, false)) h0 _ Hb H0)).
  assert (C1 := proj2 (slices_const model dims kSq dsT bs w W es Hne HD HK HU HLen HB b
     (isHeadEnd es (p_vertices p) (b, true)) (isTailEnd es (p_vertices p) (b, true)) h1 _ Hb H1)).
  fold sl in C0, C1. revert C0 C1.
  generalize (sl b (isHeadEnd es (p_vertices p) (b, false)) (isTailEnd es (p_vertices p) (b, false)) h0).
  generalize (sl b (isHeadEnd es (p_vertices p) (b, true)) (isTailEnd es (p_vertices p) (b, true)) h1).
  intros l1 l0 C0 C1.
  assert (D0 : forall j, qAt l0 j k = qAt l0 j i) by (intros j; destruct (C0 j) as [c' Hc]; rewrite !Hc; auto).
  assert (D1 : forall j, qAt l1 j k = qAt l1 j i) by (intros j; destruct (C1 j) as [c' Hc]; rewrite !Hc; auto).
  destruct model.
  - unfold concThread. rewrite !D0, !D1. f_equal. f_equal; [f_equal|]; apply rsum_ext; intros j _; rewrite D0, D1; auto.
  - unfold concBead. f_equal. apply rsum_ext. intros j _. rewrite D0, D1. f_equal. unfold expWInv, wOf. rewrite !HU. auto.
Qed.

Print Assumptions rpc_uniform_fields.
