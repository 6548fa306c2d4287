(** C77: the intramolecular correlation function used by the linear-response
    compressor is the sum over all pairs of segments of ideal branched chains *)
From Coq Require Import Reals List Bool Arith Lia Lra.
From Coquelicot Require Import Coquelicot.
From Verif Require Import Base RSum PolymerModel Polymer PolymerSpec PolymerPaths PropsPolymer LinearResponse Debye PropsDebye
  IntraSpec Intra IntraProofs IntraSums.
Import ListNotations.
Local Open Scope R_scope.

(** ** Specification *)
Definition blocks (c : chain) : list (nat * nat) := p_edges (c_graph c).
(** The graph of the species was accepted when its blocks were read *)
Definition built (c : chain) : Prop :=
  exists f es, (2 * length es <= f)%nat /\ readGraph f es = Ok (c_graph c).
Definition contour (m : model) (c : chain) (j : nat) : R :=
  match m with Thread => c_length c j | Bead => INR (c_nBead c j) end.
Definition segments (m : model) (c : chain) : R := rsum (length (blocks c)) (contour m c).
Definition pairs (m : model) (c : chain) (ksq : R) (W : nat -> nat -> R) : Prop :=
  match m with
  | Thread => threadPairs (blocks c) (c_kuhn c) ksq (c_length c) W
  | Bead => beadPairs (blocks c) (c_kuhn c) ksq (c_nBead c) W
  end.
(** Species that a parameter file with positive lengths gives, and enough fuel
    for the iterator *)
Definition proper (fuel : nat) (m : model) (c : chain) : Prop :=
  built c /\ (length (blocks c) <= fuel)%nat /\ (0 < length (blocks c))%nat /\
  forall j, (j < length (blocks c))%nat -> 0 < contour m c j.
(** The density of chains times the pair sum; solvents have one segment *)
Definition exactChain (m : model) (v : R) (W : chain -> nat -> nat -> R) (c : chain) : R :=
  c_phi c / (segments m c * v) * rsum (length (blocks c)) (fun A => rsum (length (blocks c)) (fun B => W c A B)).
Definition exact (m : model) (v : R) (W : chain -> nat -> nat -> R) (cs : list chain) (ss : list small_) : R :=
  lsum (exactChain m v W) cs + lsum (fun s => s_phi s * s_size s / v) ss.

(** ** Terms of single blocks *)
Lemma threadEnd_range : forall k L, 0 <= k -> 0 < L -> 0 <= threadEnd k L <= L.
Proof.
  intros k L Hk HL. destruct (Req_dec k 0) as [->|K]; [rewrite threadEnd_zero; lra|]. rewrite threadEnd_closed by auto.
  assert (0 <= k * L) by (apply Rmult_le_pos; lra). pose proof (exp_t1 _ H). pose proof (exp_t2 _ H). assert (0 < k) by lra.
  split; [apply Rmult_le_pos; [lra|left; apply Rinv_0_lt_compat; lra]|].
  apply (Rmult_le_reg_r k); [lra|]. unfold Rdiv. rewrite Rmult_assoc, Rinv_l by lra. lra.
Qed.
Lemma beadEnd_range : forall k n, 0 <= k -> 0 <= beadEnd k n <= INR n.
Proof.
  intros k n Hk. unfold beadEnd. split; [apply rsum_pos_le; intros; left; apply exp_pos|].
  rewrite <- (Rmult_1_r (INR n)), <- rsum_const. apply rsum_le. intros i Hi. apply (exp_lower k n i); auto; lia.
Qed.
Lemma beadPair_range : forall k n, 0 <= k -> INR n <= beadPair k n <= INR n ^ 2.
Proof.
  intros k n Hk. unfold beadPair. split.
  - rewrite <- (Rmult_1_r (INR n)) at 1. rewrite <- rsum_const. apply rsum_le. intros i Hi.
    rewrite <- exp_0. replace 0 with (- (k * INR (absd i i))) at 1 by (unfold absd; rewrite Nat.sub_diag; simpl; ring).
    clear Hk. revert i Hi. induction n; intros i Hi; [lia|]. cbn [rsum].
    assert (P : 0 <= rsum n (fun j => exp (- (k * INR (absd i j))))) by (apply rsum_pos_le; intros; left; apply exp_pos).
    destruct (Nat.eq_dec i n) as [->|]; [lra|]. specialize (IHn i ltac:(lia)). pose proof (exp_pos (- (k * INR (absd i n)))). lra.
  - replace (INR n ^ 2) with (INR n * (INR n * 1)) by ring. rewrite <- rsum_const. rewrite <- (rsum_const n). apply rsum_le. intros i Hi.
    apply rsum_le. intros j Hj. apply (exp_lower k n (absd i j)); auto. pose proof (absd_lt i j n Hi Hj). lia.
Qed.

Section Block.
Variables (m : model) (c : chain) (ksq : R) (j : nat).
Hypothesis Hk : 0 <= ksq.
Hypothesis HL : 0 < contour m c j.
Let k := rate ksq (c_kuhn c j).
Definition diagExact : R := match m with Thread => threadPair k (c_length c j) | Bead => beadPair k (c_nBead c j) end.
Definition endExact : R := match m with Thread => threadEnd k (c_length c j) | Bead => beadEnd k (c_nBead c j) end.

Lemma kpos : 0 <= k. Proof. apply rate_pos, Hk. Qed.
Lemma endExact_range : 0 <= endExact <= contour m c j.
Proof. unfold endExact, contour in *. destruct m; [apply threadEnd_range|apply beadEnd_range]; auto; apply kpos. Qed.
Lemma term_large : small <= contour m c j * k -> diagTerm m c ksq j = diagExact /\ endTerm m c ksq j = endExact.
Proof.
  unfold diagTerm, endTerm, diagExact, endExact, contour, blockLength in *. intros H. destruct m.
  - split; [apply C54_dt_large|apply C54_et_large]; auto.
  - split; [apply C54_db_large|apply C54_eb_large]; auto.
Qed.
Lemma term_small : contour m c j * k < small ->
  diagTerm m c ksq j = (1 - (contour m c j * k) * (contour m c j * k) / 3) * (contour m c j * contour m c j) /\
  endTerm m c ksq j = (1 - (contour m c j * k) / 2 + (contour m c j * k) * (contour m c j * k) / 6) * contour m c j.
Proof.
  intros H. unfold diagTerm, endTerm, contour, blockLength, dt, db, et, eb, isSmall, k, rate in *. destruct m.
  - replace (c_length c j * ksq * c_kuhn c j * c_kuhn c j / 6) with (c_length c j * (ksq * c_kuhn c j ^ 2 / 6)) by (simpl; field).
    replace (ksq * c_length c j * c_kuhn c j * c_kuhn c j / 6) with (c_length c j * (ksq * c_kuhn c j ^ 2 / 6)) by (simpl; field).
    destruct (Rlt_dec _ small); [auto|lra].
  - replace (INR (c_nBead c j) * (ksq * c_kuhn c j * c_kuhn c j / 6)) with (INR (c_nBead c j) * (ksq * c_kuhn c j ^ 2 / 6)) by (simpl; field).
    destruct (Rlt_dec _ small); [auto|lra].
Qed.
Lemma term_zero : ksq = 0 -> diagTerm m c ksq j = contour m c j ^ 2 /\ endTerm m c ksq j = contour m c j /\
  diagExact = contour m c j ^ 2 /\ endExact = contour m c j.
Proof.
  intros Z. assert (K : k = 0) by (unfold k, rate; rewrite Z; field).
  destruct term_small as [D E]; [rewrite K, Rmult_0_r; apply small_pos|]. rewrite D, E, K.
  unfold diagExact, endExact, contour in *. rewrite K. destruct m.
  - rewrite threadPair_zero, threadEnd_zero. repeat split; field.
  - split; [field|split; [field|split]]; unfold beadPair, beadEnd.
    + rewrite (rsum_ext _ _ (fun _ => INR (c_nBead c j))); [rewrite rsum_const; simpl; ring|]. intros.
      rewrite (rsum_ext _ _ (fun _ => 1)); [rewrite rsum_const; ring|]. intros. rewrite Rmult_0_l, Ropp_0. apply exp_0.
    + rewrite (rsum_ext _ _ (fun _ => 1)); [rewrite rsum_const; ring|]. intros. rewrite Rmult_0_l, Ropp_0. apply exp_0.
Qed.
Lemma term_err : Rabs (diagTerm m c ksq j - diagExact) <= small * contour m c j ^ 2 /\
  Rabs (endTerm m c ksq j - endExact) <= small * contour m c j /\
  0 < diagTerm m c ksq j <= contour m c j ^ 2 /\ 0 <= endTerm m c ksq j <= contour m c j.
Proof.
  pose proof small_pos as SP. assert (P2 : 0 < contour m c j * contour m c j) by (apply Rmult_lt_0_compat; auto).
  pose proof endExact_range as ER. pose proof kpos as KP.
  set (x := contour m c j * k). assert (X0 : 0 <= x) by (apply Rmult_le_pos; lra).
  destruct (Rle_lt_dec small x) as [H|H].
  - destruct (term_large H) as [D E]. rewrite D, E. replace (diagExact - diagExact) with 0 by ring. replace (endExact - endExact) with 0 by ring.
    rewrite Rabs_R0. split; [cbn [pow]; rewrite Rmult_1_r; apply Rmult_le_pos; lra|]. split; [apply Rmult_le_pos; lra|]. split; [|auto].
    clear D E. unfold diagExact, x, endExact, contour in *. destruct m.
    + pose proof (threadPair_bounds k (c_length c j) KP HL) as B. cbn zeta in B.
      assert (K : k <> 0) by (intros E; rewrite E in H; lra). split.
      * rewrite threadPair_closed by lra. assert (PP : 0 < k * c_length c j) by (apply Rmult_lt_0_compat; lra).
        assert (Q : - (k * c_length c j) <> 0) by lra. pose proof (exp_ineq1 _ Q) as Q1.
        apply Rmult_lt_0_compat; [lra|apply Rinv_0_lt_compat, Rmult_lt_0_compat; lra].
      * rewrite threadPair_closed by lra. assert (PP : 0 < k * c_length c j) by (apply Rmult_lt_0_compat; lra).
        pose proof (exp_t3 (k * c_length c j) (Rlt_le _ _ PP)) as T. assert (KK : 0 < k * k) by (apply Rmult_lt_0_compat; lra).
        apply (Rmult_le_reg_r (k * k)); [lra|]. unfold Rdiv. rewrite Rmult_assoc, Rinv_l by lra. simpl. lra.
    + pose proof (beadPair_range k (c_nBead c j) KP). lra.
  - destruct (term_small H) as [D E]. fold x in D, E.
    assert (XX : 0 <= x * x <= x) by (split; [apply Rmult_le_pos; auto|]; rewrite <- (Rmult_1_r x) at 3; apply Rmult_le_compat_l; unfold small in *; lra).
    assert (Y2 : 0 <= (x * x) * (contour m c j * contour m c j) <= small * (contour m c j * contour m c j)).
    { split; [apply Rmult_le_pos; lra|apply Rmult_le_compat_r; lra]. }
    assert (Y1 : 0 <= x * (contour m c j * contour m c j) <= small * (contour m c j * contour m c j)).
    { split; [apply Rmult_le_pos; lra|apply Rmult_le_compat_r; lra]. }
    assert (Z1 : 0 <= x * contour m c j <= small * contour m c j).
    { split; [apply Rmult_le_pos; lra|apply Rmult_le_compat_r; lra]. }
    assert (Z2 : 0 <= (x * x) * contour m c j <= x * contour m c j).
    { split; [apply Rmult_le_pos; lra|apply Rmult_le_compat_r; lra]. }
    assert (SB : small * (contour m c j * contour m c j) <= contour m c j * contour m c j).
    { rewrite <- (Rmult_1_l (contour m c j * contour m c j)) at 2. apply Rmult_le_compat_r; [lra|unfold small; lra]. }
    assert (SC : small * contour m c j <= contour m c j).
    { rewrite <- (Rmult_1_l (contour m c j)) at 2. apply Rmult_le_compat_r; [lra|unfold small; lra]. }
    split; [|split; [|split; [rewrite D; simpl; lra|rewrite E; lra]]].
    + clear D E ER. unfold diagTerm, diagExact, x, blockLength, contour in *. destruct m.
      * pose proof (C54_dt_small_partial ksq _ _ Hk HL H) as B. cbn zeta in B. fold k in B. apply Rabs_le. cbn [pow] in *. rewrite ?Rmult_1_r in *. split; lra.
      * destruct (C54_bead_small_partial ksq _ _ Hk H) as [B _]. fold k in B. eapply Rle_trans; [exact B|]. simpl. lra.
    + clear D E ER. unfold endTerm, endExact, x, blockLength, contour in *. destruct m.
      * pose proof (C54_et_small ksq _ _ Hk HL H) as B. fold k in B. eapply Rle_trans; [exact B|]. set (q := c_length c j * k) in *.
        assert (q ^ 3 <= q). { simpl. rewrite Rmult_1_r. rewrite <- (Rmult_1_r q) at 4. apply Rmult_le_compat_l; lra || (unfold small in *; lra). }
        rewrite (Rmult_comm small). apply Rmult_le_compat_l; lra.
      * destruct (C54_bead_small_partial ksq _ _ Hk H) as [_ B]. fold k in B. eapply Rle_trans; [exact B|]. lra.
Qed.
End Block.

(** ** Chains *)
Section Species.
Variables (fuel : nat) (m : model) (v ksq : R) (c : chain).
Hypothesis HP : proper fuel m c.
Let n := length (blocks c).
Let es := blocks c.

Lemma s_tree : tree es.
Proof.
  destruct HP as ((f & es0 & F & E) & _). pose proof (polymer_accepted_is_tree _ _ _ E) as T.
  unfold es, blocks. now rewrite (p_es es0 f _ T F E).
Qed.
Lemma s_read : exists f, (2 * length es <= f)%nat /\ readGraph f es = Ok (c_graph c).
Proof.
  destruct HP as ((f & es0 & F & E) & _). pose proof (polymer_accepted_is_tree _ _ _ E) as T.
  unfold es, blocks. rewrite (p_es es0 f _ T F E). eauto.
Qed.
Lemma s_fuel : (length es <= fuel)%nat. Proof. apply HP. Qed.
Lemma contour_len : forall j, blockLength m c j = contour m c j. Proof. reflexivity. Qed.

Lemma pairs_mat : forall W A B, pairs m c ksq W -> (A < n)%nat -> (B < n)%nat ->
  W A B = pairMat m fuel c ksq (diagExact m c ksq) (endExact m c ksq) A B.
Proof.
  intros W A B HW LA LB. unfold pairMat. destruct (Nat.eqb_spec A B) as [<-|NE].
  - unfold diagExact, pairs in *. destruct m; [rewrite (thread_same _ _ _ _ _ HW A LA)|rewrite (bead_same _ _ _ _ _ HW A LA)].
    + unfold threadPair. apply RInt_ext. intros s _. apply RInt_ext. intros t _. f_equal. unfold rate. field.
    + unfold beadPair. apply rsum_ext. intros i _. apply rsum_ext. intros j _. rewrite absd_abs. f_equal. unfold rate. field.
  - destruct (route_exists es s_tree A B LA LB NE) as (x & l & y & RT).
    rewrite (gap_route es m fuel c s_tree s_read s_fuel A B x l y NE RT).
    unfold endExact, gapStart, pairs in *. destruct m; [rewrite (thread_other _ _ _ _ _ HW A B x l y NE RT)|rewrite (bead_other _ _ _ _ _ HW A B x l y NE RT)].
    + rewrite thread_factor. rewrite Rplus_0_l. reflexivity.
    + rewrite bead_factor. reflexivity.
Qed.

Let M := pairMat m fuel c ksq (diagTerm m c ksq) (endTerm m c ksq).
Lemma chain_value : forall x, polymerCorr fuel m v ksq c x = Ok (x + c_phi c / (segments m c * v) * rsum n (fun A => rsum n (fun B => M A B))).
Proof. intros x. exact (polymerCorr_sum es m v fuel c s_tree s_read s_fuel ksq x). Qed.

Lemma chain_exact : forall W, pairs m c ksq W -> 
  ksq = 0 \/ (0 <= ksq /\ forall j, (j < n)%nat -> small <= contour m c j * (ksq * c_kuhn c j ^ 2 / 6)) ->
  rsum n (fun A => rsum n (fun B => M A B)) = rsum n (fun A => rsum n (fun B => W A B)).
Proof.
  intros W HW HS. apply rsum_ext. intros A LA. apply rsum_ext. intros B LB. rewrite (pairs_mat W A B HW LA LB).
  assert (K : forall j, (j < n)%nat -> diagTerm m c ksq j = diagExact m c ksq j /\ endTerm m c ksq j = endExact m c ksq j).
  { intros j Lj. destruct HP as (_ & _ & _ & PL). destruct HS as [Z|[Z HS]].
    - destruct (term_zero m c ksq j (PL j Lj) Z) as (-> & -> & -> & ->). auto.
    - apply term_large; auto. apply HS; auto. }
  unfold M, pairMat. rewrite (proj1 (K A LA)), (proj2 (K A LA)), (proj2 (K B LB)). reflexivity.
Qed.

Hypothesis Hk : 0 <= ksq.
Lemma gap_exp : forall A B, (A < n)%nat -> (B < n)%nat -> A <> B -> 0 < exp (- gap m fuel c A B * ksq / 6) <= 1.
Proof.
  intros A B LA LB NE. split; [apply exp_pos|]. destruct HP as (_ & _ & _ & PL).
  pose proof (gap_pos es m fuel c s_tree s_read s_fuel A B LA LB NE (fun j H => Rlt_le _ _ (PL j H))) as G.
  pose proof (Rmult_le_pos _ _ G Hk). rewrite <- exp_0. destruct (Req_dec (gap m fuel c A B * ksq) 0) as [E|E].
  - right. f_equal. replace (- gap m fuel c A B * ksq / 6) with (- (gap m fuel c A B * ksq) / 6) by field. rewrite E. field.
  - left. apply exp_increasing. replace (- gap m fuel c A B * ksq / 6) with (- (gap m fuel c A B * ksq) / 6) by field. lra.
Qed.
Lemma mat_range : forall A B, (A < n)%nat -> (B < n)%nat -> 0 <= M A B <= contour m c A * contour m c B.
Proof.
  intros A B LA LB. destruct HP as (_ & _ & _ & PL). pose proof (PL A LA) as PA. pose proof (PL B LB) as PB.
  destruct (term_err m c ksq A Hk PA) as (_ & _ & DA & EA). destruct (term_err m c ksq B Hk PB) as (_ & _ & _ & EB).
  unfold M, pairMat. destruct (Nat.eqb_spec A B) as [<-|NE].
  - simpl in DA. rewrite Rmult_1_r in DA. lra.
  - destruct (gap_exp A B LA LB NE) as [G1 G2]. split.
    + apply Rmult_le_pos; [apply Rmult_le_pos|]; lra.
    + apply Rmult_le_compat; try lra; [apply Rmult_le_pos; lra|].
      rewrite <- (Rmult_1_l (contour m c A)). apply Rmult_le_compat; lra.
Qed.
Lemma mat_err : forall W, pairs m c ksq W -> forall A B, (A < n)%nat -> (B < n)%nat ->
  Rabs (M A B - W A B) <= 2 * small * (contour m c A * contour m c B).
Proof.
  intros W HW A B LA LB. rewrite (pairs_mat W A B HW LA LB). destruct HP as (_ & _ & _ & PL). pose proof (PL A LA) as PA. pose proof (PL B LB) as PB.
  pose proof small_pos as SP.
  destruct (term_err m c ksq A Hk PA) as (DA & EA & _ & RA). destruct (term_err m c ksq B Hk PB) as (_ & EB & _ & RB).
  pose proof (endExact_range m c ksq A Hk PA) as XA. pose proof (endExact_range m c ksq B Hk PB) as XB.
  assert (P : 0 < contour m c A * contour m c B) by (apply Rmult_lt_0_compat; auto).
  assert (SS : 0 < small * (contour m c A * contour m c B)) by (apply Rmult_lt_0_compat; auto).
  unfold M, pairMat. destruct (Nat.eqb_spec A B) as [<-|NE].
  - eapply Rle_trans; [exact DA|]. cbn [pow]. rewrite Rmult_1_r. lra.
  - destruct (gap_exp A B LA LB NE) as [G1 G2]. set (g := exp _) in *.
    replace (g * endTerm m c ksq A * endTerm m c ksq B - g * endExact m c ksq A * endExact m c ksq B)
      with (g * ((endTerm m c ksq A - endExact m c ksq A) * endTerm m c ksq B + endExact m c ksq A * (endTerm m c ksq B - endExact m c ksq B))) by ring.
    rewrite Rabs_mult, (Rabs_pos_eq g) by lra.
    assert (H : Rabs ((endTerm m c ksq A - endExact m c ksq A) * endTerm m c ksq B + endExact m c ksq A * (endTerm m c ksq B - endExact m c ksq B))
      <= 2 * small * (contour m c A * contour m c B)).
    { eapply Rle_trans; [apply Rabs_triang|]. rewrite !Rabs_mult, (Rabs_pos_eq (endTerm m c ksq B)), (Rabs_pos_eq (endExact m c ksq A)) by lra.
      assert (Rabs (endTerm m c ksq A - endExact m c ksq A) * endTerm m c ksq B <= (small * contour m c A) * contour m c B)
        by (apply Rmult_le_compat; try lra; apply Rabs_pos).
      assert (endExact m c ksq A * Rabs (endTerm m c ksq B - endExact m c ksq B) <= contour m c A * (small * contour m c B))
        by (apply Rmult_le_compat; try lra; apply Rabs_pos).
      lra. }
    pose proof (Rabs_pos ((endTerm m c ksq A - endExact m c ksq A) * endTerm m c ksq B + endExact m c ksq A * (endTerm m c ksq B - endExact m c ksq B))) as AP.
    match goal with |- g * ?r <= _ => assert (g * r <= 1 * r) by (apply Rmult_le_compat_r; lra) end. lra.
Qed.
Lemma outer_sum : forall a, rsum n (fun A => rsum n (fun B => a * (contour m c A * contour m c B))) = a * segments m c ^ 2.
Proof.
  intros a. rewrite (rsum_ext n _ (fun A => (a * segments m c) * contour m c A)).
  - rewrite rsum_scal. fold (segments m c). unfold segments, n. ring.
  - intros A _. rewrite (rsum_ext n _ (fun B => (a * contour m c A) * contour m c B)) by (intros; ring). rewrite rsum_scal. unfold segments, n. ring.
Qed.
Lemma segments_pos : 0 < segments m c.
Proof. apply rsum_pos; apply HP. Qed.
Lemma chain_err : forall W, pairs m c ksq W ->
  Rabs (rsum n (fun A => rsum n (fun B => M A B)) - rsum n (fun A => rsum n (fun B => W A B))) <= 2 * small * segments m c ^ 2.
Proof.
  intros W HW. rewrite <- rsum_minus. eapply Rle_trans; [apply rsum_abs|]. rewrite <- outer_sum. apply rsum_le. intros A LA.
  rewrite <- rsum_minus. eapply Rle_trans; [apply rsum_abs|]. apply rsum_le. intros B LB. apply mat_err; auto.
Qed.
Lemma chain_range : 0 < rsum n (fun A => rsum n (fun B => M A B)) <= segments m c ^ 2.
Proof.
  split.
  - apply rsum_pos; [apply HP|]. intros A LA.
    assert (D : 0 < M A A). { unfold M, pairMat. rewrite Nat.eqb_refl. apply term_err; auto. apply HP; auto. }
    assert (G : forall q, (q <= n)%nat -> 0 <= rsum q (fun B => M A B) /\ ((A < q)%nat -> 0 < rsum q (fun B => M A B))).
    { induction q; intros Q; [cbn [rsum]; split; [lra|lia]|]. destruct (IHq ltac:(lia)) as [I1 I2]. cbn [rsum].
      pose proof (mat_range A q LA ltac:(lia)) as R1. split; [lra|]. intros L. destruct (Nat.eq_dec A q) as [<-|]; [lra|].
      specialize (I2 ltac:(lia)). lra. }
    apply (G n); auto.
  - rewrite <- (Rmult_1_l (segments m c ^ 2)), <- outer_sum. apply rsum_le. intros A LA. apply rsum_le. intros B LB.
    pose proof (mat_range A B LA LB). lra.
Qed.
End Species.

(** ** Whole systems *)
Lemma overChains_sum : forall fuel m v ksq cs x, (forall c, In c cs -> proper fuel m c) ->
  overChains fuel m v ksq cs x = Ok (x + lsum (fun c => c_phi c / (segments m c * v) *
    rsum (length (blocks c)) (fun A => rsum (length (blocks c)) (fun B => pairMat m fuel c ksq (diagTerm m c ksq) (endTerm m c ksq) A B))) cs).
Proof.
  induction cs as [|c cs IH]; intros x H; cbn [overChains lsum]; [f_equal; lra|].
  rewrite (chain_value fuel m v ksq c) by (apply H; left; auto). cbn [bind]. rewrite IH by (intros; apply H; right; auto). f_equal. lra.
Qed.
Lemma solvents_sum : forall v ss x, fold_left (fun x s => solventCorr v s x) ss x = x + lsum (fun s => s_phi s * s_size s / v) ss.
Proof. induction ss as [|s ss IH]; intros x; cbn [fold_left lsum]; [lra|]. rewrite IH. unfold solventCorr. lra. Qed.
Lemma intra_sum : forall fuel m v cs ss ksq, (forall c, In c cs -> proper fuel m c) ->
  intraCorrelation fuel m v cs ss ksq = Ok (lsum (fun c => c_phi c / (segments m c * v) *
    rsum (length (blocks c)) (fun A => rsum (length (blocks c)) (fun B => pairMat m fuel c ksq (diagTerm m c ksq) (endTerm m c ksq) A B))) cs
    + lsum (fun s => s_phi s * s_size s / v) ss).
Proof. intros. unfold intraCorrelation. rewrite overChains_sum by auto. cbn [bind]. rewrite solvents_sum. f_equal. lra. Qed.

(** ** Theorems *)

(** Two blocks of a branched polymer are joined by exactly one route. *)
Theorem C77_route : forall fuel es p A B, readGraph fuel es = Ok p -> (2 * length es <= fuel)%nat ->
  (A < length es)%nat -> (B < length es)%nat -> A <> B ->
  exists x l y, route es A B x l y /\ forall x' l' y', route es A B x' l' y' -> x' = x /\ l' = l /\ y' = y.
Proof.
  intros fuel es p A B HR HF LA LB NE. pose proof (polymer_accepted_is_tree _ _ _ HR) as T.
  destruct (route_exists es T A B LA LB NE) as (x & l & y & RT). exists x, l, y. split; auto.
  intros x' l' y' RT'. exact (route_unique es fuel p T HF HR A B x l y x' l' y' NE RT RT').
Qed.
(** The edge iterator visits the source and then the blocks between source and
    target, in order and each in the right direction, never throws, and stops. *)
Theorem C77_edges : forall fuel f es p A B x l y, readGraph fuel es = Ok p -> (2 * length es <= fuel)%nat ->
  A <> B -> (length es <= f)%nat -> route es A B x l y -> edges f p A B = Ok (x :: l).
Proof.
  intros fuel f es p A B x l y HR HF NE LF RT. pose proof (polymer_accepted_is_tree _ _ _ HR) as T.
  pose proof (route_short es fuel p T HF HR A B x l y RT NE). apply (edges_route es fuel p T HF HR A B x l y); auto. lia.
Qed.
(** A block is not joined to itself: the iterator refuses. *)
Theorem C77_edges_same : forall f p A, edges f p A A = Throw.
Proof. intros. unfold edges, begin. rewrite Nat.eqb_refl. reflexivity. Qed.

(** The code computes the exact correlation function at k = 0, and at every k that
    is not below the threshold for any block. *)
Theorem C77_exact : forall fuel m v cs ss ksq W,
  (forall c, In c cs -> proper fuel m c /\ pairs m c ksq (W c) /\
     (ksq = 0 \/ (0 <= ksq /\ forall j, (j < length (blocks c))%nat -> 1 / 100000 <= contour m c j * (ksq * c_kuhn c j ^ 2 / 6)))) ->
  intraCorrelation fuel m v cs ss ksq = Ok (exact m v W cs ss).
Proof.
  intros fuel m v cs ss ksq W H. rewrite intra_sum by (intros; apply H; auto). unfold exact. f_equal. f_equal.
  apply lsum_ext. intros c IN. destruct (H c IN) as (HP & HW & HS). unfold exactChain. f_equal. apply chain_exact; auto.
Qed.
(** For every k it is within 2e-5 of the value at k = 0. *)
Theorem C77_bound : forall fuel m v cs ss ksq W, 0 <= ksq -> 0 < v ->
  (forall c, In c cs -> proper fuel m c /\ pairs m c ksq (W c) /\ 0 <= c_phi c) ->
  exists s, intraCorrelation fuel m v cs ss ksq = Ok s /\
    Rabs (s - exact m v W cs ss) <= 2 / 100000 * lsum (fun c => c_phi c * segments m c / v) cs.
Proof.
  intros fuel m v cs ss ksq W Hk Hv H. rewrite intra_sum by (intros; apply H; auto). eexists. split; [reflexivity|]. unfold exact.
  match goal with |- Rabs (?a + ?b - (?a' + ?b)) <= _ => replace (a + b - (a' + b)) with (a - a') by ring end.
  induction cs as [|c cs IH]; cbn [lsum]; [rewrite Rminus_0_r, Rabs_R0; lra|].
  destruct (H c (or_introl eq_refl)) as (HP & HW & PH). specialize (IH (fun c' H' => H c' (or_intror H'))).
  pose proof (chain_err fuel m ksq c HP Hk (W c) HW) as E. pose proof (segments_pos fuel m c HP) as SP.
  match goal with |- Rabs (?a + ?b - (?a' + ?b')) <= _ => replace (a + b - (a' + b')) with ((a - a') + (b - b')) by ring end.
  eapply Rle_trans; [apply Rabs_triang|]. rewrite Rmult_plus_distr_l. apply Rplus_le_compat; [|exact IH]. unfold exactChain.
  rewrite <- Rmult_minus_distr_l, Rabs_mult. assert (SV : 0 < segments m c * v) by (apply Rmult_lt_0_compat; auto).
  assert (CP : 0 <= c_phi c / (segments m c * v)) by (apply Rmult_le_pos; [auto|left; apply Rinv_0_lt_compat; auto]).
  rewrite (Rabs_pos_eq _ CP). eapply Rle_trans; [apply Rmult_le_compat_l; [exact CP|exact E]|]. unfold small. right. field. lra.
Qed.
(** The value at k = 0 is the volume average of the number of segments. *)
Theorem C77_zero : forall fuel m v cs ss, v <> 0 -> (forall c, In c cs -> proper fuel m c) ->
  intraCorrelation fuel m v cs ss 0 = Ok ((lsum (fun c => c_phi c * segments m c) cs + lsum (fun s => s_phi s * s_size s) ss) / v).
Proof.
  intros fuel m v cs ss Hv H. rewrite intra_sum by auto. f_equal. unfold Rdiv. rewrite Rmult_plus_distr_r. f_equal.
  - rewrite Rmult_comm, <- lsum_scal. apply lsum_ext. intros c IN. pose proof (H c IN) as HP. pose proof (segments_pos fuel m c HP) as SP.
    rewrite (rsum_ext _ _ (fun A => rsum (length (blocks c)) (fun B => 1 * (contour m c A * contour m c B)))).
    + rewrite (outer_sum m c 1). field. split; [auto|lra].
    + intros A LA. apply rsum_ext. intros B LB. destruct HP as (_ & _ & _ & PL).
      destruct (term_zero m c 0 A (PL A LA) eq_refl) as (DA & EA & _). destruct (term_zero m c 0 B (PL B LB) eq_refl) as (_ & EB & _).
      unfold pairMat. destruct (Nat.eqb_spec A B) as [<-|NE]; [rewrite DA; ring|]. rewrite EA, EB.
      rewrite Rmult_0_r. unfold Rdiv. rewrite Rmult_0_l, exp_0. ring.
  - rewrite Rmult_comm, <- lsum_scal. apply lsum_ext. intros. ring.
Qed.
(** It is positive, so that the compressor can divide by it, and largest at k = 0. *)
Theorem C77_positive : forall fuel m v cs ss ksq, 0 <= ksq -> 0 < v -> cs <> [] ->
  (forall c, In c cs -> proper fuel m c /\ 0 < c_phi c) -> (forall s, In s ss -> 0 <= s_phi s * s_size s) ->
  exists s s0, intraCorrelation fuel m v cs ss ksq = Ok s /\ intraCorrelation fuel m v cs ss 0 = Ok s0 /\ 0 < s <= s0.
Proof.
  intros fuel m v cs ss ksq Hk Hv NE H HS. rewrite C77_zero by (try lra; intros; apply H; auto). rewrite intra_sum by (intros; apply H; auto).
  eexists. eexists. split; [reflexivity|]. split; [reflexivity|].
  assert (SS : 0 <= lsum (fun s => s_phi s * s_size s / v) ss /\ lsum (fun s => s_phi s * s_size s / v) ss = lsum (fun s => s_phi s * s_size s) ss / v).
  { clear - Hv HS. induction ss as [|s ss IH]; cbn [lsum]; [split; [lra|field; lra]|]. destruct IH as [I1 I2]; [intros; apply HS; right; auto|].
    split; [|rewrite I2; field; lra]. assert (0 <= s_phi s * s_size s / v) by (apply Rmult_le_pos; [apply HS; left; auto|left; apply Rinv_0_lt_compat; auto]). lra. }
  destruct SS as [S1 S2]. rewrite Rdiv_plus_distr, <- S2.
  match goal with |- 0 < ?a + _ <= ?b + _ => assert (G : (cs = [] \/ 0 < a) /\ a <= b) end.
  { clear NE S1 S2 HS. induction cs as [|c cs IH]; cbn [lsum]; [split; [auto|lra]|]. specialize (IH (fun c' H' => H c' (or_intror H'))).
    destruct (H c (or_introl eq_refl)) as [HP PH]. pose proof (segments_pos fuel m c HP) as SP.
    destruct (chain_range fuel m ksq c HP Hk) as [R1 R2]. assert (SV : 0 < segments m c * v) by (apply Rmult_lt_0_compat; auto).
    assert (CP : 0 < c_phi c / (segments m c * v)) by (apply Rmult_lt_0_compat; [auto|apply Rinv_0_lt_compat; auto]).
    match goal with |- (_ \/ 0 < ?p * ?q + ?r) /\ _ => assert (T1 : 0 < p * q) by (apply Rmult_lt_0_compat; auto);
      assert (T2 : p * q <= p * segments m c ^ 2) by (apply Rmult_le_compat_l; lra) end.
    assert (T3 : c_phi c / (segments m c * v) * segments m c ^ 2 = c_phi c * segments m c / v) by (field; lra).
    destruct IH as [I1 I2]. rewrite Rdiv_plus_distr. split; [right|lra].
    destruct I1 as [->|I1]; [cbn [lsum]; lra|lra]. }
  destruct G as [[G|G] G']; [contradiction|]. lra.
Qed.

(** The pair sums exist for every accepted graph (and are unique, [pairs_mat]). *)
Theorem C77_pairs_exist : forall fuel m c ksq, proper fuel m c -> exists W, pairs m c ksq W.
Proof.
  intros fuel m c ksq HP. pose proof (s_tree fuel m c HP) as T. pose proof (s_read fuel m c HP) as R. pose proof (s_fuel fuel m c HP) as F.
  exists (pairMat m fuel c ksq (diagExact m c ksq) (endExact m c ksq)). unfold pairs.
  destruct m; constructor.
  - intros A LA. unfold pairMat. rewrite Nat.eqb_refl. unfold diagExact, threadPair. apply RInt_ext. intros s _. apply RInt_ext. intros t _. f_equal. unfold rate. field.
  - intros A B x l y NE RT. unfold pairMat. apply Nat.eqb_neq in NE as NE'. rewrite NE', thread_factor.
    rewrite (gap_route (blocks c) Thread fuel c T R F A B x l y NE RT). unfold gapStart. rewrite Rplus_0_l. reflexivity.
  - intros A LA. unfold pairMat. rewrite Nat.eqb_refl. unfold diagExact, beadPair. apply rsum_ext. intros i _. apply rsum_ext. intros j _.
    rewrite absd_abs. f_equal. unfold rate. field.
  - intros A B x l y NE RT. unfold pairMat. apply Nat.eqb_neq in NE as NE'. rewrite NE', bead_factor.
    rewrite (gap_route (blocks c) Bead fuel c T R F A B x l y NE RT). reflexivity.
Qed.

(** ** A case: a comb polymer with five blocks *)
Definition combGraph : list (nat * nat) := [(0, 1); (2, 1); (1, 3); (4, 3); (3, 5)]%nat.
Definition combPolymer : polymer := match readGraph 20 combGraph with Ok p => p | _ => mkPolymer [] [] [] [] end.
Definition comb : chain := Chain combPolymer (fun j => INR (S j)) S (fun j => if Nat.even j then 1 else 2) 1.
Lemma comb_proper : forall m, proper 5 m comb.
Proof.
  intros m. assert (E : readGraph 20 combGraph = Ok combPolymer) by (vm_compute; reflexivity).
  split; [exists 20%nat, combGraph; split; [simpl; lia|exact E]|]. assert (B : blocks comb = combGraph) by (vm_compute; reflexivity).
  rewrite B. split; [simpl; lia|split; [simpl; lia|]]. intros j _. unfold contour, comb. cbn [c_length c_nBead]. destruct m; apply lt_0_INR; lia.
Qed.
Example C77_comb_edges : edges 5 combPolymer 3 1 = Ok [(3%nat, false); (2%nat, true)] /\ edges 5 combPolymer 4 0 = Ok [(4%nat, true); (2%nat, true)].
Proof. split; vm_compute; reflexivity. Qed.
Example C77_comb_route : route combGraph 3 1 (3%nat, false) [(2%nat, true)] (1%nat, true).
Proof.
  unfold route, chained, feeds, is_prop, s_start, s_end, s_edge. simpl. repeat split; try lia; try discriminate.
Qed.
Lemma comb_segments : forall m, segments m comb = 15.
Proof.
  intros m. unfold segments. assert (B : blocks comb = combGraph) by (vm_compute; reflexivity). rewrite B. unfold contour, comb, combGraph.
  destruct m; cbn [rsum length c_length c_nBead INR]; ring.
Qed.
(** A mixture of this polymer and a solvent at k = 0: 15 segments and 3 per molecule. *)
Example C77_comb_zero : intraCorrelation 5 Thread 1 [comb] [Small (1 / 2) 3] 0 = Ok (15 + 3 / 2).
Proof.
  rewrite C77_zero; [|lra|intros c [<-|[]]; apply comb_proper]. f_equal. cbn [lsum]. rewrite comb_segments.
  cbn [comb c_phi s_phi s_size]. field.
Qed.
(** The hypotheses of the exact theorem hold for k^2 = 1. *)
Example C77_comb_exact : forall m, exists W, intraCorrelation 5 m 1 [comb] [] 1 = Ok (exact m 1 W [comb] []).
Proof.
  intros m. destruct (C77_pairs_exist 5 m comb 1 (comb_proper m)) as [W HW]. exists (fun _ => W). apply C77_exact.
  intros c [<-|[]]. split; [apply comb_proper|]. split; [exact HW|]. right. split; [lra|]. intros j _.
  assert (H : 1 <= contour m comb j) by (unfold contour, comb; cbn [c_length c_nBead]; destruct m; rewrite S_INR; pose proof (pos_INR j); lra).
  assert (G : 1 / 6 <= 1 * c_kuhn comb j ^ 2 / 6) by (unfold comb; cbn [c_kuhn]; destruct (Nat.even j); simpl; lra).
  assert (1 * (1 / 6) <= contour m comb j * (1 * c_kuhn comb j ^ 2 / 6)) by (apply Rmult_le_compat; lra). lra.
Qed.

(** Disagreement: below the threshold the code is not exact (C54). *)
Definition stick : chain := Chain (match readGraph 20 [(0, 1)]%nat with Ok p => p | _ => mkPolymer [] [] [] [] end) (fun _ => 6) (fun _ => 6%nat) (fun _ => 1) 1.
Lemma stick_proper : proper 1 Thread stick.
Proof.
  assert (B : blocks stick = [(0, 1)]%nat) by (vm_compute; reflexivity).
  split; [exists 20%nat, [(0, 1)]%nat; split; [simpl; lia|vm_compute; reflexivity]|]. rewrite B. split; [simpl; lia|]. split; [simpl; lia|].
  intros j _. unfold contour, stick. cbn [c_length]. lra.
Qed.
Theorem C77_exact_refuted : exists fuel m v cs ss ksq W, 0 < ksq /\ 0 < v /\
  (forall c, In c cs -> proper fuel m c /\ pairs m c ksq (W c) /\ 0 < c_phi c) /\
  intraCorrelation fuel m v cs ss ksq <> Ok (exact m v W cs ss).
Proof.
  set (q := 8 / 1000000). destruct (C77_pairs_exist 1 Thread stick q stick_proper) as [W HW].
  exists 1%nat, Thread, 1, [stick], [], q, (fun _ => W). assert (Q : 0 < q) by (unfold q; lra). split; [auto|]. split; [lra|]. split.
  - intros c [<-|[]]. split; [apply stick_proper|]. split; [exact HW|]. unfold stick. cbn [c_phi]. lra.
  - rewrite intra_sum by (intros c [<-|[]]; apply stick_proper). intros E. injection E as E.
    assert (B : blocks stick = [(0, 1)]%nat) by (vm_compute; reflexivity).
    assert (WD : W 0%nat 0%nat = threadPair (rate q 1) 6).
    { rewrite (pairs_mat 1 Thread q stick stick_proper W 0 0 HW) by (rewrite B; simpl; lia). reflexivity. }
    unfold exact in E. cbn [lsum] in E. unfold exactChain in E.
    assert (SG : segments Thread stick = 6) by (unfold segments; rewrite B; unfold contour, stick; cbn; lra).
    rewrite B in E. cbn [length rsum] in E. rewrite SG, WD in E. unfold pairMat in E. cbn [Nat.eqb] in E.
    unfold diagTerm, blockLength, stick in E. cbn [c_length c_kuhn c_phi] in E.
    assert (R : rate q 1 = 8 / 6000000) by (unfold rate, q; cbn; field).
    assert (X : 6 * rate q 1 < small) by (rewrite R; unfold small; lra).
    pose proof (C54_dt_small_partial q 6 1 ltac:(lra) ltac:(lra) X) as D. cbn zeta in D. rewrite R in *. cbn [pow] in D. lra.
Qed.

Print Assumptions C77_route.
Print Assumptions C77_edges.
Print Assumptions C77_edges_same.
Print Assumptions C77_exact.
Print Assumptions C77_bound.
Print Assumptions C77_zero.
Print Assumptions C77_positive.
Print Assumptions C77_pairs_exist.
Print Assumptions C77_exact_refuted.
