(** C12 (one-dimensional solver), with the r1d parts of C10 and C14. *)
From Coq Require Import Reals ZArith List Bool Arith Lia Lra.
From Verif Require Import Base RSum Polymer PolymerSpec PolymerProofs PropsPolymer Solve SolveProofs
  Species Tridiag R1d R1dProofs.
Import ListNotations.
Local Open Scope R_scope.

(* ---------- contour discretization, r1d part of C14 ---------- *)

Lemma Int_part_bounds : forall x, IZR (Int_part x) <= x < IZR (Int_part x) + 1.
Proof. intros. destruct (base_Int_part x). lra. Qed.

Lemma r1dNs_cases : forall len dsT,
  let k := Int_part (len / dsT + 1/2) in
  exists m, r1dNs len dsT = (2 * m + 1)%Z /\ (k <= 2 * m <= k + 1)%Z.
Proof.
  intros len dsT k. unfold r1dNs, floorZ. fold k.
  assert (RM : forall z, (Z.rem z 2 =? 0)%Z = Z.even z).
  { intros z. apply eq_true_iff_eq. rewrite Z.eqb_eq, Z.even_spec.
    rewrite Z.rem_divide by lia. split; intros [y Hy]; exists y; lia. }
  rewrite RM. destruct (Z.even (k + 1)) eqn:E.
  - apply Z.even_spec in E. destruct E as [m Hm]. exists m. lia.
  - assert (O : Z.odd (k + 1) = true) by (rewrite <- Z.negb_even, E; auto).
    apply Z.odd_spec in O. destruct O as [m Hm]. exists m. lia.
Qed.

(** If the block is at least half a target step long, the number of contour
    points is odd, at least 3, and the steps add up to the block length. *)
Theorem r1d_discretization_partial : forall len dsT, 0 < dsT -> dsT / 2 <= len ->
  exists m, (1 <= m)%Z /\ r1dNs len dsT = (2 * m + 1)%Z /\
    IZR (2 * m) * r1dDs len dsT = len /\ 0 < r1dDs len dsT.
Proof.
  intros len dsT Hd HL. destruct (r1dNs_cases len dsT) as [m [E B]]. exists m.
  assert (K : (1 <= Int_part (len / dsT + 1/2))%Z).
  { assert (Q := Int_part_bounds (len / dsT + 1/2)).
    assert (1/2 <= len / dsT).
    { apply Rmult_le_reg_r with dsT; auto. replace (len / dsT * dsT) with len by (field; lra). lra. }
    assert (IZR 0 < IZR (Int_part (len / dsT + 1/2))) by (simpl; lra).
    apply lt_IZR in H0. lia. }
  split; [lia|]. split; auto. unfold r1dDs. rewrite E. replace (2 * m + 1 - 1)%Z with (2 * m)%Z by lia.
  assert (0 < IZR (2 * m)) by (apply (IZR_lt 0); lia).
  split; [field; lra|]. apply Rdiv_lt_0_compat; lra.
Qed.

(** Shorter blocks get a single contour point; the step would be length/0. *)
Theorem r1d_discretization_refuted :
  exists len dsT, 0 < len /\ 0 < dsT /\ r1dNs len dsT = 1%Z /\ IZR (r1dNs len dsT - 1) = 0.
Proof.
  assert (G : forall len dsT, 0 < len -> len < dsT / 2 -> r1dNs len dsT = 1%Z).
  { intros len dsT H1 H2. destruct (r1dNs_cases len dsT) as [m [E B]].
    assert (Q := Int_part_bounds (len / dsT + 1/2)).
    assert (0 < len / dsT < 1/2).
    { split; [apply Rdiv_lt_0_compat; lra|]. apply Rmult_lt_reg_r with dsT; [lra|].
      replace (len / dsT * dsT) with len by (field; lra). lra. }
    assert (Int_part (len / dsT + 1/2) = 0%Z).
    { assert (A1 : IZR (Int_part (len / dsT + 1/2)) < IZR 1) by (simpl; lra).
      assert (A2 : IZR (-1) < IZR (Int_part (len / dsT + 1/2))) by (simpl; lra).
      apply lt_IZR in A1. apply lt_IZR in A2. lia. }
    rewrite H0 in B. assert (m = 0)%Z by lia. subst; auto. }
  exists (1/10), 1. rewrite (G (1/10) 1) by lra. simpl. repeat split; lra.
Qed.

(** Exactly the short blocks are affected. *)
Theorem r1d_discretization_short_blocks : forall len dsT, 0 < len -> len < dsT / 2 ->
  r1dNs len dsT = 1%Z.
Proof.
  intros len dsT H1 H2. destruct (r1dNs_cases len dsT) as [m [E B]].
  assert (Q := Int_part_bounds (len / dsT + 1/2)).
  assert (0 < len / dsT < 1/2).
  { split; [apply Rdiv_lt_0_compat; lra|]. apply Rmult_lt_reg_r with dsT; [lra|].
    replace (len / dsT * dsT) with len by (field; lra). lra. }
  assert (Int_part (len / dsT + 1/2) = 0%Z).
  { assert (A1 : IZR (Int_part (len / dsT + 1/2)) < IZR 1) by (simpl; lra).
    assert (A2 : IZR (-1) < IZR (Int_part (len / dsT + 1/2))) by (simpl; lra).
    apply lt_IZR in A1. apply lt_IZR in A2. lia. }
  rewrite H0 in B. assert (m = 0)%Z by lia. subst; auto.
Qed.

(* ---------- mass conservation ---------- *)

Section M.
Variables (d : domain) (dsT : R) (bs : list rblock) (w : nat -> field) (es : list (nat * nat)).
Hypothesis HD : valid_domain d.
Hypothesis Hds : 0 < dsT.
Hypothesis HT : tree es.
Hypothesis HL : forall b, (b < length es)%nat -> dsT / 2 <= rb_length (blockAt bs b).
Hypothesis HP : forall b, (b < length es)%nat ->
  pivots_ok d (bDs dsT bs b) (rb_kuhn (blockAt bs b)) (w (rb_monomer (blockAt bs b))).

Lemma ns_nat : forall b, (b < length es)%nat -> (3 <= Z.to_nat (bNs dsT bs b))%nat.
Proof.
  intros b Hb. destruct (r1d_discretization_partial _ dsT Hds (HL b Hb)) as [m [A [B _]]].
  unfold bNs. rewrite B. lia.
Qed.

Lemma recip : reciprocal (r1dSlices d dsT bs w) es (d_nx d) (wtN d).
Proof.
  intros b Hb he te h h'. assert (N := ns_nat b Hb). unfold r1dSlices.
  rewrite !hd_nth0, !last_nth, !iterSlices_length, !nth_iterSlices by lia.
  assert (SA := step_selfadj d HD _ _ _ (HP b Hb)).
  split.
  - change (r1dStep d (bDs dsT bs b) (rb_kuhn (blockAt bs b)) (w (rb_monomer (blockAt bs b))))
      with (bStep d dsT bs w b) in SA.
    rewrite (iter_selfadj _ _ _ SA _ O h h'). rewrite Nat.add_0_r. reflexivity.
  - intros; reflexivity.
Qed.

Variables (fuel : nat) (p : polymer).
Hypothesis Hf : (2 * length es <= fuel)%nat.
Hypothesis HG : readGraph fuel es = Ok p.

Lemma solve_facts : exists st Q,
  solveAll (r1dSlices d dsT bs w) (fun _ => true) false es (p_vertices p) (p_plan p) = Ok st /\
  (forall x, is_prop es x -> r1dComputeQ d st x = Ok Q) /\
  (forall b, (b < length es)%nat -> exists h0 h1,
     st (b, false) = Some (r1dSlices d dsT bs w b (isHeadEnd es (p_vertices p) (b, false)) (isTailEnd es (p_vertices p) (b, false)) h0) /\
     st (b, true) = Some (r1dSlices d dsT bs w b (isHeadEnd es (p_vertices p) (b, true)) (isTailEnd es (p_vertices p) (b, true)) h1) /\
     forall j k, (j + k = Z.to_nat (bNs dsT bs b) - 1)%nat ->
       wavg (d_nx d) (wtN d) (Nat.iter j (bStep d dsT bs w b) h0) (Nat.iter k (bStep d dsT bs w b) h1) = Q).
Proof.
  destruct (solveAll_ok (r1dSlices d dsT bs w) (fun _ => true) false es fuel p HT eq_refl Hf HG)
    as [HV [_ [st [E S]]]].
  assert (HT' := HT). destruct HT' as [HW HC].
  set (Qx := fun x => wavg (d_nx d) (wtN d) (headF st x) (tailF st (partner x))).
  exists st, (Qx (O, false)). split; auto.
  assert (QS : forall x, is_prop es x -> Qx x = Qx (O, false)).
  { intros x Hx. unfold Qx.
    assert (H0 : is_prop es (O, false)) by (unfold is_prop in *; cbn [fst]; lia).
    eapply Q_same; eauto using recip. exact true. }
  split.
  - intros x Hx. unfold r1dComputeQ. destruct (S x Hx) as [h [E1 _]].
    destruct (S (partner x) Hx) as [h' [E2 _]]. rewrite E1, E2.
    unfold innerProduct, spatialAverage. rewrite (avgChecks_true d HD). cbn [check bind]. f_equal.
    rewrite (spatialAvg_wt d HD). rewrite <- (QS x Hx). unfold Qx, headF, tailF. rewrite E1, E2. reflexivity.
  - intros b Hb. destruct (S (b, false) Hb) as [h0 [E0 _]]. destruct (S (b, true) Hb) as [h1 [E1 _]].
    exists h0, h1. split; auto. split; auto. intros j k Hjk.
    assert (SA : forall f g, wavg (d_nx d) (wtN d) (bStep d dsT bs w b f) g = wavg (d_nx d) (wtN d) f (bStep d dsT bs w b g))
      by (apply (step_selfadj d HD _ _ _ (HP b Hb))).
    rewrite (iter_selfadj _ _ _ SA). rewrite Hjk.
    rewrite <- (QS (b, false) Hb). unfold Qx, headF, tailF, partner; cbn [fst snd negb].
    rewrite E0, E1. cbn [fst]. unfold r1dSlices. assert (N := ns_nat b Hb).
    rewrite hd_nth0, last_nth, iterSlices_length, !nth_iterSlices by lia. reflexivity.
Qed.

Lemma conc_avg : forall Q b h0 h1 pref, (b < length es)%nat ->
  (forall j k, (j + k = Z.to_nat (bNs dsT bs b) - 1)%nat ->
     wavg (d_nx d) (wtN d) (Nat.iter j (bStep d dsT bs w b) h0) (Nat.iter k (bStep d dsT bs w b) h1) = Q) ->
  spatialAvg d (r1dConc dsT bs b (r1dSlices d dsT bs w b false false h0) (r1dSlices d dsT bs w b false false h1) pref)
  = pref * rb_length (blockAt bs b) * Q.
Proof.
  clear fuel p Hf HG HT HP. intros Q b h0 h1 pref Hb HQ. unfold r1dConc.
  destruct (r1d_discretization_partial _ dsT Hds (HL b Hb)) as [m [A [B [C _]]]].
  assert (EN : Z.to_nat (bNs dsT bs b) = (2 * Z.to_nat m + 1)%nat) by (unfold bNs; rewrite B; lia).
  assert (Nm := ns_nat b Hb). set (ns := Z.to_nat (bNs dsT bs b)) in *.
  rewrite (spatialAvg_scal d HD).
  rewrite !(spatialAvg_plus d HD), (spatialAvg_rsum d HD).
  assert (G : forall j k, (j < ns)%nat -> (k < ns)%nat -> (j + k = ns - 1)%nat ->
     spatialAvg d (fun i => qAt (r1dSlices d dsT bs w b false false h0) j i
                          * qAt (r1dSlices d dsT bs w b false false h1) k i) = Q).
  { intros j k Hj Hk Hjk. rewrite (spatialAvg_wt d HD). unfold qAt, r1dSlices. fold ns.
    rewrite !nth_iterSlices by auto. apply HQ; auto. }
  rewrite (rsum_ext _ _ (fun _ => Q)).
  2:{ intros k Hk. apply G; lia. }
  rewrite rsum_const.
  assert (H0 : forall a c, (a < ns)%nat -> (c < ns)%nat -> (a + c = ns - 1)%nat ->
     spatialAvg d (fun i => 1/2 * qAt (r1dSlices d dsT bs w b false false h0) a i
                          * qAt (r1dSlices d dsT bs w b false false h1) c i) = Q * (1/2)).
  { intros a c Ha Hc Hac. rewrite <- (G a c Ha Hc Hac). rewrite <- (spatialAvg_scal d HD).
    unfold spatialAvg. rewrite !(avgSum_wt d HD). f_equal. apply rsum_ext. intros; lra. }
  rewrite !H0 by lia.
  unfold bDs. rewrite <- C at 2.
  replace (INR (ns - 2)) with (IZR (2 * m) - 1).
  2:{ rewrite INR_IZR_INZ. rewrite <- (minus_IZR (2 * m) 1). f_equal. lia. }
  set (D := r1dDs _ _). lra.
Qed.
End M.

(** C10 for r1d: after solve(), computeQ of every propagator gives the same
    number, and so does the product of the two propagators of any block at any
    contour point. *)
Theorem r1d_Q_independent_of_propagator : forall d dsT bs w es fuel p,
  valid_domain d -> 0 < dsT -> tree es -> (2 * length es <= fuel)%nat -> readGraph fuel es = Ok p ->
  (forall b, (b < length es)%nat -> dsT / 2 <= rb_length (blockAt bs b)) ->
  (forall b, (b < length es)%nat ->
     pivots_ok d (bDs dsT bs b) (rb_kuhn (blockAt bs b)) (w (rb_monomer (blockAt bs b)))) ->
  exists st Q,
    solveAll (r1dSlices d dsT bs w) (fun _ => true) false es (p_vertices p) (p_plan p) = Ok st /\
    (forall b dir, (b < length es)%nat -> r1dComputeQ d st (b, dir) = Ok Q) /\
    (forall b j, (b < length es)%nat -> (j < Z.to_nat (bNs dsT bs b))%nat ->
       exists l0 l1, st (b, false) = Some l0 /\ st (b, true) = Some l1 /\
         innerProduct d (qAt l0 j) (qAt l1 (Z.to_nat (bNs dsT bs b) - 1 - j)) = Ok Q).
Proof.
  intros d dsT bs w es fuel p HD Hds HT Hf HG HL HP.
  destruct (solve_facts d dsT bs w es HD Hds HT HL HP fuel p Hf HG) as [st [Q [E [F G]]]].
  exists st, Q. split; auto. split.
  - intros; apply F; auto.
  - intros b j Hb Hj. destruct (G b Hb) as [h0 [h1 [E0 [E1 H]]]].
    do 2 eexists. split; [exact E0|]. split; [exact E1|].
    unfold innerProduct, spatialAverage. rewrite (avgChecks_true d HD). cbn [check bind].
    rewrite (spatialAvg_wt d HD). f_equal. unfold qAt, r1dSlices.
    rewrite !nth_iterSlices by lia. apply H. lia.
Qed.

(** C12: compute() succeeds, and the spatial average of every block
    concentration is exactly that block's share of phi. *)
Theorem r1d_block_mass_conserved : forall d dsT bs w es fuel p s,
  valid_domain d -> 0 < dsT -> tree es -> es <> [] -> length bs = length es ->
  (2 * length es <= fuel)%nat -> readGraph fuel es = Ok p ->
  (forall b, (b < length es)%nat -> dsT / 2 <= rb_length (blockAt bs b)) ->
  (forall b, (b < length es)%nat ->
     pivots_ok d (bDs dsT bs b) (rb_kuhn (blockAt bs b)) (w (rb_monomer (blockAt bs b)))) ->
  exists s' c, r1dCompute d dsT bs w es p s = Ok (s', c) /\
    (sp_ens s = Closed -> sp_phi s' = sp_phi s) /\
    (sp_q s' <> 0 ->
      (forall b, (b < length es)%nat ->
         spatialAverage d (c b) = Ok (sp_phi s' * rb_length (blockAt bs b) / lsum rb_length bs)) /\
      rsum (length es) (fun b => spatialAvg d (c b)) = sp_phi s').
Proof.
  intros d dsT bs w es fuel p s HD Hds HT Hne Hlen Hf HG HL HP.
  destruct (solve_facts d dsT bs w es HD Hds HT HL HP fuel p Hf HG) as [st [Q [E [F G]]]].
  assert (L0 : (0 < length es)%nat) by (destruct es; simpl; [congruence|lia]).
  unfold r1dCompute. rewrite E. cbn [bind]. rewrite (F (O, false) L0). cbn [bind].
  do 2 eexists. split; [reflexivity|]. split.
  { unfold setQ. intros ->. reflexivity. }
  intros Hq.
  assert (EQ : sp_q (setQ s (Q / 1)) = Q) by (unfold setQ; destruct (sp_ens s); simpl; field).
  rewrite EQ in *.
  assert (LP : 0 < lsum rb_length bs).
  { assert (P : forall b, In b bs -> 0 < rb_length b).
    { intros b Hb. destruct (In_nth bs b (mkRBlock 0 0 0) Hb) as [i [Hi Ei]].
      specialize (HL i ltac:(lia)). unfold blockAt in HL. rewrite Ei in HL. lra. }
    destruct bs as [|b0 bs']; [simpl in Hlen; lia|]. simpl.
    assert (0 <= lsum rb_length bs').
    { assert (P' : forall b, In b bs' -> 0 < rb_length b) by (intros; apply P; simpl; auto).
      clear -P'. induction bs'; simpl; [lra|]. assert (0 < rb_length a) by (apply P'; simpl; auto).
      assert (0 <= lsum rb_length bs') by (apply IHbs'; intros; apply P'; simpl; auto). lra. }
    assert (0 < rb_length b0) by (apply P; simpl; auto). lra. }
  set (pref := sp_phi (setQ s (Q / 1)) / (Q * polyLength bs)).
  assert (A : forall b, (b < length es)%nat ->
     spatialAvg d (match st (b, false) with
            | Some l0 => match st (b, true) with Some l1 => r1dConc dsT bs b l0 l1 pref | None => zero_field end
            | None => zero_field end) = sp_phi (setQ s (Q / 1)) * rb_length (blockAt bs b) / lsum rb_length bs).
  { intros b Hb. destruct (G b Hb) as [h0 [h1 [E0 [E1 H]]]]. rewrite E0, E1.
    assert (CA := conc_avg d dsT bs w es HD Hds HL Q b h0 h1 pref Hb H). unfold r1dSlices in CA |- *.
    rewrite CA. unfold pref, polyLength. field. split; lra. }
  split.
  - intros b Hb. unfold spatialAverage. rewrite (avgChecks_true d HD). cbn [check bind].
    f_equal. apply A; auto.
  - rewrite (rsum_ext _ _ (fun b => sp_phi (setQ s (Q / 1)) / lsum rb_length bs * rb_length (blockAt bs b))).
    2:{ intros b Hb. rewrite A by auto. field. lra. }
    rewrite rsum_scal.
    assert (SL : rsum (length es) (fun b => rb_length (blockAt bs b)) = lsum rb_length bs).
    { rewrite <- Hlen. clear. unfold blockAt.
      induction bs as [|a bs IH]; [reflexivity|]. cbn [length]. rewrite rsum_S_first. simpl. rewrite <- IH. auto. }
    rewrite SL. field. lra.
Qed.

(** The pivot hypothesis holds whenever ds*w > -2 at all grid points. *)
Theorem r1d_pivots_sufficient : forall d ds kuhn w, valid_domain d -> 0 <= ds ->
  (forall i, (i < d_nx d)%nat -> -2 < ds * w i) -> pivots_ok d ds kuhn w.
Proof. intros. apply pivots_dominant; auto. Qed.

(** The four setters produce valid domains, and spatialAverage is an average:
    positive weights, constants are preserved. *)
Theorem r1d_domain_setters_valid : forall nx xMin xMax, (2 <= nx)%nat -> xMin < xMax ->
  valid_domain (setPlanar xMin xMax nx) /\
  (0 < xMin -> valid_domain (setShell Cylindrical xMin xMax nx) /\ valid_domain (setShell Spherical xMin xMax nx)) /\
  (0 < xMax -> valid_domain (setCylinder xMax nx) /\ valid_domain (setSphere xMax nx)).
Proof.
  intros nx xMin xMax Hn Hx. unfold valid_domain, setPlanar, setShell, setCylinder, setSphere; simpl.
  repeat split; intros; auto; try lra; congruence.
Qed.
Theorem r1d_spatialAverage_is_average : forall d, valid_domain d ->
  exists wt, (forall i, (i < d_nx d)%nat -> 0 < wt i) /\ rsum (d_nx d) wt = 1 /\
    forall f, spatialAverage d f = Ok (rsum (d_nx d) (fun i => wt i * f i)).
Proof.
  intros d HD. exists (wtN d). assert (P := avgNorm_pos d HD). split; [|split].
  - intros i _. unfold wtN. apply Rdiv_lt_0_compat; auto. apply wtRaw_pos; auto.
  - unfold wtN. unfold Rdiv. rewrite rsum_scal_r, <- (avgNorm_wt d HD). field. lra.
  - intros f. unfold spatialAverage. rewrite (avgChecks_true d HD). cbn [check bind]. f_equal.
    unfold spatialAvg. rewrite (avgSum_wt d HD). unfold wtN, Rdiv. rewrite <- rsum_scal_r.
    apply rsum_ext. intros; lra.
Qed.

(** C15 for the r1d solvent: the spatial average of its concentration is phi. *)
Theorem r1d_solvent_mean_concentration : forall d size s w, valid_domain d ->
  let (s', c) := r1dSolvent (spatialAvg d) size s w in
  spatialAverage d c = Ok (sp_phi s') /\ 0 < sp_q s' /\
  (forall i, c i = sp_phi s' / sp_q s' * exp (- size * w i)) /\
  (sp_ens s = Closed -> sp_phi s' = sp_phi s) /\
  (sp_ens s = Open -> sp_mu s' = sp_mu s /\ sp_phi s' = exp (sp_mu s) * sp_q s').
Proof.
  intros d size s w HD. unfold r1dSolvent. set (e := fun i => exp (- size * w i)).
  assert (QP : 0 < spatialAvg d e).
  { unfold spatialAvg. apply Rdiv_lt_0_compat; [|apply avgNorm_pos; auto].
    rewrite (avgSum_wt d HD). destruct HD as [Hn HD']. apply rsum_pos; [lia|].
    intros. apply Rmult_lt_0_compat; [apply wtRaw_pos; split; auto|apply exp_pos]. }
  assert (EQ : sp_q (setQ s (spatialAvg d e)) = spatialAvg d e) by (unfold setQ; destruct (sp_ens s); auto).
  split; [|split; [|split; [|split]]].
  - unfold spatialAverage. rewrite (avgChecks_true d HD). cbn [check bind]. f_equal.
    rewrite (spatialAvg_scal d HD).
    change (spatialAvg d e * (sp_phi (setQ s (spatialAvg d e)) / spatialAvg d e) = sp_phi (setQ s (spatialAvg d e))).
    generalize (sp_phi (setQ s (spatialAvg d e))). intros ph. field. lra.
  - rewrite EQ; auto.
  - intros i. rewrite EQ. unfold e. lra.
  - unfold setQ. intros ->. auto.
  - unfold setQ. intros ->. auto.
Qed.

(** Example: a star with three arms in a spherical shell satisfies all
    hypotheses. *)
Definition exStar : list (nat * nat) := [(0,1);(1,2);(3,1)]%nat.
Definition exBlocks : list rblock := [mkRBlock 1 1 0; mkRBlock (1/2) 2 1; mkRBlock 2 1 0].
Definition exW : nat -> field := fun m i => if (m =? 0)%nat then INR i else 1/2.
Example exStar_tree : tree exStar.
Proof.
  apply tree_by_parents with (par := fun v : nat => (match v with 1 => 0 | _ => 1 end)%nat).
  - repeat constructor; simpl; lia.
  - intros v Hv. simpl in Hv. destruct v as [|[|[|[|v]]]]; try lia; split; try lia; unfold adjacent, s_edge.
    + exists 0%nat; simpl; split; [lia|auto].
    + exists 1%nat; simpl; split; [lia|auto].
    + exists 2%nat; simpl; split; [lia|auto].
Qed.
Example r1d_example : exists p, readGraph 6 exStar = Ok p /\
  valid_domain (setShell Spherical 1 3 5) /\
  (forall b, (b < 3)%nat -> (1/10) / 2 <= rb_length (blockAt exBlocks b)) /\
  (forall b, (b < 3)%nat ->
     pivots_ok (setShell Spherical 1 3 5) (bDs (1/10) exBlocks b) (rb_kuhn (blockAt exBlocks b))
       (exW (rb_monomer (blockAt exBlocks b)))).
Proof.
  eexists. split; [vm_compute; reflexivity|].
  assert (V : valid_domain (setShell Spherical 1 3 5)).
  { apply (r1d_domain_setters_valid 5 1 3); [lia|lra|lra]. }
  assert (LL : forall b, (b < 3)%nat -> (1/10) / 2 <= rb_length (blockAt exBlocks b)).
  { intros b Hb. destruct b as [|[|[|b]]]; try lia; unfold blockAt; simpl; lra. }
  split; auto. split; auto. intros b Hb.
  destruct (r1d_discretization_partial _ (1/10) ltac:(lra) (LL b Hb)) as [m [_ [_ [_ P]]]].
  fold (bDs (1/10) exBlocks b) in P.
  apply r1d_pivots_sufficient; auto; [lra|].
  intros i _. assert (0 <= exW (rb_monomer (blockAt exBlocks b)) i).
  { unfold exW. destruct (_ =? _)%nat; [apply pos_INR|lra]. }
  assert (0 <= bDs (1/10) exBlocks b * exW (rb_monomer (blockAt exBlocks b)) i) by (apply Rmult_le_pos; lra). lra.
Qed.

Print Assumptions r1d_discretization_partial.
Print Assumptions r1d_discretization_refuted.
Print Assumptions r1d_discretization_short_blocks.
Print Assumptions r1d_Q_independent_of_propagator.
Print Assumptions r1d_block_mass_conserved.
Print Assumptions r1d_pivots_sufficient.
Print Assumptions r1d_domain_setters_valid.
Print Assumptions r1d_spatialAverage_is_average.
Print Assumptions r1d_solvent_mean_concentration.
