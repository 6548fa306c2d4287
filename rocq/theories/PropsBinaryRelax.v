(** Property C53: recovery of the relaxation iterator from a step that increases the
    error. *)
From Coq Require Import Reals List Arith Bool Lra Lia.
From Verif Require Import Base RSum BinaryRelax.
Import ListNotations.
Local Open Scope R_scope.

(** Specification.  The residuals of the self-consistent field equations of two monomer
    types, and their root mean square. *)
Definition residualSq (chi : R) (w c : fields) (i : nat) : R :=
  (c 0%nat i + c 1%nat i - 1) ^ 2 + ((c 0%nat i - c 1%nat i) / 2 - (w 1%nat i - w 0%nat i) / (2 * chi)) ^ 2.
Definition isError (nx : nat) (chi : R) (w c : fields) (e : R) : Prop :=
  0 <= e /\ e ^ 2 * INR nx = rsum nx (residualSq chi w c).
Definition errorOf (nx : nat) (chi : R) (w c : fields) : R := sqrt (rsum nx (residualSq chi w c) / INR nx).

Definition ens_dec (a b : ensemble) : {a = b} + {a <> b}.
Proof. decide equality. Defined.

Section Theorems.
Variable mix : fields -> fields.
Variable nx : nat.
Variable chi : R.
Hypothesis nx_pos : (0 < nx)%nat.
Hypothesis chi_nonzero : chi <> 0.

Lemma norm_error lp lm w c : snd (computeDW nx chi lp lm w c) = errorOf nx chi w c.
Proof.
  unfold computeDW, errorOf. cbn [snd]. f_equal. f_equal. rewrite <- rsum_plus. apply rsum_ext. intros i _.
  unfold residualSq, resPlus, resMinus. field. exact chi_nonzero.
Qed.
Lemma errorOf_isError w c : isError nx chi w c (errorOf nx chi w c).
Proof.
  assert (0 < INR nx) by (apply lt_0_INR; exact nx_pos).
  assert (0 <= rsum nx (residualSq chi w c)). { apply rsum_pos_le. intros. unfold residualSq. apply Rplus_le_le_0_compat; apply pow2_ge_0. }
  split; [apply sqrt_pos|]. unfold errorOf. cbn [pow]. rewrite Rmult_1_r, sqrt_sqrt; [field; lra|].
  apply Rmult_le_pos; [assumption|]. left. apply Rinv_0_lt_compat. assumption.
Qed.

(** The state of the iterator is coherent: c belongs to w, dWNorm_ to both. *)
Definition coherent (s : state) : Prop :=
  sC s = mix (sW s) /\ sNorm s = errorOf nx chi (sW s) (sC s).

Lemma start_coherent b lp lm w0 : coherent (start mix nx chi b lp lm w0).
Proof. unfold coherent, start. pose proof (norm_error lp lm (shiftLast nx b w0) (mix (shiftLast nx b w0))) as H. destruct (computeDW _ _ _ _ _ _). split; [reflexivity|exact H]. Qed.
Lemma fullStep_coherent b s : let t := fullStep mix nx chi b s in
  tW t = updateW nx b (sW s) (sDW s) /\ tC t = mix (tW t) /\ tNorm t = errorOf nx chi (tW t) (tC t) /\ tLp t = sLp s /\ tLm t = sLm s.
Proof.
  unfold fullStep. set (w := updateW nx b (sW s) (sDW s)). pose proof (norm_error (sLp s) (sLm s) w (mix w)) as H.
  destruct (computeDW _ _ _ _ _ _). cbn. repeat split; auto.
Qed.
(** The error recomputed by the loop is the error of the OLD fields, so that the loop
    ends after one pass. *)
Lemma decrease_once b k s t : coherent s -> sNorm s < tNorm t -> (0 < k)%nat ->
  exists t', decrease mix nx chi b k s t = t' /\ tNorm t' = sNorm s /\ tLp t' = tLp t / 2 /\ tLm t' = tLm t / 2.
Proof.
  intros [HC HN] Hlt Hk. destruct k as [|k]; [lia|]. cbn [decrease]. destruct (Rlt_dec (sNorm s) (tNorm t)); [|contradiction].
  pose proof (norm_error (tLp t * (1/2)) (tLm t * (1/2)) (sW s) (sC s)) as H. destruct (computeDW _ _ _ _ _ _) as [d n]. cbn [snd] in H.
  assert (n = sNorm s) by congruence.
  destruct k as [|k]; cbn [decrease].
  - eexists. split; [reflexivity|]. cbn. split; [assumption|]. lra.
  - destruct (Rlt_dec (sNorm s) _) as [L|NL]; [cbn in L; lra|]. eexists. split; [reflexivity|]. cbn. split; [assumption|]. lra.
Qed.

(** C53 does not hold in any state: whenever the full step increases the error, the
    iterator gives up, with the fields unchanged, whatever smaller steps would do. *)
Theorem C53_no_recovery : forall b epsilon m s, coherent s -> epsilon <= sNorm s ->
  sNorm s < tNorm (fullStep mix nx chi b s) ->
  exists s', iterate mix nx chi b epsilon (S m) s = (false, s') /\ sW s' = sW s /\ sC s' = sC s /\ sLp s' = sLp s / 2 /\ sLm s' = sLm s / 2.
Proof.
  intros b epsilon m s HC HE HL. cbn [iterate]. destruct (Rlt_dec (sNorm s) epsilon); [lra|].
  destruct (decrease_once b 3 s (fullStep mix nx chi b s) HC HL ltac:(lia)) as (t' & -> & HN & E1 & E2).
  destruct (Rlt_dec (tNorm t') (sNorm s)); [lra|]. eexists. split; [reflexivity|]. cbn.
  destruct (fullStep_coherent b s) as (_ & _ & _ & F1 & F2). rewrite E1, E2, F1, F2. auto.
Qed.

(** What does hold: success means a solution, and accepted steps lower the error. *)
Lemma step_coherent b s t : coherent s -> t = decrease mix nx chi b 3 s (fullStep mix nx chi b s) -> tNorm t < sNorm s ->
  t = fullStep mix nx chi b s.
Proof.
  intros HC -> Hlt. destruct (Rlt_dec (sNorm s) (tNorm (fullStep mix nx chi b s))) as [L|NL].
  - destruct (decrease_once b 3 s _ HC L ltac:(lia)) as (t' & E & HN & _). rewrite E in Hlt. lra.
  - cbn [decrease]. destruct (Rlt_dec (sNorm s) _); [contradiction|reflexivity].
Qed.
Lemma iterate_spec b epsilon m : forall s, coherent s -> let (ok, s') := iterate mix nx chi b epsilon m s in
  coherent s' /\ sNorm s' <= sNorm s /\ (ok = true -> sNorm s' < epsilon).
Proof.
  induction m as [|m IH]; intros s HC; cbn [iterate].
  - split; [exact HC|]. split; [lra|discriminate].
  - destruct (Rlt_dec (sNorm s) epsilon); [split; [exact HC|]; split; [lra|auto]|].
    destruct (Rlt_dec (tNorm _) (sNorm s)) as [L|NL].
    + pose proof (step_coherent b s _ HC eq_refl L) as EQ. rewrite EQ in L |- *. clear EQ. destruct (fullStep_coherent b s) as (F0 & F1 & F2 & _).
      set (t := fullStep mix nx chi b s) in *. set (s1 := mkState _ _ _ _ _ _).
      assert (HC1 : coherent s1) by (split; assumption). specialize (IH s1 HC1). destruct (iterate _ _ _ _ _ m s1) as [ok s'].
      destruct IH as (I1 & I2 & I3). split; [exact I1|]. split; [apply Rle_trans with (1 := I2); cbn [s1 sNorm]; apply Rlt_le, L|exact I3].
    + split; [|split; [cbn; lra|discriminate]]. destruct HC as [H1 H2]. split; assumption.
Qed.
Theorem C53_success : forall ens epsilon maxItr lp lm w0 s', solve mix nx chi ens epsilon maxItr lp lm w0 = Ok (true, s') ->
  sC s' = mix (sW s') /\ exists e, isError nx chi (sW s') (sC s') e /\ e < epsilon.
Proof.
  intros ens epsilon maxItr lp lm w0 s' H. unfold solve in H. destruct (canonicalOf ens) as [b| | |]; try discriminate. cbn [bind] in H. injection H as H.
  pose proof (iterate_spec b epsilon maxItr _ (start_coherent b lp lm w0)) as I. rewrite H in I. destruct I as ((I1 & I2) & _ & I3).
  split; [exact I1|]. exists (sNorm s'). split; [|apply I3; reflexivity]. rewrite I2. apply errorOf_isError.
Qed.
(** Whatever the result, the error is not larger than that of the initial fields. *)
Theorem C53_monotone : forall ens epsilon maxItr lp lm w0 b ok s', canonicalOf ens = Ok b -> solve mix nx chi ens epsilon maxItr lp lm w0 = Ok (ok, s') ->
  sC s' = mix (sW s') /\ errorOf nx chi (sW s') (sC s') <= errorOf nx chi (shiftLast nx b w0) (mix (shiftLast nx b w0)).
Proof.
  intros ens epsilon maxItr lp lm w0 b ok s' HB H. unfold solve in H. rewrite HB in H. cbn [bind] in H. injection H as H.
  pose proof (iterate_spec b epsilon maxItr _ (start_coherent b lp lm w0)) as I. rewrite H in I. destruct I as ((I1 & I2) & I3 & _).
  split; [exact I1|]. rewrite <- I2. destruct (start_coherent b lp lm w0) as [J1 J2]. rewrite J1 in J2. unfold start in *.
  destruct (computeDW nx chi lp lm (shiftLast nx b w0) (mix (shiftLast nx b w0))) as [d n]. cbn in *. rewrite <- J2. exact I3.
Qed.

(** The ensembles: refused if one is unknown; otherwise canonical (potentials fixed only
    up to a constant) exactly if all are closed. *)
Theorem C53_ensembles : forall ens,
  (In Unknown ens -> canonicalOf ens = Throw) /\
  (~ In Unknown ens -> In Open ens -> canonicalOf ens = Ok false) /\
  (~ In Unknown ens -> ~ In Open ens -> canonicalOf ens = Ok true).
Proof.
  induction ens as [|e ens (I1 & I2 & I3)]; [repeat split; intros; contradiction || reflexivity|].
  cbn [canonicalOf In]. destruct (in_dec ens_dec Unknown ens) as [U|NU]; destruct (in_dec ens_dec Open ens) as [O|NO];
  destruct e; cbn [check bind]; repeat split; intros; try reflexivity; try tauto;
  try (rewrite I1 by assumption; reflexivity); try (rewrite I2 by assumption; reflexivity); try (rewrite I3 by assumption; reflexivity);
  repeat match goal with H : _ \/ _ |- _ => destruct H end; try discriminate; try tauto.
Qed.
(** With closed ensembles the returned potential of the last monomer type vanishes at the
    last grid point, whatever the initial fields and the result. *)
Theorem C53_gauge : forall ens epsilon maxItr lp lm w0 ok s', ~ In Unknown ens -> ~ In Open ens ->
  solve mix nx chi ens epsilon maxItr lp lm w0 = Ok (ok, s') -> sW s' 1%nat (nx - 1)%nat = 0.
Proof.
  intros ens epsilon maxItr lp lm w0 ok s' HU HO H. unfold solve in H. destruct (C53_ensembles ens) as (_ & _ & HB). rewrite HB in H by assumption.
  cbn [bind] in H. injection H as H.
  assert (G : forall m s, sW s 1%nat (nx - 1)%nat = 0 -> sW (snd (iterate mix nx chi true epsilon m s)) 1%nat (nx - 1)%nat = 0).
  { assert (D : forall k s t, tW t 1%nat (nx - 1)%nat = 0 -> tW (decrease mix nx chi true k s t) 1%nat (nx - 1)%nat = 0).
    { induction k as [|k IH]; intros s t HT; cbn [decrease]; [exact HT|]. destruct (Rlt_dec _ _); [|exact HT].
      destruct (computeDW _ _ _ _ _ _) as [d n]. apply IH. cbn [tW]. unfold updateW, shiftLast. ring. }
    induction m as [|m IH]; intros s HS; cbn [iterate]; [exact HS|]. destruct (Rlt_dec _ _); [exact HS|].
    destruct (Rlt_dec _ _); [|exact HS]. apply IH. cbn [sW]. apply D. unfold fullStep.
    destruct (computeDW _ _ _ _ _ _) as [d n']. cbn [tW]. unfold updateW, shiftLast. ring. }
  pose proof (G maxItr (start mix nx chi true lp lm w0)) as K. rewrite H in K. apply K.
  unfold start. destruct (computeDW _ _ _ _ _ _) as [d n]. cbn [sW]. unfold shiftLast. ring.
Qed.
End Theorems.
Print Assumptions C53_ensembles.
Print Assumptions C53_gauge.
Print Assumptions C53_no_recovery.
Print Assumptions C53_success.
Print Assumptions C53_monotone.

(** The concrete failure: one grid point, chi = 1, closed ensemble, lambdaMinus = 3.  A
    homogeneous mixture has constant concentrations.  The full step doubles the error,
    half of it halves the error, and solve fails with the fields it started from. *)
Definition halfMix (_ : fields) : fields := fun _ _ => 1/2.
Definition w1 : fields := fun j _ => match j with O => 1 | _ => 0 end.
Theorem C53_refuted : exists s', solve halfMix 1 1 [Closed] (1/100) 100 0 3 w1 = Ok (false, s') /\
  (forall j, sW s' j 0%nat = w1 j 0%nat) /\
  (forall lm e, let w' := updateW 1 true w1 (fst (computeDW 1 1 0 lm w1 (halfMix w1))) in isError 1 1 w' (halfMix w') e -> e = Rabs (1 - lm) / 2) /\
  (forall e, isError 1 1 w1 (halfMix w1) e -> e = 1/2).
Proof.
  assert (ER : forall w e, isError 1 1 w (halfMix w) e -> e = Rabs (w 1%nat 0%nat - w 0%nat 0%nat) / 2).
  { intros w e [P E]. unfold residualSq, halfMix in E. cbn [rsum INR] in E.
    apply Rsqr_inj; [exact P| |].
    - pose proof (Rabs_pos (w 1%nat 0%nat - w 0%nat 0%nat)). lra.
    - unfold Rsqr. transitivity ((w 1%nat 0%nat - w 0%nat 0%nat) ^ 2 / 4); [|rewrite <- (pow2_abs (w 1%nat 0%nat - w 0%nat 0%nat)); field].
      replace (e * e) with (e ^ 2 * 1) by ring. rewrite E. field. }
  assert (EN : forall w, errorOf 1 1 w (halfMix w) = Rabs (w 1%nat 0%nat - w 0%nat 0%nat) / 2).
  { intros w. apply ER. apply errorOf_isError. lia. }
  set (s := start halfMix 1 1 true 0 3 w1).
  assert (HC : coherent halfMix 1 1 s) by (apply start_coherent; lra).
  assert (HW : forall j, sW s j 0%nat = w1 j 0%nat) by (intros [|j]; cbn; ring).
  assert (HN : sNorm s = 1/2).
  { destruct HC as [E1 E2]. rewrite E2, E1, EN, !HW. cbn. replace (0 - 1) with (-(1)) by ring. rewrite Rabs_Ropp, Rabs_R1. reflexivity. }
  destruct (C53_no_recovery halfMix 1 1 Nat.lt_0_1 R1_neq_R0 true (1/100) 99 s HC) as (s' & E & EW & _); [lra| |].
  - destruct (fullStep_coherent halfMix 1 1 R1_neq_R0 true s) as (F0 & F1 & F2 & _). rewrite F2, F1, EN, F0, HN.
    unfold updateW, shiftLast, s, start, computeDW, resPlus, resMinus, halfMix. cbn.
    match goal with |- _ < Rabs ?x / 2 => replace x with 2 by field end. rewrite Rabs_right; lra.
  - exists s'. split; [unfold solve; cbn [canonicalOf check bind]; f_equal; exact E|]. split; [intros j; rewrite EW; apply HW|]. split.
    + intros lm e w' H. apply ER in H. rewrite H. unfold w'. f_equal. unfold updateW, shiftLast, computeDW, resPlus, resMinus, halfMix, w1. cbn.
      rewrite <- Rabs_Ropp. f_equal. field.
    + intros e H. apply ER in H. rewrite H. cbn. replace (0 - 1) with (-(1)) by ring. rewrite Rabs_Ropp, Rabs_R1. reflexivity.
Qed.
Print Assumptions C53_refuted.

(** A case of success: with lambdaMinus = 1 the same problem is solved in one step. *)
Example C53_case : exists s', solve halfMix 1 1 [Closed] (1/100) 2 0 1 w1 = Ok (true, s').
Proof.
  unfold solve. cbn [canonicalOf check bind]. set (s := start halfMix 1 1 true 0 1 w1).
  assert (HN : sNorm s = 1/2).
  { unfold s, start, computeDW, resPlus, resMinus, halfMix, shiftLast, w1. cbn.
    match goal with |- sqrt ?x = _ => replace x with ((1/2) * (1/2)) by field end. apply sqrt_square. lra. }
  assert (HF : tNorm (fullStep halfMix 1 1 true s) = 0).
  { unfold fullStep, s, start, computeDW, resPlus, resMinus, halfMix, updateW, shiftLast, w1. cbn.
    match goal with |- sqrt ?x = _ => replace x with 0 by field end. apply sqrt_0. }
  cbn [iterate]. destruct (Rlt_dec (sNorm s) (1/100)); [lra|].
  assert (ED : decrease halfMix 1 1 true 3 s (fullStep halfMix 1 1 true s) = fullStep halfMix 1 1 true s).
  { cbn [decrease]. destruct (Rlt_dec (sNorm s) _); [lra|reflexivity]. }
  rewrite ED. destruct (Rlt_dec (tNorm _) (sNorm s)); [|lra]. cbn [sNorm]. destruct (Rlt_dec (tNorm _) (1/100)); [|lra].
  eexists. reflexivity.
Qed.
