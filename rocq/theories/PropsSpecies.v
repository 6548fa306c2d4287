(** C15: species ensembles. *)
From Coq Require Import Reals List Lra Lia.
From Verif Require Import Base RSum Species.
Import ListNotations.
Local Open Scope R_scope.

(** Invariants of every accepted call sequence. *)
Lemma sp_apply_ens : forall s c s', sp_apply s c = Ok s' -> sp_ens s' = sp_ens s.
Proof.
  intros s c s' H. destruct c; simpl in H.
  - unfold setPhi in H. destruct (sp_ens s); try discriminate.
    destruct (Rle_dec 0 v), (Rle_dec v 1); inversion H; auto.
  - unfold setMu in H. destruct (sp_ens s); inversion H; auto.
  - inversion H. unfold setQ. destruct (sp_ens s); auto.
Qed.

(** The ensemble never changes; a closed species keeps phi in [0,1]. *)
Theorem species_calls_keep_ensemble_and_range : forall l s s', sp_run s l = Ok s' ->
  sp_ens s' = sp_ens s /\
  (sp_ens s = Closed -> 0 <= sp_phi s <= 1 -> 0 <= sp_phi s' <= 1).
Proof.
  induction l as [|c l IH]; intros s s' H; simpl in H.
  - inversion H; auto.
  - destruct (sp_apply s c) as [s1| | |] eqn:E; try discriminate. simpl in H.
    assert (E1 := sp_apply_ens _ _ _ E). destruct (IH _ _ H) as [A B]. split; [congruence|].
    intros C R0. apply B; [congruence|]. destruct c; simpl in E.
    + unfold setPhi in E. rewrite C in E. destruct (Rle_dec 0 v), (Rle_dec v 1); inversion E; simpl; lra.
    + unfold setMu in E. rewrite C in E. discriminate.
    + inversion E. unfold setQ. rewrite C. simpl. auto.
Qed.

(** After any accepted sequence that ends with setQ q, with q > 0: closed, phi > 0:
    mu = log(phi/q) and phi = exp(mu) q; phi untouched by setQ.  Open: the same
    relations hold and mu is untouched. *)
Theorem species_setQ_consistent : forall l s s0 q, sp_run s l = Ok s0 -> 0 < q ->
  (sp_ens s = Closed -> 0 < sp_phi s0) ->
  exists s', sp_run s (l ++ [CQ q]) = Ok s' /\
    sp_q s' = q /\ sp_mu s' = ln (sp_phi s' / q) /\ sp_phi s' = exp (sp_mu s') * q /\
    (sp_ens s = Closed -> sp_phi s' = sp_phi s0) /\
    (sp_ens s = Open -> sp_mu s' = sp_mu s0).
Proof.
  intros l s s0 q H Hq Hphi.
  assert (E : sp_ens s0 = sp_ens s) by (apply (species_calls_keep_ensemble_and_range _ _ _ H)).
  exists (setQ s0 q). split.
  - revert s H E Hphi. induction l as [|c l IH]; intros s H E Hphi; simpl in H |- *.
    + inversion H; subst. reflexivity.
    + destruct (sp_apply s c) as [s1| | |] eqn:E1; try discriminate. simpl in *.
      assert (E2 := sp_apply_ens _ _ _ E1). apply IH; auto; [congruence|]. intros; apply Hphi; congruence.
  - unfold setQ. rewrite E. destruct (sp_ens s); simpl.
    + assert (P : 0 < sp_phi s0) by auto.
      repeat split; auto; try discriminate.
      rewrite exp_ln; [field; lra|]. apply Rdiv_lt_0_compat; auto.
    + repeat split; auto; try discriminate.
      replace (exp (sp_mu s0) * q / q) with (exp (sp_mu s0)) by (field; lra). rewrite ln_exp; auto.
Qed.

(** Setting the variable of the other ensemble, or a phi out of range, raises an
    error; otherwise exactly that variable is assigned. *)
Theorem species_setters : forall s v,
  (sp_ens s = Open -> setPhi s v = Throw) /\
  (sp_ens s = Closed -> setMu s v = Throw) /\
  (sp_ens s = Closed -> ~ (0 <= v <= 1) -> setPhi s v = Throw) /\
  (sp_ens s = Closed -> 0 <= v <= 1 -> setPhi s v = Ok (mkSpecies Closed v (sp_mu s) (sp_q s))) /\
  (sp_ens s = Open -> setMu s v = Ok (mkSpecies Open (sp_phi s) v (sp_q s))).
Proof.
  intros s v. unfold setPhi, setMu. repeat split; intros E; try rewrite E; auto;
    destruct (Rle_dec 0 v), (Rle_dec v 1); intros; auto; try lra; tauto.
Qed.

(** readParameters does not test the range: a closed species with phi outside
    [0,1] can be created from a parameter file. *)
Theorem species_read_phi_in_range_refuted :
  exists v, let s := readSpecies newSpecies (inl v) in sp_ens s = Closed /\ ~ (0 <= sp_phi s <= 1).
Proof. exists 2. simpl. split; auto. lra. Qed.

(** Solvents: the mean concentration is phi (times the occupied fraction). *)
Theorem rpc_solvent_mean_concentration : forall nx size s w phiTot,
  (0 < nx)%nat -> 0 < phiTot ->
  let (s', c) := rpcSolvent nx size s w phiTot in
  rsum nx c / INR nx = sp_phi s' * phiTot /\ 0 < sp_q s' /\
  (forall i, c i = sp_phi s' / sp_q s' * exp (- size * w i)) /\
  (sp_ens s = Closed -> sp_phi s' = sp_phi s) /\
  (sp_ens s = Open -> sp_mu s' = sp_mu s /\ sp_phi s' = exp (sp_mu s) * sp_q s').
Proof.
  intros nx size s w phiTot Hn Hp. unfold rpcSolvent.
  set (e := fun i => exp (- size * w i)). set (Q := rsum nx e / INR nx / phiTot).
  assert (N0 : 0 < INR nx) by (apply lt_0_INR; auto).
  assert (P : 0 < rsum nx e) by (apply rsum_pos; auto; intros; apply exp_pos).
  assert (QP : 0 < Q) by (unfold Q; repeat apply Rdiv_lt_0_compat; auto).
  assert (EQ : sp_q (setQ s Q) = Q) by (unfold setQ; destruct (sp_ens s); auto).
  split; [|split; [|split; [|split]]].
  - rewrite (rsum_scal_r nx _ e). generalize (sp_phi (setQ s Q)). intros ph. unfold Q. field. repeat split; lra.
  - rewrite EQ; auto.
  - intros i. rewrite EQ. unfold e. lra.
  - unfold setQ. intros ->. auto.
  - unfold setQ. intros ->. auto.
Qed.

Example rpc_solvent_example :
  let (s', c) := rpcSolvent 4 1 (readSpecies newSpecies (inl (1/2))) (fun i => INR i) 1 in
  sp_ens s' = Closed /\ rsum 4 c / INR 4 = 1/2.
Proof.
  assert (H := rpc_solvent_mean_concentration 4 1 (readSpecies newSpecies (inl (1/2))) (fun i => INR i) 1 ltac:(lia) ltac:(lra)).
  destruct (rpcSolvent 4 1 _ _ 1) as [s' c] eqn:E. destruct H as [H1 [_ [_ [H2 _]]]].
  unfold rpcSolvent in E. inversion E; subst. split; auto. rewrite H1. simpl. lra.
Qed.

Example sp_run_example :
  exists s', sp_run (readSpecies newSpecies (inl (1/2))) [CQ 3; CPhi (1/4); CQ 2] = Ok s' /\
    sp_phi s' = 1/4 /\ sp_mu s' = ln (1/4/2).
Proof.
  simpl. unfold setPhi; simpl. destruct (Rle_dec 0 (1/4)); [|lra]. destruct (Rle_dec (1/4) 1); [|lra].
  simpl. eexists; repeat split.
Qed.

Print Assumptions species_calls_keep_ensemble_and_range.
Print Assumptions species_setQ_consistent.
Print Assumptions species_setters.
Print Assumptions species_read_phi_in_range_refuted.
Print Assumptions rpc_solvent_mean_concentration.
