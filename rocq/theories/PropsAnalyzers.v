(** Property C51: the schedule of analyzers. *)
From Coq Require Import List Arith Bool ZArith Lia.
From Verif Require Import Base Analyzers.
Import ListNotations.

(** The steps in a list at which an analyzer of a given interval has to sample. *)
Definition due (interval : Z) (steps : list nat) : list nat := filter (fun k => (Z.of_nat k mod interval =? 0)%Z) steps.
(** The samples taken by one analyzer, in order of time. *)
Definition taken (i : nat) (log : list (nat * nat)) : list nat := map snd (filter (fun e => fst e =? i) log).
Definition completed (conv : list bool) : nat := length (filter (fun b => b) conv).

Lemma taken_app i a b : taken i (a ++ b) = taken i a ++ taken i b.
Proof. unfold taken. rewrite filter_app, map_app. reflexivity. Qed.
Lemma rem_mod k b : (0 < b)%Z -> Z.rem (Z.of_nat k) b = (Z.of_nat k mod b)%Z.
Proof. intros H. apply Z.rem_mod_nonneg; lia. Qed.
Lemma taken_sampleAll ivs : forall i0 i iv k, Forall (fun z => (0 < z)%Z) ivs -> nth_error ivs i = Some iv ->
  taken (i0 + i) (sampleAll ivs i0 k) = due iv [k].
Proof.
  assert (lowest : forall l j i k, (j > i)%nat -> taken i (sampleAll l j k) = []).
  { induction l as [|z l IH]; intros j i k H; [reflexivity|]. cbn [sampleAll]. rewrite taken_app, IH by lia.
    destruct (_ =? 0)%Z; cbn; [|reflexivity]. unfold taken. cbn. destruct (Nat.eqb_spec j i); [lia|reflexivity]. }
  induction ivs as [|z l IH]; intros i0 i iv k F N; [destruct i; discriminate|].
  inversion F; subst. cbn [sampleAll]. rewrite taken_app. destruct i as [|i]; cbn in N.
  - inversion N; subst. rewrite Nat.add_0_r, lowest by lia. rewrite app_nil_r, rem_mod by auto. unfold due. cbn.
    destruct (_ =? 0)%Z; [|reflexivity]. unfold taken. cbn. rewrite Nat.eqb_refl. reflexivity.
  - replace (i0 + S i)%nat with (S i0 + i)%nat by lia. rewrite (IH _ _ iv) by auto.
    replace (taken _ _) with (@nil nat); [reflexivity|]. destruct (_ =? 0)%Z; [|reflexivity].
    unfold taken. cbn [filter fst map]. destruct (Nat.eqb_spec i0 (S i0 + i)); [lia|reflexivity].
Qed.

(** What reading guarantees. *)
Lemma readIntervals_ok base l : forall ivs, readIntervals base l = Ok ivs -> ivs <> [] ->
  (0 < base)%Z /\ Forall (fun z => (0 < z)%Z /\ (base | z)%Z) ivs.
Proof.
  induction l as [|g l IH]; intros ivs H NE; cbn in H; [inversion H; subst; congruence|].
  destruct (readInterval base g) as [z|?|?|] eqn:E; try discriminate. cbn in H.
  destruct (readIntervals base l) as [q|?|?|]; try discriminate. inversion H; subst; clear H.
  unfold readInterval in E. destruct (base =? 0)%Z eqn:B0; [discriminate|]. destruct (base <? 0)%Z eqn:B1; [discriminate|].
  cbn [negb check bind] in E. set (iv := match g with None => 1%Z | Some z => z end) in *.
  destruct (iv =? 0)%Z eqn:I0; [discriminate|]. destruct (iv <? 0)%Z eqn:I1; [discriminate|]. cbn [negb check bind] in E.
  destruct (Z.rem iv base =? 0)%Z eqn:R; [|discriminate]. cbn in E. inversion E; subst z; clear E.
  apply Z.eqb_neq in B0, I0. apply Z.ltb_ge in B1, I1. apply Z.eqb_eq in R.
  assert (D : (base | iv)%Z) by (apply Z.rem_divide; auto).
  split; [lia|]. constructor; [split; [lia|auto]|]. destruct q as [|z q]; [constructor|]. apply (IH _ eq_refl). discriminate.
Qed.
Lemma not_due base iv k : (0 < base)%Z -> (base | iv)%Z -> (0 < iv)%Z -> (Z.of_nat k mod base <> 0)%Z -> due iv [k] = [].
Proof.
  intros Hb [c Hc] Hi Hk. unfold due. cbn. destruct (Z.eqb_spec (Z.of_nat k mod iv) 0) as [E|]; [|reflexivity].
  exfalso. apply Hk. apply Z.mod_divide in E; [|lia]. destruct E as [m E]. apply Z.mod_divide; [lia|]. exists (m * c)%Z. rewrite E, Hc. ring.
Qed.

(** A sampling rule is correct if it succeeds and takes just the samples due. *)
Definition correct (smp : nat -> outcome (list (nat * nat))) (ivs : list Z) : Prop :=
  forall k, exists a, smp k = Ok a /\ forall i iv, nth_error ivs i = Some iv -> taken i a = due iv [k].
Lemma loop_correct smp ivs : correct smp ivs -> forall conv k, exists a,
  loop smp conv k = Ok (a, (k + completed conv)%nat) /\
  forall i iv, nth_error ivs i = Some iv -> taken i a = due iv (seq (S k) (completed conv)).
Proof.
  intros C. induction conv as [|b conv IH]; intros k.
  - exists []. cbn. rewrite Nat.add_0_r. split; reflexivity.
  - destruct b; cbn [loop].
    + destruct (C (S k)) as (a & E & T). destruct (IH (S k)) as (q & E2 & T2). rewrite E. cbn [bind]. rewrite E2. cbn [bind fst snd].
      exists (a ++ q). split; [unfold completed; cbn; repeat f_equal; lia|].
      intros i iv N. rewrite taken_app, (T i iv N), (T2 i iv N). unfold completed. cbn [filter length seq].
      unfold due. rewrite <- filter_app. reflexivity.
    + destruct (IH k) as (q & E2 & T2). exists q. split; [exact E2|exact T2].
Qed.
Lemma correct_step base ivs : (0 < base)%Z -> Forall (fun z => (0 < z)%Z /\ (base | z)%Z) ivs -> forall smp,
  (forall k, (Z.of_nat k mod base = 0)%Z -> ivs <> [] -> smp k = Ok (sampleAll ivs 0 k)) ->
  (forall k, (Z.of_nat k mod base <> 0)%Z \/ ivs = [] -> smp k = Ok []) -> correct smp ivs.
Proof.
  intros Hb F smp A B k. assert (FP : Forall (fun z => (0 < z)%Z) ivs) by (eapply Forall_impl; [|exact F]; cbn; tauto).
  destruct ivs as [|z l].
  { exists []. split; [apply B; auto|]. intros i iv N. destruct i; discriminate. }
  destruct (Z.eq_dec (Z.of_nat k mod base) 0) as [E|E].
  - eexists. split; [apply A; [exact E|discriminate]|]. intros i iv N. apply (taken_sampleAll (z :: l) 0 i iv k FP N).
  - exists []. split; [apply B; auto|]. intros i iv N. cbn [taken filter map]. symmetry.
    rewrite Forall_forall in F. destruct (F iv) as [P D]; [eapply nth_error_In; eauto|]. apply (not_due base); auto.
Qed.
Lemma seq_zero n : seq 0 (S n) = [0%nat] ++ seq 1 n. Proof. reflexivity. Qed.
Lemma sample_ok base ivs k : (0 < base)%Z -> (Z.of_nat k mod base = 0)%Z -> sample base ivs k = Ok (sampleAll ivs 0 k).
Proof.
  intros H E. unfold sample. rewrite rem_mod by auto. rewrite E. apply Z.ltb_lt in H. rewrite H. reflexivity.
Qed.

Lemma readManager_ok given l base ivs : readManager (Some (given, l)) = Ok (base, ivs) -> (0 < base)%Z \/ ivs <> [] ->
  (0 < base)%Z /\ Forall (fun z => (0 < z)%Z /\ (base | z)%Z) ivs.
Proof.
  intros E H. cbn in E. destruct (readIntervals _ l) as [q|?|?|] eqn:ER; try discriminate. cbn in E. inversion E; subst.
  destruct ivs as [|z q]; [destruct H; [split; [auto|constructor]|congruence]|]. apply (readIntervals_ok _ _ _ ER). discriminate.
Qed.
Lemma initial_taken ivs i iv : Forall (fun z => (0 < z)%Z) ivs -> nth_error ivs i = Some iv -> taken i (sampleAll ivs 0 0) = due iv [0%nat].
Proof. intros F N. apply (taken_sampleAll ivs 0 i iv 0 F N). Qed.

(** C51, Monte Carlo: with an AnalyzerManager block (that could be read; baseInterval
    positive if there are no analyzers) the simulation runs whatever the moves do, and
    every analyzer samples exactly at step 0 and at those completed steps that are
    multiples of its interval, once each and in order. *)
Theorem C51_mc : forall given l base ivs conv, readManager (Some (given, l)) = Ok (base, ivs) -> (0 < base)%Z \/ ivs <> [] ->
  exists log, mcRun base ivs conv = Ok (log, completed conv) /\
    forall i iv, nth_error ivs i = Some iv -> taken i log = due iv (seq 0 (S (completed conv))).
Proof.
  intros given l base ivs conv E H. destruct (readManager_ok _ _ _ _ E H) as [Hb F]. clear E H.
  assert (FP : Forall (fun z => (0 < z)%Z) ivs) by (eapply Forall_impl; [|exact F]; cbn; tauto).
  assert (C : correct (mcSample base ivs) ivs).
  { apply (correct_step base ivs Hb F); intros k; unfold mcSample; rewrite rem_mod by auto;
      (destruct (Z.eqb_spec base 0); [lia|cbn [negb]]).
    - intros E NE. rewrite E, Z.eqb_refl. destruct ivs; [congruence|]. cbn [length Nat.ltb Nat.leb]. apply sample_ok; auto.
    - intros [NE|NE]; [|rewrite NE; cbn; destruct (_ =? 0)%Z; reflexivity]. destruct (Z.eqb_spec (Z.of_nat k mod base) 0); [congruence|reflexivity]. }
  destruct (loop_correct _ _ C conv 0) as (a & E & T). unfold mcRun. rewrite (sample_ok base ivs 0 Hb) by (apply Z.mod_0_l; lia).
  cbn [bind]. rewrite E. cbn [bind fst snd]. eexists. split; [reflexivity|]. intros i iv N.
  rewrite taken_app, seq_zero. unfold due. rewrite filter_app. f_equal; [apply initial_taken; auto|apply T; auto].
Qed.
Print Assumptions C51_mc.
(** C51, Brownian dynamics. *)
Theorem C51_bd : forall given l base ivs conv, readManager (Some (given, l)) = Ok (base, ivs) ->
  exists log, bdRun base ivs conv = Ok (log, completed conv) /\
    forall i iv, nth_error ivs i = Some iv -> taken i log = due iv (seq 0 (S (completed conv))).
Proof.
  intros given l base ivs conv E. destruct ivs as [|z q] eqn:EV.
  { assert (C : correct (bdSample base []) []).
    { intros k. exists []. split; [unfold bdSample; cbn; destruct (negb _); reflexivity|]. intros [] ? ?; discriminate. }
    destruct (loop_correct _ _ C conv 0) as (a & EE & T). unfold bdRun. cbn [length Nat.ltb Nat.leb bind]. rewrite EE. cbn [bind fst snd].
    eexists. split; [reflexivity|]. intros [] ? ?; discriminate. }
  destruct (readManager_ok _ _ _ _ E) as [Hb F]; [right; discriminate|]. clear E. rewrite <- EV in *. assert (NEV : ivs <> []) by (rewrite EV; discriminate).
  assert (LE : (0 <? length ivs)%nat = true) by (rewrite EV; reflexivity). clear EV.
  assert (FP : Forall (fun z => (0 < z)%Z) ivs) by (eapply Forall_impl; [|exact F]; cbn; tauto).
  assert (C : correct (bdSample base ivs) ivs).
  { apply (correct_step base ivs Hb F); intros k; unfold bdSample; rewrite rem_mod by auto;
      (destruct (Z.eqb_spec base 0); [lia|cbn [negb]]); rewrite LE.
    - intros E NE. rewrite E, Z.eqb_refl. apply sample_ok; auto.
    - intros [NE|NE]; [|congruence]. destruct (Z.eqb_spec (Z.of_nat k mod base) 0); [congruence|reflexivity]. }
  destruct (loop_correct _ _ C conv 0) as (a & E & T). unfold bdRun. rewrite LE, (sample_ok base ivs 0 Hb) by (apply Z.mod_0_l; lia).
  cbn [bind]. rewrite E. cbn [bind fst snd]. eexists. split; [reflexivity|]. intros i iv N.
  rewrite taken_app, seq_zero. unfold due. rewrite filter_app. f_equal; [apply initial_taken; auto|apply T; auto].
Qed.
Print Assumptions C51_bd.
(** Without an AnalyzerManager block a Brownian dynamics simulation runs ... *)
Theorem C51_bd_no_analyzers : forall base ivs conv, readManager None = Ok (base, ivs) -> bdRun base ivs conv = Ok ([], completed conv).
Proof.
  intros base ivs conv E. inversion E; subst. unfold bdRun. cbn [length Nat.ltb Nat.leb bind].
  assert (L : forall k, loop (bdSample 0 []) conv k = Ok ([], (k + completed conv)%nat)).
  { induction conv as [|[] conv IH]; intros k; cbn [loop].
    - rewrite Nat.add_0_r. reflexivity.
    - cbn [bdSample Z.eqb negb bind]. rewrite IH. cbn. unfold completed. cbn. repeat f_equal; lia.
    - apply IH. }
  rewrite L. reflexivity.
Qed.
Print Assumptions C51_bd_no_analyzers.
(** ... but every Monte Carlo simulation stops with an error before its first move. *)
Theorem C51_mc_no_analyzers_refuted : exists base ivs, readManager None = Ok (base, ivs) /\ forall conv, mcRun base ivs conv = Throw.
Proof. exists 0%Z, []. split; reflexivity. Qed.
Print Assumptions C51_mc_no_analyzers_refuted.

(** Analysis of a trajectory of n frames, baseInterval 1: every analyzer samples at
    just those frames from min to max that are multiples of its interval. *)
Theorem C51_analyze : forall l ivs min max n, readManager (Some (None, l)) = Ok (1%Z, ivs) -> ivs <> [] -> (min <= max)%nat ->
  exists log, analyze 1 ivs (Z.of_nat min) (Z.of_nat max) n = Ok log /\
    forall i iv, nth_error ivs i = Some iv ->
      taken i log = due iv (filter (fun k => (min <=? k) && (k <=? max)) (seq 0 n)).
Proof.
  intros l ivs mn mx n E NE HM. destruct (readManager_ok _ _ _ _ E) as [_ F]; [auto|].
  assert (FP : Forall (fun z => (0 < z)%Z) ivs) by (eapply Forall_impl; [|exact F]; cbn; tauto).
  assert (L : forall n k, exists log, analyzeLoop 1 ivs (Z.of_nat mn) (Z.of_nat mx) n k = Ok log /\
    forall i iv, nth_error ivs i = Some iv -> taken i log = due iv (filter (fun k => (mn <=? k) && (k <=? mx)) (seq k n))).
  { clear n. induction n as [|n IH]; intros k; [exists []; split; reflexivity|]. cbn [analyzeLoop seq filter].
    destruct (Z.leb_spec (Z.of_nat k) (Z.of_nat mx)) as [HK|HK].
    - destruct (IH (S k)) as (log & EL & T). rewrite EL. replace (k <=? mx) with true by (symmetry; apply Nat.leb_le; lia). rewrite andb_true_r.
      destruct (Z.leb_spec (Z.of_nat mn) (Z.of_nat k)) as [HN|HN].
      + rewrite sample_ok by (try lia; apply Z.mod_1_r). cbn [bind]. eexists. split; [reflexivity|]. intros i iv N.
        replace (mn <=? k) with true by (symmetry; apply Nat.leb_le; lia). rewrite taken_app, (T i iv N).
        pose proof (taken_sampleAll ivs 0 i iv k FP N) as TS. cbn [Nat.add] in TS. rewrite TS. unfold due. rewrite <- filter_app. reflexivity.
      + cbn [bind]. exists log. split; [reflexivity|]. intros i iv N. replace (mn <=? k) with false by (symmetry; apply Nat.leb_gt; lia). apply T, N.
    - exists []. split; [reflexivity|]. intros i iv N. cbn [taken filter map].
      replace (k <=? mx) with false by (symmetry; apply Nat.leb_gt; lia). rewrite andb_false_r.
      replace (filter _ (seq (S k) n)) with (@nil nat); [reflexivity|].
      assert (G : forall m j, (mx < j)%nat -> @nil nat = filter (fun k => (mn <=? k) && (k <=? mx)) (seq j m)).
      { induction m; intros j Hj; [reflexivity|]. cbn. replace (j <=? mx) with false by (symmetry; apply Nat.leb_gt; lia). rewrite andb_false_r. apply IHm. lia. }
      apply G. lia. }
  unfold analyze. replace (0 <=? Z.of_nat mn)%Z with true by (symmetry; apply Z.leb_le; lia).
  replace (Z.of_nat mn <=? Z.of_nat mx)%Z with true by (symmetry; apply Z.leb_le; lia).
  destruct ivs as [|z q]; [congruence|]. cbn [length Nat.ltb Nat.leb Z.ltb Z.compare check bind]. apply L.
Qed.
Print Assumptions C51_analyze.
(** With any larger baseInterval every analysis of two or more successive frames stops
    with an error, although all intervals are multiples of it. *)
Theorem C51_analyze_base_refuted : forall base ivs n, (1 < base)%Z -> (2 <= n)%nat -> ivs <> [] ->
  analyze base ivs 0 1 n = Throw.
Proof.
  intros base ivs n Hb Hn NE. unfold analyze. replace (0 <? base)%Z with true by (symmetry; apply Z.ltb_lt; lia).
  destruct ivs as [|z q]; [congruence|]. cbn [length Nat.ltb Nat.leb Z.leb Z.compare check bind].
  destruct n as [|[|n]]; try lia. cbn [analyzeLoop]. cbn [Z.of_nat Z.leb Z.compare].
  rewrite (sample_ok base _ 0) by (cbn [Z.of_nat]; rewrite ?Z.mod_0_l by lia; lia). cbn [bind].
  change (Z.of_nat 1) with 1%Z. cbn [Z.leb Z.compare Pos.compare Pos.compare_cont]. unfold sample.
  rewrite rem_mod by lia. change (Z.of_nat 1) with 1%Z. rewrite Z.mod_1_l by lia.
  replace (0 <? base)%Z with true by (symmetry; apply Z.ltb_lt; lia). reflexivity.
Qed.
Print Assumptions C51_analyze_base_refuted.

Example C51_case : readManager (Some (Some 2%Z, [Some 4%Z; Some 2%Z])) = Ok (2%Z, [4%Z; 2%Z]) /\
  mcRun 2 [4; 2]%Z [true; true; false; true; true; true] = Ok ([(0, 0); (1, 0); (1, 2); (0, 4); (1, 4)]%nat, 5%nat) /\
  due 4 (seq 0 6) = [0; 4]%nat.
Proof. repeat split. Qed.
Example C51_case2 : readManager (Some (None, [Some 3%Z; None])) = Ok (1%Z, [3%Z; 1%Z]) /\
  analyze 1 [3; 1]%Z 1 3 9 = Ok [(1, 1); (1, 2); (0, 3); (1, 3)]%nat.
Proof. split; reflexivity. Qed.
