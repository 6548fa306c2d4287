(** Proofs about the host side of the reductions: execution configuration, the
    size of the grid, the loop over launches. *)
From Coq Require Import ZArith List Bool Arith Lia Permutation.
From Verif Require Import Base GpuThreads GpuReduce GpuReduceProofs.
Import ListNotations.
Local Open Scope Z_scope.

(** ** Execution configuration *)

Lemma pow2_of_land : forall n, 0 < n -> Z.land n (n - 1) = 0 ->
  exists k, 0 <= k /\ n = 2 ^ k.
Proof.
  intros n Hn Hl. exists (Z.log2 n). split; [apply Z.log2_nonneg|].
  destruct (Z.log2_spec n Hn) as [H1 H2].
  destruct (Z.eq_dec n (2 ^ Z.log2 n)) as [E|E]; auto. exfalso.
  assert (H3 : 2 ^ Z.log2 n <= n - 1 < 2 ^ Z.succ (Z.log2 n)) by lia.
  assert (H4 : Z.log2 (n - 1) = Z.log2 n).
  { apply Z.log2_unique; auto. apply Z.log2_nonneg. }
  assert (H5 : Z.testbit (Z.land n (n - 1)) (Z.log2 n) = true).
  { rewrite Z.land_spec, Z.bit_log2 by auto. rewrite <- H4 at 1. cbn [andb].
    apply Z.bit_log2. pose proof (Z.pow_pos_nonneg 2 (Z.log2 n) ltac:(lia) (Z.log2_nonneg n)).
    lia. }
  rewrite Hl, Z.bits_0 in H5. discriminate.
Qed.

Lemma setThreadsPerBlock_ok : forall dev n st st',
  warpSize dev = 32 -> setThreadsPerBlock dev n st = Ok st' ->
  st' = mark dev n st /\ exists j, n = 32 * 2 ^ Z.of_nat j.
Proof.
  intros dev n st st' Hw H. unfold setThreadsPerBlock, checkExecutionConfig in H.
  cbn [mark maxT warp] in H. rewrite Hw in H.
  destruct (Z.land n (n - 1) =? 0) eqn:E1; [|discriminate].
  change (32 =? 0) with false in H. cbn [negb] in H.
  destruct (Z.rem n 32 =? 0) eqn:E2; [|discriminate].
  destruct (n =? 0) eqn:E3; [discriminate|].
  cbn [negb bind] in H. injection H as <-. split; auto.
  apply Z.eqb_eq in E1, E2. apply Z.eqb_neq in E3.
  assert (Hp : 0 < n).
  { destruct (Z.lt_ge_cases n 0) as [Hl|Hl]; [|lia].
    assert (K : Z.land n (n - 1) < 0) by (apply Z.land_neg; lia). lia. }
  destruct (pow2_of_land n Hp E1) as (k & Hk & ->).
  assert (Hk5 : 5 <= k).
  { destruct (Z.lt_ge_cases k 5) as [Hl|Hl]; auto. exfalso.
    rewrite Z.rem_mod_nonneg in E2 by lia.
    assert (K : 2 ^ k < 2 ^ 5) by (apply Z.pow_lt_mono_r; lia).
    change (2 ^ 5) with 32 in K. rewrite Z.mod_small in E2 by lia. lia. }
  exists (Z.to_nat (k - 5)). rewrite Z2Nat.id by lia. change 32 with (2 ^ 5).
  rewrite <- Z.pow_add_r by lia. f_equal. lia.
Qed.

Lemma setThreadsPerBlock_pow : forall dev j st,
  warpSize dev = 32 ->
  setThreadsPerBlock dev (32 * 2 ^ Z.of_nat j) st = Ok (mark dev (32 * 2 ^ Z.of_nat j) st).
Proof.
  intros dev j st Hw. unfold setThreadsPerBlock, checkExecutionConfig.
  cbn [mark maxT warp]. rewrite Hw.
  assert (Hp : 0 < 2 ^ Z.of_nat j) by (apply Z.pow_pos_nonneg; lia).
  assert (E : Z.land (32 * 2 ^ Z.of_nat j) (32 * 2 ^ Z.of_nat j - 1) = 0).
  { change 32 with (2 ^ 5). rewrite <- Z.pow_add_r by lia.
    rewrite Z.sub_1_r, <- Z.ones_equiv, Z.land_ones by lia.
    apply Z.mod_same. apply Z.pow_nonzero; lia. }
  rewrite E. change (negb (0 =? 0)) with false. change (32 =? 0) with false. cbv iota.
  rewrite Z.mul_comm, Z.rem_mul by lia. change (negb (0 =? 0)) with false. cbv iota.
  rewrite (proj2 (Z.eqb_neq _ 0)) by lia. reflexivity.
Qed.

(** A configuration that has been set up *)
Definition tinv (st : tarr) : Prop :=
  (exists j, maxT st = 32 * 2 ^ Z.of_nat j) /\ warp st = 32 /\
  (logical st = 0 \/
   (0 < logical st /\ tpb st = maxT st /\ blocks st = ceil_div (logical st) (maxT st))).

Lemma mark_tinv : forall dev st j, warpSize dev = 32 ->
  tinv (mark dev (32 * 2 ^ Z.of_nat j) st).
Proof. intros dev st j Hw. split; [exists j; auto|]. split; auto. Qed.

Lemma default_tinv : forall dev st st', warpSize dev = 32 ->
  setThreadsPerBlock_default dev st = Ok st' -> tinv st'.
Proof.
  intros dev st st' Hw H. unfold setThreadsPerBlock_default in H.
  destruct (shrink _ _ _) as [t| | |]; try discriminate. cbn [bind] in H.
  apply setThreadsPerBlock_ok in H; auto. destruct H as [-> [j ->]]. now apply mark_tinv.
Qed.

Lemma maxT_pos : forall st, tinv st -> 32 <= maxT st.
Proof.
  intros st [[j ->] _]. assert (0 < 2 ^ Z.of_nat j) by (apply Z.pow_pos_nonneg; lia). lia.
Qed.

Lemma setThreadsLogical_tinv : forall dev n st, tinv st -> 0 < n ->
  exists st', setThreadsLogical dev n st = Ok st' /\ tinv st' /\
    maxT st' = maxT st /\ tpb st' = maxT st /\ blocks st' = ceil_div n (maxT st) /\
    logical st' = n.
Proof.
  intros dev n st H Hn. pose proof (maxT_pos st H) as Hm.
  destruct H as (Hj & Hw & Hl). unfold setThreadsLogical.
  rewrite (proj2 (Z.eqb_neq (maxT st) (-1))) by lia. cbn [bind].
  destruct (Z.eqb_spec (logical st) n) as [E|E].
  - exists st. split; auto. destruct Hl as [Hl|(Hl & H1 & H2)]; [lia|].
    split; [split; [auto|split; auto; right; auto]|]. subst n. auto.
  - rewrite (proj2 (Z.eqb_neq (maxT st) 0)) by lia.
    eexists. split; [reflexivity|]. unfold tinv. cbn [maxT tpb blocks logical warp].
    repeat split; auto.
Qed.

Theorem reachable_tinv : forall dev st, warpSize dev = 32 -> reachable dev st ->
  st = tarr0 \/ tinv st.
Proof.
  intros dev st Hw H. induction H as [|st n st' H IH Hn E|st st' H IH E|st n st' H IH Hn E].
  - now left.
  - right. apply setThreadsPerBlock_ok in E; auto. destruct E as [-> [j ->]].
    now apply mark_tinv.
  - right. eapply default_tinv; eauto.
  - right. destruct IH as [->|IH].
    + unfold setThreadsLogical in E. cbn [tarr0 maxT] in E.
      change (-1 =? -1) with true in E. cbv iota in E.
      destruct (setThreadsPerBlock_default dev tarr0) as [s| | |] eqn:E0; try discriminate.
      pose proof (default_tinv _ _ _ Hw E0) as Hs. cbn [bind] in E.
      destruct (setThreadsLogical_tinv dev n s Hs Hn) as (s' & E1 & K & _).
      unfold setThreadsLogical in E1. pose proof (maxT_pos s Hs).
      rewrite (proj2 (Z.eqb_neq (maxT s) (-1))) in E1 by lia. cbn [bind] in E1.
      rewrite E in E1. injection E1 as ->. auto.
    + destruct (setThreadsLogical_tinv dev n st IH Hn) as (s' & E1 & K & _).
      rewrite E in E1. injection E1 as ->. auto.
Qed.

(** ** Rounding of the size *)

Lemma float_small : forall n, 0 <= n <= 2 ^ 24 -> float_of_int n = n.
Proof.
  intros n Hn. unfold float_of_int.
  destruct (Z.leb_spec (Z.log2 n - 23) 0) as [H|H]; auto.
  assert (E : n = 2 ^ 24).
  { destruct (Z.eq_dec n (2 ^ 24)) as [E|E]; auto. exfalso.
    assert (K : Z.log2 n < 24) by (apply Z.log2_lt_pow2; [|lia];
      destruct (Z.eq_dec n 0) as [->|]; [cbn in H|]; lia).
    lia. }
  subst n. reflexivity.
Qed.

Lemma float_bounds : forall n, 0 < n ->
  n - n / 2 ^ 24 <= float_of_int n <= n + n / 2 ^ 24.
Proof.
  intros n Hn. unfold float_of_int.
  assert (Hq0 : 0 <= n / 2 ^ 24) by (apply Z.div_pos; lia).
  destruct (Z.leb_spec (Z.log2 n - 23) 0) as [H|H]; [lia|].
  set (e := Z.log2 n - 23) in *.
  assert (He : 0 < 2 ^ (e - 1)) by (apply Z.pow_pos_nonneg; lia).
  assert (E2 : 2 ^ e = 2 * 2 ^ (e - 1)).
  { rewrite <- Z.pow_succ_r by lia. f_equal. lia. }
  assert (Hh : 2 ^ (e - 1) <= n / 2 ^ 24).
  { apply Z.div_le_lower_bound; [lia|]. rewrite <- Z.pow_add_r by lia.
    destruct (Z.log2_spec n Hn) as [K _]. replace (24 + (e - 1)) with (Z.log2 n) by lia. lia. }
  pose proof (Z.div_mod n (2 ^ e)) as Hd. pose proof (Z.mod_pos_bound n (2 ^ e)) as Hm.
  destruct ((n mod 2 ^ e <? 2 ^ (e - 1)) || _) eqn:E.
  - assert (n mod 2 ^ e <= 2 ^ (e - 1)).
    { apply orb_prop in E. destruct E as [E|E].
      - apply Z.ltb_lt in E. lia.
      - apply andb_prop in E. destruct E as [E _]. apply Z.eqb_eq in E. lia. }
    nia.
  - assert (2 ^ (e - 1) <= n mod 2 ^ e).
    { apply orb_false_elim in E. destruct E as [E _]. apply Z.ltb_ge in E. auto. }
    nia.
Qed.

Lemma float_pow31 : forall n, 0 < n < 2 ^ 31 -> float_of_int n <= 2 ^ 31.
Proof.
  intros n Hn. unfold float_of_int.
  destruct (Z.leb_spec (Z.log2 n - 23) 0) as [H|H]; [lia|].
  set (e := Z.log2 n - 23) in *.
  assert (Hl : Z.log2 n < 31) by (apply Z.log2_lt_pow2; lia).
  assert (Hp : 0 < 2 ^ e) by (apply Z.pow_pos_nonneg; lia).
  assert (Hq : n / 2 ^ e < 2 ^ (31 - e)).
  { apply Z.div_lt_upper_bound; auto. rewrite <- Z.pow_add_r by lia.
    replace (e + (31 - e)) with 31 by lia. lia. }
  assert (E : 2 ^ 31 = 2 ^ (31 - e) * 2 ^ e).
  { rewrite <- Z.pow_add_r by lia. f_equal. lia. }
  rewrite E. destruct (_ || _); apply Z.mul_le_mono_nonneg_r; lia.
Qed.

Lemma halved_pos : forall n, 0 < n -> 0 < halvedSize n.
Proof.
  intros n Hn. unfold halvedSize. pose proof (float_bounds n Hn).
  assert (n / 2 ^ 24 < n) by (apply Z.div_lt; lia).
  assert (1 <= (float_of_int n + 1) / 2); [|lia].
  apply Z.div_le_lower_bound; lia.
Qed.

Lemma halved_bounds : forall n, 0 < n ->
  float_of_int n <= 2 * halvedSize n <= float_of_int n + 1.
Proof.
  intros n Hn. unfold halvedSize.
  pose proof (Z.div_mod (float_of_int n + 1) 2).
  pose proof (Z.mod_pos_bound (float_of_int n + 1) 2). lia.
Qed.

Lemma ceil_div_bounds : forall a b, 0 < a -> 0 < b ->
  0 < ceil_div a b /\ (ceil_div a b - 1) * b < a <= ceil_div a b * b.
Proof.
  intros a b Ha Hb. unfold ceil_div.
  pose proof (Z.div_mod (a + b - 1) b). pose proof (Z.mod_pos_bound (a + b - 1) b).
  assert (1 <= (a + b - 1) / b) by (apply Z.div_le_lower_bound; lia).
  split; [lia|]. nia.
Qed.

(** The number of elements that the grid reads *)
Definition covered (n T : Z) : Z := ceil_div (halvedSize n) T * (T * 2).

Lemma covered_small : forall n T, 0 < n <= 2 ^ 24 -> 0 < T -> n <= covered n T.
Proof.
  intros n T Hn HT. unfold covered.
  pose proof (halved_bounds n) as H1. rewrite (float_small n) in H1 by lia.
  pose proof (ceil_div_bounds (halvedSize n) T (halved_pos n ltac:(lia)) HT). nia.
Qed.

(** ** Resources *)

Definition big (n : Z) : Prop := 100000 <= n.

Lemma resources_ok : forall dev n st, warpSize dev = 32 -> tinv st -> 0 < n ->
  exists st' j, resources dev n st = Ok st' /\ tinv st' /\
    tpb st' = Z.of_nat (64 * 2 ^ j) /\ maxT st' = tpb st' /\
    (maxT st' = maxT st \/ (maxT st = 32 /\ maxT st' = 64)) /\
    blocks st' = ceil_div (halvedSize n) (tpb st').
Proof.
  intros dev n st Hw Hi Hn. unfold resources.
  pose proof (halved_pos n Hn) as Hh.
  destruct (setThreadsLogical_tinv dev _ st Hi Hh) as (s1 & E1 & I1 & M1 & T1 & B1 & L1).
  rewrite E1. cbn [bind]. rewrite T1.
  destruct Hi as [[j Hj] Hi'].
  destruct (Z.ltb_spec (maxT st) 64) as [Hl|Hl].
  - change 64 with (32 * 2 ^ Z.of_nat 1). rewrite setThreadsPerBlock_pow by auto. cbn [bind].
    destruct (setThreadsLogical_tinv dev _ (mark dev (32 * 2 ^ Z.of_nat 1) s1)
                (mark_tinv _ _ _ Hw) Hh) as (s2 & E2 & I2 & M2 & T2 & B2 & L2).
    rewrite E2. cbn [bind]. cbn [mark maxT] in M2, T2, B2.
    destruct I2 as (J2 & W2 & X2). rewrite W2. cbn [bind check Z.eqb].
    change (32 =? 32) with true. cbn [check bind].
    exists s2, O. split; [reflexivity|]. split; [repeat split; auto|].
    split; [rewrite T2; reflexivity|]. split; [congruence|].
    split; [right; split; [|rewrite M2; reflexivity]|rewrite T2; auto].
    destruct j as [|j]; [rewrite Hj; reflexivity|].
    rewrite Nat2Z.inj_succ, Z.pow_succ_r in Hj by lia.
    assert (0 < 2 ^ Z.of_nat j) by (apply Z.pow_pos_nonneg; lia). lia.
  - cbn [bind]. destruct I1 as (J1 & W1 & X1). rewrite W1.
    change (32 =? 32) with true. cbn [check bind].
    destruct j as [|j]; [rewrite Hj in Hl; cbn in Hl; lia|].
    exists s1, j. split; [reflexivity|]. split; [repeat split; auto|].
    split; [|split; [congruence|split; [left; auto|rewrite T1; auto]]].
    rewrite T1, Hj, Nat2Z.inj_succ, Z.pow_succ_r by lia.
    rewrite Nat2Z.inj_mul, Nat2Z.inj_pow. change (Z.of_nat 64) with 64.
    change (Z.of_nat 2) with 2. lia.
Qed.

Lemma resources_reachable : forall dev n st st', 0 < n -> reachable dev st ->
  resources dev n st = Ok st' -> reachable dev st'.
Proof.
  intros dev n st st' Hn Hr H. unfold resources in H. pose proof (halved_pos n Hn) as Hh.
  destruct (setThreadsLogical dev (halvedSize n) st) as [s1| | |] eqn:E1; try discriminate.
  cbn [bind] in H. pose proof (reach_logical _ _ _ _ Hr Hh E1) as R1.
  destruct (tpb s1 <? 64).
  - destruct (setThreadsPerBlock dev 64 s1) as [s2| | |] eqn:E2; try discriminate.
    cbn [bind] in H. pose proof (reach_set _ _ 64 _ R1 ltac:(lia) E2) as R2.
    destruct (setThreadsLogical dev (halvedSize n) s2) as [s3| | |] eqn:E3; try discriminate.
    cbn [bind] in H. pose proof (reach_logical _ _ _ _ R2 Hh E3) as R3.
    destruct (warp s3 =? 32); [|discriminate]. injection H as <-. auto.
  - cbn [bind] in H. destruct (warp s1 =? 32); [|discriminate]. injection H as <-. auto.
Qed.

Lemma loop_reachable : forall {A} fuel dev always (knext : list A -> kernel A) sch kin n i
  t1 t2 st r,
  reachable dev st -> 0 < n ->
  loop fuel dev always knext sch kin n i t1 t2 st = Ok r -> reachable dev (snd r).
Proof.
  induction fuel; intros dev always knext sch kin n i t1 t2 st r Hr Hn H; [discriminate|].
  cbn [loop] in H. destruct (_ || _); [|injection H as <-; auto].
  destruct (resources dev n st) as [s1| | |] eqn:E1; try discriminate. cbn [bind] in H.
  pose proof (resources_reachable _ _ _ _ Hn Hr E1) as R1.
  destruct (Z.lt_ge_cases 0 (blocks s1)) as [Hb|Hb].
  - destruct (pingpong _ _ _ _ _ _ _ _ _ _) as [p| | |]; try discriminate. cbn [bind] in H.
    eapply IHfuel; [exact R1|exact Hb|exact H].
  - assert (L : forall k s, launch dev k s n (blocks s1) (tpb s1) = @Throw (list A)).
    { intros k s. unfold launch. rewrite (proj2 (Z.leb_le (blocks s1) 0) Hb).
      now rewrite orb_true_r. }
    unfold pingpong in H. destruct i; [destruct t1; [discriminate|]|];
      [rewrite L in H; discriminate|].
    destruct (Nat.odd (S i)).
    + destruct t2; [discriminate|]. destruct t1; [|discriminate].
      rewrite L in H; discriminate.
    + destruct t1; [discriminate|]. destruct t2; [|discriminate].
      rewrite L in H; discriminate.
Qed.

Lemma wrapper_reachable : forall {A} dev always (knext : list A -> kernel A) sch kin inp n
  finish st v st', reachable dev st ->
  wrapper dev always knext sch kin inp n finish st = Ok (v, st') -> reachable dev st'.
Proof.
  intros A dev always knext sch kin inp n finish st v st' Hr H. unfold wrapper in H.
  destruct (Z.ltb_spec 0 n) as [Hn|Hn]; [|discriminate]. cbn [check bind] in H.
  destruct (loop _ _ _ _ _ _ _ _ _ _ _) as [r| | |] eqn:E; try discriminate.
  cbn [bind] in H. apply loop_reachable in E; auto.
  destruct r as [[[[n' i'] u1] u2] s']. cbn [snd] in E.
  destruct (transfer i' inp u1 u2) as [l| | |]; try discriminate. cbn [bind] in H.
  destruct (finish l) as [w| | |]; try discriminate. cbn [bind] in H.
  injection H as _ <-. auto.
Qed.

(** ** The loop *)

Section Loop.

Context {A : Type}.

(** Every thread below 1024 gets its two steps in every phase, and the last warp
    of every block runs in lockstep. *)
Definition fair (sch : nat -> schedule) : Prop :=
  forall i b,
    (forall p t, (t < 1024)%nat ->
       (2 <= count_occ Nat.eq_dec (at_phase (sch i) b p) t)%nat) /\
    lockstep warp_offsets (at_warp (sch i) b).

Lemma fair_fair_block : forall sch i b j, fair sch -> (64 * 2 ^ j <= 1024)%nat ->
  fair_block (64 * 2 ^ j) (sch i) b.
Proof.
  intros sch i b j H Hj. destruct (H i b) as [H1 H2]. split; auto.
  intros p t Ht. apply H1. lia.
Qed.

Variable dev : device.
Variable always : bool.
Variable knext : list A -> kernel A.
Variable sch : nat -> schedule.
Variable kin : kernel A.
Variable P : list A -> Prop.

Hypothesis Hwarp : warpSize dev = 32.
Hypothesis Hdev : 64 <= maxPerBlock dev <= 1024.

(** One launch of the kernel for intermediate arrays *)
Hypothesis Hnext : forall i j l nB,
  P l -> big (size l) -> size l <= 2 ^ 24 -> (64 * 2 ^ j <= 1024)%nat ->
  Z.of_nat (64 * 2 ^ j) <= maxPerBlock dev ->
  nB = ceil_div (halvedSize (size l)) (Z.of_nat (64 * 2 ^ j)) ->
  exists l', launch dev (knext l) (sch i) (size l) nB (Z.of_nat (64 * 2 ^ j)) = Ok l' /\
             size l' = nB /\ P l'.

Definition holds (i : nat) (t1 t2 : option (list A)) (l : list A) : Prop :=
  (0 < i)%nat /\
  if Nat.odd i then t1 = Some l /\ t2 = None else t1 = None /\ t2 = Some l.

Lemma blocks_small : forall n T, 0 < n < 2 ^ 31 -> 64 <= T ->
  0 < ceil_div (halvedSize n) T <= 2 ^ 24 /\ ceil_div (halvedSize n) T <= n /\
  (big n -> ceil_div (halvedSize n) T < n).
Proof.
  intros n T Hn HT. pose proof (halved_pos n ltac:(lia)) as Hh.
  pose proof (ceil_div_bounds (halvedSize n) T Hh ltac:(lia)) as (Hc & Hc1 & Hc2).
  pose proof (halved_bounds n ltac:(lia)) as Hb.
  pose proof (float_pow31 n Hn) as Hf. pose proof (float_bounds n ltac:(lia)) as Hf2.
  assert (Hd : n / 2 ^ 24 <= n).
  { apply Z.div_le_upper_bound; lia. }
  change (2 ^ 24) with 16777216 in *. change (2 ^ 31) with 2147483648 in *.
  assert (Hh2 : halvedSize n <= 1073741824) by lia.
  assert ((ceil_div (halvedSize n) T - 1) * 64 < halvedSize n) by nia.
  unfold big. lia.
Qed.

Lemma loop_tail : forall fuel n i t1 t2 st l,
  n < Z.of_nat fuel \/ (n < 100000 /\ (0 < fuel)%nat) ->
  tinv st -> maxT st <= maxPerBlock dev ->
  holds i t1 t2 l -> P l -> size l = n -> 0 < n <= 2 ^ 24 ->
  exists n' i' t1' t2' st' l',
    loop fuel dev always knext sch kin n i t1 t2 st = Ok (n', S i', t1', t2', st') /\
    holds (S i') t1' t2' l' /\ P l' /\ size l' = n' /\ 0 < n' /\
    tinv st' /\ maxT st' <= maxPerBlock dev.
Proof.
  induction fuel; intros n i t1 t2 st l Hf Hst Hmx Hh HP Hsz Hn; [lia|].
  cbn [loop]. destruct Hh as [Hi0 Hh]. destruct i as [|i]; [lia|].
  change (S i =? 0)%nat with false. rewrite andb_false_r, orb_false_r.
  destruct (Z.leb_spec 100000 n) as [Hb|Hb].
  - destruct (resources_ok dev n st Hwarp Hst ltac:(lia))
      as (s1 & j & E1 & I1 & T1 & M1 & M2 & B1).
    rewrite E1. cbn [bind].
    assert (HT : tpb s1 <= maxPerBlock dev) by lia.
    assert (Hj : (64 * 2 ^ j <= 1024)%nat) by lia.
    destruct (Hnext (S i) j l (blocks s1)) as (l' & E2 & S2 & P2); auto;
      try (unfold big; lia).
    { rewrite Hsz, B1, T1. reflexivity. }
    rewrite Hsz, <- T1 in E2.
    assert (Hbs : 0 < blocks s1 <= 2 ^ 24 /\ blocks s1 < n).
    { rewrite B1. destruct (blocks_small n (tpb s1)) as (K1 & _ & K2); [lia| |].
      - rewrite T1. pose proof (pow2_pos j). lia.
      - split; auto. }
    assert (Ep : exists u1 u2,
               pingpong dev knext sch kin n (blocks s1) (tpb s1) (S i) t1 t2 = Ok (u1, u2) /\
               holds (S (S i)) u1 u2 l').
    { unfold pingpong. unfold holds. rewrite (Nat.odd_succ (S i)), <- Nat.negb_odd.
      destruct (Nat.odd (S i)); destruct Hh as [-> ->]; rewrite E2; cbn [bind];
        eexists; eexists; (split; [reflexivity|]); cbn [negb]; split; auto; lia. }
    destruct Ep as (u1 & u2 & Ep & Hu). rewrite Ep. cbn [bind fst snd].
    apply (IHfuel (blocks s1) (S (S i)) u1 u2 s1 l'); auto; lia.
  - exists n, i, t1, t2, st, l. split; [reflexivity|]. split; [split; auto|].
    split; auto. split; auto. split; [lia|]. split; auto.
Qed.

Lemma holds_transfer : forall i inp t1 t2 l, holds i t1 t2 l -> transfer i inp t1 t2 = Ok l.
Proof.
  intros i inp t1 t2 l [Hi Hh]. unfold transfer. destruct i; [lia|].
  destruct (Nat.odd (S i)); destruct Hh as [-> ->]; reflexivity.
Qed.

(** The wrapper when the first kernel is launched *)
Lemma wrapper_ok : forall inp n finish st,
  0 < n < 2 ^ 31 -> tinv st -> maxT st <= maxPerBlock dev ->
  big n \/ always = true ->
  (forall j nB, (64 * 2 ^ j <= 1024)%nat -> Z.of_nat (64 * 2 ^ j) <= maxPerBlock dev ->
     (Z.of_nat (64 * 2 ^ j) = maxT st \/ (maxT st = 32 /\ j = O)) ->
     nB = ceil_div (halvedSize n) (Z.of_nat (64 * 2 ^ j)) ->
     exists l', launch dev kin (sch 0) n nB (Z.of_nat (64 * 2 ^ j)) = Ok l' /\
                size l' = nB /\ P l') ->
  exists l st', 0 < size l /\ P l /\ tinv st' /\ maxT st' <= maxPerBlock dev /\
    wrapper dev always knext sch kin inp n finish st =
    bind (finish l) (fun v => Ok (v, st')).
Proof.
  intros inp n finish st Hn Hst Hmx Hb H0. unfold wrapper.
  rewrite (proj2 (Z.ltb_lt 0 n)) by lia. cbn [check bind]. cbn [loop].
  assert (Ec : (100000 <=? n) || always && (0 =? 0)%nat = true).
  { destruct Hb as [Hb|Hb].
    - rewrite (proj2 (Z.leb_le 100000 n) Hb). reflexivity.
    - rewrite Hb. change (0 =? 0)%nat with true. apply orb_true_r. }
  rewrite Ec.
  destruct (resources_ok dev n st Hwarp Hst ltac:(lia))
    as (s1 & j & E1 & I1 & T1 & M1 & M2 & B1).
  rewrite E1. cbn [bind].
  assert (HT : tpb s1 <= maxPerBlock dev) by lia.
  assert (Hj : (64 * 2 ^ j <= 1024)%nat) by lia.
  pose proof (pow2_pos j) as Hpj.
  destruct (H0 j (blocks s1)) as (l' & E2 & S2 & P2); auto; try lia.
  { destruct M2 as [M2|[M2 M3]]; [left; lia|right]. split; auto.
    destruct j; auto. exfalso. rewrite Nat.pow_succ_r' in T1. pose proof (pow2_pos j). lia. }
  { now rewrite B1, T1. }
  rewrite <- T1 in E2. cbn [pingpong]. rewrite E2. cbn [bind fst snd].
  assert (Hbs : 0 < blocks s1 <= 2 ^ 24 /\ blocks s1 <= n /\ (big n -> blocks s1 < n)).
  { rewrite B1. apply blocks_small; lia. }
  destruct (loop_tail (Z.to_nat n) (blocks s1) 1 (Some l') None s1 l')
    as (n' & i' & t1' & t2' & st' & l2 & E3 & Hh & HP & Hs & Hn' & Hi & Hm);
    auto; try lia.
  { unfold big in *. lia. }
  { split; [lia|]. cbn. auto. }
  rewrite E3. cbn [bind]. rewrite (holds_transfer _ inp _ _ _ Hh). cbn [bind].
  exists l2, st'. split; [lia|]. split; auto.
Qed.

(** The wrapper when the array is transferred as it is *)
Lemma wrapper_small : forall l finish st,
  0 < size l -> size l < 100000 -> always = false ->
  wrapper dev always knext sch kin (Some l) (size l) finish st =
  bind (finish l) (fun v => Ok (v, st)).
Proof.
  intros l finish st H1 H2 Ha. unfold wrapper.
  rewrite (proj2 (Z.ltb_lt 0 _) H1). cbn [check bind]. cbn [loop].
  rewrite (proj2 (Z.leb_gt 100000 _) H2), Ha. cbn [orb andb bind]. reflexivity.
Qed.

End Loop.
