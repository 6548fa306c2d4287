(** The six reductions as a whole. *)
From Coq Require Import Reals Lra ZArith List Bool Arith Lia.
From Verif Require Import Base RSum FftProofs GpuThreads GpuReduce GpuReduceProofs
  GpuHostProofs GpuOpsProofs.
Import ListNotations.

(** Number of threads of a block in a reduction *)
Definition block_size (st : tarr) : Z := Z.max 64 (maxT st).

Definition fitting (dev : device) (st : tarr) (sch : nat -> schedule) : Prop :=
  warpSize dev = 32%Z /\ (64 <= maxPerBlock dev <= 1024)%Z /\ tinv st /\
  (maxT st <= maxPerBlock dev)%Z /\ fair sch.

Lemma block_size_eq : forall st j,
  (Z.of_nat (64 * 2 ^ j) = maxT st \/ (maxT st = 32%Z /\ j = O)) ->
  Z.of_nat (64 * 2 ^ j) = block_size st.
Proof.
  intros st j H. unfold block_size. pose proof (pow2_pos j).
  destruct H as [H|[H ->]]; [lia|rewrite H; reflexivity].
Qed.

Lemma nB_nat : forall n T nB, (0 < n)%Z -> (0 < T)%Z -> nB = ceil_div (halvedSize n) T ->
  exists m, nB = Z.of_nat m /\ 0 < m.
Proof.
  intros n T nB Hn HT H. pose proof (grid_nat n T nB Hn HT H).
  exists (Z.to_nat nB). lia.
Qed.

Lemma cov_nat : forall n m j, (n <= covered n (Z.of_nat (64 * 2 ^ j)))%Z -> (0 <= n)%Z ->
  Z.of_nat m = ceil_div (halvedSize n) (Z.of_nat (64 * 2 ^ j)) ->
  Z.to_nat n <= m * (64 * 2 ^ j * 2).
Proof.
  intros n m j H Hn E. unfold covered in H. rewrite <- E in H.
  apply Nat2Z.inj_le. rewrite Z2Nat.id by auto.
  rewrite !Nat2Z.inj_mul in *. lia.
Qed.

(** ** Sums *)

Lemma next_sum : forall dev sch V, fair sch -> forall i j l nB,
  is_sum l V -> big (size l) -> (size l <= 2 ^ 24)%Z -> 64 * 2 ^ j <= 1024 ->
  (Z.of_nat (64 * 2 ^ j) <= maxPerBlock dev)%Z ->
  nB = ceil_div (halvedSize (size l)) (Z.of_nat (64 * 2 ^ j)) ->
  exists l', launch dev (k_sum rarith l) (sch i) (size l) nB (Z.of_nat (64 * 2 ^ j)) = Ok l' /\
             size l' = nB /\ is_sum l' V.
Proof.
  intros dev sch V Hf i j l nB HV Hb Hs Hj Hm HnB. unfold big in Hb.
  pose proof (pow2_pos j) as Hp.
  destruct (nB_nat (size l) (Z.of_nat (64 * 2 ^ j)) nB) as (m & Em & Hm0); auto; try lia.
  destruct (launch_sum dev j (k_sum rarith l) (sch i) (length l) m (fun i => nth i l 0%R))
    as (l' & E & El & Es); auto.
  - intros i0 Hi. cbn [k_sum from_array element]. rewrite (nth_error_nth' l 0%R Hi). reflexivity.
  - intros b. now apply fair_fair_block.
  - exists l'. rewrite Em. unfold size at 1. split; [exact E|].
    split; [unfold size; now rewrite El|].
    rewrite Nat.min_l in Es.
    + unfold is_sum in *. congruence.
    + rewrite <- (Nat2Z.id (length l)). apply cov_nat; unfold size in *; try lia.
      apply covered_small; lia.
Qed.

Lemma wrapper_sum : forall dev st sch always kin inp n f,
  fitting dev st sch -> 0 < n -> (Z.of_nat n < 2 ^ 31)%Z ->
  (100000 <= Z.of_nat n)%Z \/ always = true ->
  red kin = Rplus -> pair kin = Rplus -> pad kin = Some 0%R ->
  (forall i, i < n -> element kin i = Some (f i)) ->
  exists st', tinv st' /\ (maxT st' <= maxPerBlock dev)%Z /\
    wrapper dev always (k_sum rarith) sch kin inp (Z.of_nat n)
      (host_sum Rplus Rminus 0%R) st =
    Ok (rsum (Nat.min n (Z.to_nat (covered (Z.of_nat n) (block_size st)))) f, st').
Proof.
  intros dev st sch always kin inp n f (Hw & Hd & Hi & Hm & Hf) Hn Hn2 Hb Hr Hp Hpd He.
  set (V := rsum (Nat.min n (Z.to_nat (covered (Z.of_nat n) (block_size st)))) f).
  destruct (wrapper_ok dev always (k_sum rarith) sch kin (fun l => is_sum l V) Hw Hd
              (next_sum dev sch V Hf) inp (Z.of_nat n) (host_sum Rplus Rminus 0%R) st)
    as (l & st' & Hl & HV & Hi' & Hm' & E); auto; try lia.
  - intros j nB Hj Hm2 HT HnB. pose proof (pow2_pos j) as Hpj.
    destruct (nB_nat (Z.of_nat n) (Z.of_nat (64 * 2 ^ j)) nB) as (m & Em & Hm0); auto; try lia.
    destruct (launch_sum dev j kin (sch 0) n m f) as (l' & E & El & Es); auto.
    { intros b. now apply fair_fair_block. }
    exists l'. rewrite Em. split; auto. split; [unfold size; now rewrite El|].
    unfold V. rewrite <- (block_size_eq st j HT). unfold covered. rewrite <- HnB, Em.
    replace (Z.to_nat (Z.of_nat m * (Z.of_nat (64 * 2 ^ j) * 2)))
      with (m * (64 * 2 ^ j * 2)); auto.
    rewrite <- (Nat2Z.id (m * (64 * 2 ^ j * 2))). f_equal.
    rewrite !Nat2Z.inj_mul. reflexivity.
  - exists st'. split; auto. split; auto. rewrite E.
    rewrite (host_sum_ok l V HV). reflexivity.
Qed.

(** ** Selections *)

Section Sel.

Variable sel : R -> R -> R.
Variable dom : R -> R -> Prop.
Variable pr : R -> R -> R.
Variable better : R -> R -> bool.
Hypothesis selA : forall x y z, sel x (sel y z) = sel (sel x y) z.
Hypothesis selC : forall x y, sel x y = sel y x.
Hypothesis dom_refl : forall x, dom x x.
Hypothesis dom_trans : forall x y z, dom x y -> dom y z -> dom x z.
Hypothesis dom_anti : forall x y, dom x y -> dom y x -> x = y.
Hypothesis dom_l : forall x y, dom x (sel x y).
Hypothesis dom_lub : forall x y z, dom x z -> dom y z -> dom (sel x y) z.
Hypothesis pr_sel : forall x y, pr x y = sel x y.
Hypothesis better_sel : forall x y, (if better y x then y else x) = sel x y.

Lemma wrap_nat : forall n m j b t,
  0 < n -> (Z.of_nat n < 2 ^ 31)%Z -> 64 * 2 ^ j <= 1024 -> 64 * 2 ^ j <= 2 * n ->
  Z.of_nat m = ceil_div (halvedSize (Z.of_nat n)) (Z.of_nat (64 * 2 ^ j)) ->
  b < m -> t < 64 * 2 ^ j -> n <= b * (64 * 2 ^ j * 2) + t ->
  b * (64 * 2 ^ j * 2) + t - n < n.
Proof.
  intros n m j b t Hn Hn2 Hj HT Em Hb Ht Hx. pose proof (pow2_pos j).
  pose proof (wrap_bound (Z.of_nat n) (Z.of_nat (64 * 2 ^ j)) (Z.of_nat m)
                (Z.of_nat b) (Z.of_nat t)) as K.
  assert (E : (Z.of_nat b * (Z.of_nat (64 * 2 ^ j) * 2) + Z.of_nat t =
               Z.of_nat (b * (64 * 2 ^ j * 2) + t))%Z).
  { rewrite Nat2Z.inj_add. f_equal. rewrite (Nat2Z.inj_mul b). f_equal.
    now rewrite (Nat2Z.inj_mul (64 * 2 ^ j)). }
  rewrite E in K. set (x := b * (64 * 2 ^ j * 2) + t) in *. lia.
Qed.

Lemma in_nth_R : forall (l : list R) x, In x l <-> exists i, i < length l /\ nth i l 0%R = x.
Proof.
  intros l x. split.
  - intro H. destruct (In_nth l x 0%R H) as (i & H1 & H2). eauto.
  - intros (i & H1 & <-). now apply nth_In.
Qed.

Lemma next_select : forall dev sch V, fair sch -> forall i j l nB,
  best dom l V -> big (size l) -> (size l <= 2 ^ 24)%Z -> 64 * 2 ^ j <= 1024 ->
  (Z.of_nat (64 * 2 ^ j) <= maxPerBlock dev)%Z ->
  nB = ceil_div (halvedSize (size l)) (Z.of_nat (64 * 2 ^ j)) ->
  exists l', launch dev (from_array id_el pr None sel l) (sch i) (size l) nB
               (Z.of_nat (64 * 2 ^ j)) = Ok l' /\
             size l' = nB /\ best dom l' V.
Proof.
  intros dev sch V Hf i j l nB [HV1 HV2] Hb Hs Hj Hm HnB. unfold big in Hb.
  pose proof (pow2_pos j) as Hp.
  destruct (nB_nat (size l) (Z.of_nat (64 * 2 ^ j)) nB) as (m & Em & Hm0); auto; try lia.
  destruct (launch_select sel dom selA selC dom_refl dom_trans dom_anti dom_l dom_lub
              dev j (from_array id_el pr None sel l) (sch i) (length l) m
              (fun i => nth i l 0%R) V) as (l' & E & El & Eb); auto.
  - intros i0 Hi. cbn [from_array element]. rewrite (nth_error_nth' l 0%R Hi). reflexivity.
  - intros z Hz. discriminate Hz.
  - intros _ b t Hb2 Ht Hx. apply (wrap_nat (length l) m j); auto; unfold size in *; try lia.
  - rewrite <- (Nat2Z.id (length l)). apply cov_nat; unfold size in *; try lia.
    apply covered_small; lia.
  - apply in_nth_R in HV1. exact HV1.
  - intros i0 Hi. apply HV2. now apply nth_In.
  - intros b. now apply fair_fair_block.
  - exists l'. rewrite Em. unfold size at 1. split; [exact E|].
    split; [unfold size; now rewrite El|auto].
Qed.

Lemma wrapper_select : forall dev st sch always kin inp n f V,
  fitting dev st sch -> 0 < n -> (Z.of_nat n < 2 ^ 31)%Z ->
  (100000 <= Z.of_nat n)%Z \/ always = true ->
  (Z.of_nat n <= covered (Z.of_nat n) (block_size st))%Z ->
  red kin = sel -> (forall x y, pair kin x y = sel x y) ->
  (forall z, pad kin = Some z -> dom z V) ->
  (pad kin = None -> (block_size st <= 2 * Z.of_nat n)%Z) ->
  (forall i, i < n -> element kin i = Some (f i)) ->
  (exists i, i < n /\ f i = V) -> (forall i, i < n -> dom (f i) V) ->
  exists st', tinv st' /\ (maxT st' <= maxPerBlock dev)%Z /\
    wrapper dev always (from_array id_el pr None sel) sch kin inp (Z.of_nat n)
      (host_select better) st = Ok (V, st').
Proof.
  intros dev st sch always kin inp n f V (Hw & Hd & Hi & Hm & Hf) Hn Hn2 Hb Hc Hr Hp Hpd
    Hwr He HV1 HV2.
  destruct (wrapper_ok dev always (from_array id_el pr None sel) sch kin
              (fun l => best dom l V) Hw Hd
              (next_select dev sch V Hf) inp (Z.of_nat n) (host_select better) st)
    as (l & st' & Hl & HV & Hi' & Hm' & E); auto; try lia.
  - intros j nB Hj Hm2 HT HnB. pose proof (pow2_pos j) as Hpj.
    pose proof (block_size_eq st j HT) as Eb.
    destruct (nB_nat (Z.of_nat n) (Z.of_nat (64 * 2 ^ j)) nB) as (m & Em & Hm0); auto; try lia.
    destruct (launch_select sel dom selA selC dom_refl dom_trans dom_anti dom_l dom_lub
                dev j kin (sch 0) n m f V) as (l' & E & El & Es); auto.
    { intros Hpn b t Hb2 Ht Hx. specialize (Hwr Hpn). apply (wrap_nat n m j); auto; lia. }
    { rewrite <- (Nat2Z.id n). rewrite <- Eb in Hc. apply cov_nat; lia. }
    { intros b. now apply fair_fair_block. }
    exists l'. rewrite Em. split; auto. split; auto. unfold size; now rewrite El.
  - exists st'. split; auto. split; auto. rewrite E.
    rewrite (host_select_ok sel dom selC dom_refl dom_trans dom_anti dom_l dom_lub better
               better_sel l V HV). reflexivity.
Qed.

End Sel.
