(** Proofs about the individual reductions, in exact arithmetic. *)
From Coq Require Import Reals Lra ZArith List Bool Arith Lia Permutation.
From Verif Require Import Base RSum FftProofs GpuThreads GpuReduce GpuReduceProofs GpuHostProofs.
Import ListNotations.

(** Exact real arithmetic *)
Definition rarith : arith R :=
  Arith Rplus Rminus Rmult (fun x y => if Rlt_dec y x then true else false) Rabs 0%R.

(** ** The grid *)

Lemma grid_nat : forall n T nB, (0 < n)%Z -> (0 < T)%Z ->
  nB = ceil_div (halvedSize n) T -> (0 < nB)%Z.
Proof.
  intros n T nB Hn HT ->. apply ceil_div_bounds; auto. now apply halved_pos.
Qed.

Lemma wrap_bound : forall n T nB b t,
  (0 < n < 2 ^ 31)%Z -> (64 <= T <= 1024)%Z -> (T <= 2 * n)%Z ->
  nB = ceil_div (halvedSize n) T -> (0 <= b < nB)%Z -> (0 <= t < T)%Z ->
  (b * (T * 2) + t - n < n)%Z.
Proof.
  intros n T nB b t Hn HT HTn -> Hb Ht.
  pose proof (halved_pos n ltac:(lia)) as Hh.
  destruct (ceil_div_bounds (halvedSize n) T Hh ltac:(lia)) as (Hc & Hc1 & _).
  pose proof (halved_bounds n ltac:(lia)) as Hb2.
  pose proof (float_bounds n ltac:(lia)) as Hf.
  pose proof (Z.mul_div_le n (2 ^ 24) ltac:(lia)) as Hq.
  set (q := (n / 2 ^ 24)%Z) in *. change (2 ^ 24)%Z with 16777216%Z in Hq.
  destruct (Z.eq_dec b 0) as [->|Hb0]; [lia|].
  assert (H1 : (b * T <= (ceil_div (halvedSize n) T - 1) * T)%Z)
    by (apply Z.mul_le_mono_nonneg_r; lia).
  assert (H2 : (T <= b * T)%Z) by nia.
  lia.
Qed.

(** ** Sums *)

Lemma bf_rsum : forall m v, bf Rplus v m = rsum (S m) v.
Proof. induction m; intro v; cbn [bf rsum]; [ring|]. rewrite IHm. reflexivity. Qed.

Definition ext0 (n : nat) (f : nat -> R) (i : nat) : R := if i <? n then f i else 0%R.

Lemma rsum_ext0 : forall m n f, rsum m (ext0 n f) = rsum (Nat.min n m) f.
Proof.
  intros m n f. destruct (Nat.le_ge_cases n m) as [H|H].
  - rewrite Nat.min_l by auto. replace m with (n + (m - n)) by lia.
    rewrite rsum_add. rewrite (rsum_ext (m - n) _ (fun _ => 0%R)).
    + rewrite rsum_zero, Rplus_0_r. apply rsum_ext. intros i Hi. unfold ext0.
      now rewrite (proj2 (Nat.ltb_lt i n) Hi).
    + intros i _. unfold ext0. now rewrite (proj2 (Nat.ltb_ge _ _)) by lia.
  - rewrite Nat.min_r by auto. apply rsum_ext. intros i Hi. unfold ext0.
    now rewrite (proj2 (Nat.ltb_lt i n)) by lia.
Qed.

Definition is_sum (l : list R) (v : R) : Prop :=
  rsum (length l) (fun i => nth i l 0%R) = v.

Lemma is_sum_map : forall g m, is_sum (map g (seq 0 m)) (rsum m g).
Proof.
  intros g m. unfold is_sum. rewrite map_length, seq_length. apply rsum_ext.
  intros i Hi. rewrite (nth_indep _ 0%R (g O)) by (rewrite map_length, seq_length; auto).
  rewrite map_nth, seq_nth by auto. reflexivity.
Qed.

Lemma launch_sum : forall dev j k sch n nB f,
  red k = Rplus -> pair k = Rplus -> pad k = Some 0%R ->
  (forall i, i < n -> element k i = Some (f i)) ->
  (Z.of_nat (64 * 2 ^ j) <= maxPerBlock dev)%Z -> 0 < nB ->
  (forall b, fair_block (64 * 2 ^ j) sch b) ->
  exists l, launch dev k sch (Z.of_nat n) (Z.of_nat nB) (Z.of_nat (64 * 2 ^ j)) = Ok l /\
    length l = nB /\
    is_sum l (rsum (Nat.min n (nB * (64 * 2 ^ j * 2))) f).
Proof.
  intros dev j k sch n nB f Hr Hp Hd He Hm Hn Hf.
  set (T := 64 * 2 ^ j) in *.
  assert (HT : 0 < T) by (unfold T; pose proof (pow2_pos j); lia).
  set (v := fun b t => (ext0 n f (b * (T * 2) + t) + ext0 n f (b * (T * 2) + t + T))%R).
  exists (map (fun b => bf Rplus (v b) (T - 1)) (seq 0 nB)).
  split.
  - unfold T. apply launch_bf; auto.
    + intros; ring.
    + intros; ring.
    + intros b t Hb Ht. unfold load. fold T. rewrite Hp, Hd. unfold v, ext0.
      destruct (Nat.ltb_spec (b * (T * 2) + t) n) as [H1|H1].
      * rewrite He by auto. destruct (Nat.ltb_spec (b * (T * 2) + t + T) n) as [H2|H2].
        -- rewrite He by auto. reflexivity.
        -- f_equal. ring.
      * rewrite (proj2 (Nat.ltb_ge _ _)) by lia. f_equal. ring.
  - split; [now rewrite map_length, seq_length|].
    rewrite <- rsum_ext0, rsum_mul.
    rewrite (rsum_ext nB _ (fun b => bf Rplus (v b) (T - 1))); [apply is_sum_map|].
    intros b _. rewrite bf_rsum. replace (S (T - 1)) with T by lia.
    unfold v. rewrite (rsum_plus T (fun t => ext0 n f (b * (T * 2) + t))
                         (fun t => ext0 n f (b * (T * 2) + t + T))).
    replace (rsum (T * 2)) with (rsum (T + T)) by (f_equal; lia). rewrite rsum_add.
    f_equal. apply rsum_ext. intros i _. f_equal. lia.
Qed.

Lemma kahan_exact : forall l s,
  fold_left (kahan_step Rplus Rminus) l (s, 0%R) = ((s + fold_right Rplus 0 l)%R, 0%R).
Proof.
  induction l; intro s; cbn [fold_left fold_right].
  - f_equal. ring.
  - unfold kahan_step at 2. cbn [fst snd].
    replace (s + (a - 0) - s - (a - 0))%R with 0%R by ring.
    rewrite IHl. f_equal. ring.
Qed.

Lemma fold_right_rsum : forall l, fold_right Rplus 0%R l = rsum (length l) (fun i => nth i l 0%R).
Proof.
  induction l; cbn [fold_right length]; auto. rewrite rsum_S_first. cbn [nth]. now rewrite IHl.
Qed.

Lemma host_sum_ok : forall l v, is_sum l v -> host_sum Rplus Rminus 0%R l = Ok v.
Proof.
  intros l v H. unfold host_sum.
  assert (E : Ok (fst (fold_left (kahan_step Rplus Rminus) l (0%R, 0%R))) = Ok v).
  { rewrite kahan_exact. cbn [fst]. f_equal. rewrite fold_right_rsum, Rplus_0_l. exact H. }
  destruct l as [|x [|y l]]; auto. f_equal. rewrite <- H. unfold is_sum.
  cbn [length rsum nth]. ring.
Qed.

(** ** Selections: maximum and minimum *)

Section Select.

Variable sel : R -> R -> R.
Variable dom : R -> R -> Prop.
Hypothesis selA : forall x y z, sel x (sel y z) = sel (sel x y) z.
Hypothesis selC : forall x y, sel x y = sel y x.
Hypothesis dom_refl : forall x, dom x x.
Hypothesis dom_trans : forall x y z, dom x y -> dom y z -> dom x z.
Hypothesis dom_anti : forall x y, dom x y -> dom y x -> x = y.
Hypothesis dom_l : forall x y, dom x (sel x y).
Hypothesis dom_lub : forall x y z, dom x z -> dom y z -> dom (sel x y) z.

Lemma dom_r : forall x y, dom y (sel x y).
Proof. intros. rewrite selC. apply dom_l. Qed.

Definition best (l : list R) (v : R) : Prop := In v l /\ forall x, In x l -> dom x v.

Lemma bf_dom : forall n v t, t <= n -> dom (v t) (bf sel v n).
Proof.
  induction n; intros v t Ht; cbn [bf].
  - replace t with 0 by lia. apply dom_refl.
  - destruct (Nat.eq_dec t (S n)) as [->|H]; [apply dom_r|].
    eapply dom_trans; [apply IHn; lia|apply dom_l].
Qed.

Lemma bf_lub : forall n v z, (forall t, t <= n -> dom (v t) z) -> dom (bf sel v n) z.
Proof.
  induction n; intros v z H; cbn [bf]; [apply H; lia|].
  apply dom_lub; auto.
Qed.

Lemma launch_select : forall dev j k sch n nB (f : nat -> R) V,
  red k = sel -> (forall x y, pair k x y = sel x y) ->
  (forall i, i < n -> element k i = Some (f i)) ->
  (forall z, pad k = Some z -> dom z V) ->
  (pad k = None -> forall b t, b < nB -> t < 64 * 2 ^ j ->
     n <= b * (64 * 2 ^ j * 2) + t -> b * (64 * 2 ^ j * 2) + t - n < n) ->
  n <= nB * (64 * 2 ^ j * 2) ->
  (exists i, i < n /\ f i = V) -> (forall i, i < n -> dom (f i) V) ->
  (Z.of_nat (64 * 2 ^ j) <= maxPerBlock dev)%Z -> 0 < nB ->
  (forall b, fair_block (64 * 2 ^ j) sch b) ->
  exists l, launch dev k sch (Z.of_nat n) (Z.of_nat nB) (Z.of_nat (64 * 2 ^ j)) = Ok l /\
    length l = nB /\ best l V.
Proof.
  intros dev j k sch n nB f V Hr Hp He Hpad Hwrap Hcov (i0 & Hi0 & HV) HV2 Hm Hn Hf.
  set (T := 64 * 2 ^ j) in *.
  assert (HT : 0 < T) by (unfold T; pose proof (pow2_pos j); lia).
  set (v := fun b t =>
    let idx := b * (T * 2) + t in
    if idx <? n then if idx + T <? n then sel (f idx) (f (idx + T)) else f idx
    else match pad k with Some z => z | None => f (idx - n) end).
  assert (Hvd : forall b t, b < nB -> t < T -> dom (v b t) V).
  { intros b t Hb Ht. unfold v. cbv zeta.
    destruct (Nat.ltb_spec (b * (T * 2) + t) n) as [H1|H1].
    - destruct (Nat.ltb_spec (b * (T * 2) + t + T) n) as [H2|H2]; auto.
    - destruct (pad k) as [z|] eqn:E; [now apply Hpad|]. apply HV2. now apply Hwrap. }
  exists (map (fun b => bf sel (v b) (T - 1)) (seq 0 nB)).
  split; [|split; [now rewrite map_length, seq_length|]].
  - unfold T. apply launch_bf; auto. intros b t Hb Ht. unfold load. fold T.
    unfold v. cbv zeta.
    destruct (Nat.ltb_spec (b * (T * 2) + t) n) as [H1|H1].
    + rewrite He by auto. destruct (Nat.ltb_spec (b * (T * 2) + t + T) n) as [H2|H2]; auto.
      rewrite He by auto. now rewrite Hp.
    + destruct (pad k) as [z|] eqn:E; [reflexivity|]. apply He. now apply Hwrap.
  - split.
    + pose proof (Nat.div_mod i0 (T * 2) ltac:(lia)) as Hdm.
      pose proof (Nat.mod_upper_bound i0 (T * 2) ltac:(lia)) as Hmb.
      set (b0 := i0 / (T * 2)) in *. set (r0 := i0 mod (T * 2)) in *.
      assert (Hb0 : b0 < nB).
      { apply Nat.div_lt_upper_bound; lia. }
      assert (Ht : exists t, t < T /\ dom V (v b0 t)).
      { destruct (Nat.lt_ge_cases r0 T) as [H|H].
        - exists r0. split; auto. unfold v. cbv zeta.
          replace (b0 * (T * 2) + r0) with i0 by lia.
          rewrite (proj2 (Nat.ltb_lt i0 n) Hi0), HV.
          destruct (i0 + T <? n); [apply dom_l|apply dom_refl].
        - exists (r0 - T). split; [lia|]. unfold v. cbv zeta.
          replace (b0 * (T * 2) + (r0 - T) + T) with i0 by lia.
          rewrite (proj2 (Nat.ltb_lt (b0 * (T * 2) + (r0 - T)) n)) by lia.
          rewrite (proj2 (Nat.ltb_lt i0 n) Hi0), HV. apply dom_r. }
      destruct Ht as (t & Ht & Hd). apply in_map_iff. exists b0. split.
      * apply dom_anti.
        -- apply bf_lub. intros t' Ht'. apply Hvd; auto. lia.
        -- eapply dom_trans; [exact Hd|]. apply bf_dom. lia.
      * apply in_seq. lia.
    + intros x Hx. apply in_map_iff in Hx. destruct Hx as (b & <- & Hb).
      apply in_seq in Hb. apply bf_lub. intros t Ht. apply Hvd; lia.
Qed.

Variable better : R -> R -> bool.
Hypothesis better_sel : forall x y, (if better y x then y else x) = sel x y.

Lemma host_select_ok : forall l v, best l v -> host_select better l = Ok v.
Proof.
  intros l v [Hi Hd]. unfold host_select. destruct l as [|x l]; [contradiction|].
  f_equal.
  assert (K : forall l a,
    (forall y, In y l -> dom y (fold_left (fun b y => if better y b then y else b) l a)) /\
    dom a (fold_left (fun b y => if better y b then y else b) l a) /\
    (forall z, dom a z -> (forall y, In y l -> dom y z) ->
       dom (fold_left (fun b y => if better y b then y else b) l a) z)).
  { clear - better_sel dom_l dom_lub dom_trans dom_refl selC.
    induction l as [|y l IH]; intro a; cbn [fold_left].
    - repeat split; auto. intros y [].
    - rewrite better_sel. destruct (IH (sel a y)) as (H1 & H2 & H3). repeat split.
      + intros z [->|Hz]; auto. eapply dom_trans; [apply dom_r|apply H2].
      + eapply dom_trans; [apply dom_l|apply H2].
      + intros z Ha Hz. apply H3; [apply dom_lub; auto; apply Hz; now left|].
        intros w Hw. apply Hz. now right. }
  destruct (K l x) as (K1 & K2 & K3). apply dom_anti.
  - apply K3; [apply Hd; now left|]. intros y Hy. apply Hd. now right.
  - destruct Hi as [<-|Hi]; auto.
Qed.

End Select.

Lemma Rgtb : forall x y, gt rarith x y = true <-> (y < x)%R.
Proof.
  intros x y. unfold rarith. cbn [gt]. destruct (Rlt_dec y x); split; auto; discriminate.
Qed.

Lemma red_max_R : forall x y, red_max rarith x y = Rmax x y.
Proof.
  intros. unfold red_max, rarith, Rmax. cbn [gt].
  destruct (Rlt_dec x y), (Rle_dec x y); lra.
Qed.
Lemma pair_max_R : forall x y, pair_max rarith x y = Rmax x y.
Proof.
  intros. unfold pair_max, rarith, Rmax. cbn [gt].
  destruct (Rlt_dec y x), (Rle_dec x y); lra.
Qed.
Lemma red_min_R : forall x y, red_min rarith x y = Rmin x y.
Proof.
  intros. unfold red_min, lt, rarith, Rmin. cbn [gt].
  destruct (Rlt_dec y x), (Rle_dec x y); lra.
Qed.
Lemma pair_min_R : forall x y, pair_min rarith x y = Rmin x y.
Proof.
  intros. unfold pair_min, lt, rarith, Rmin. cbn [gt].
  destruct (Rlt_dec x y), (Rle_dec x y); lra.
Qed.
