(** Proofs about the execution configuration on a mesh. *)
From Coq Require Import ZArith List Bool Arith Lia.
From Verif Require Import Base GpuThreads GpuReduceProofs GpuHostProofs GpuMesh.
Import ListNotations.
Local Open Scope Z_scope.

Definition p2 (k : nat) : Z := 2 ^ Z.of_nat k.

Lemma p2_pos : forall k, 0 < p2 k.
Proof. intro. apply Z.pow_pos_nonneg; lia. Qed.

Lemma p2_S : forall k, p2 (S k) = 2 * p2 k.
Proof. intro. unfold p2. rewrite Nat2Z.inj_succ, Z.pow_succ_r; lia. Qed.

Lemma p2_add : forall a b, p2 (a + b) = p2 a * p2 b.
Proof. intros. unfold p2. rewrite Nat2Z.inj_add, Z.pow_add_r; lia. Qed.

Lemma p2_lt : forall a b, p2 a < p2 b <-> (a < b)%nat.
Proof.
  intros. unfold p2. split; intro H.
  - apply Z.pow_lt_mono_r_iff in H; lia.
  - apply Z.pow_lt_mono_r; lia.
Qed.

Lemma p2_le : forall a b, p2 a <= p2 b <-> (a <= b)%nat.
Proof.
  intros a b. destruct (Z.lt_ge_cases (p2 b) (p2 a)) as [H|H].
  - split; intro K; [lia|]. apply p2_lt in H. lia.
  - split; intro K; [|lia]. destruct (Nat.le_gt_cases a b); auto.
    apply p2_lt in H0. lia.
Qed.

Lemma p2_lin : forall k, Z.of_nat k < p2 k.
Proof. induction k; [reflexivity|]. rewrite p2_S. pose proof (p2_pos k). lia. Qed.

Lemma p2_half : forall k, Z.quot (p2 (S k)) 2 = p2 k.
Proof. intro. rewrite p2_S, Z.mul_comm. apply Z.quot_mul. lia. Qed.

Lemma p2_land : forall k, Z.land (p2 k) (p2 k - 1) = 0.
Proof.
  intro k. unfold p2. rewrite Z.sub_1_r, <- Z.ones_equiv, Z.land_ones by lia.
  apply Z.mod_same. apply Z.pow_nonzero; lia.
Qed.

Lemma land_p2 : forall n, 0 < n -> Z.land n (n - 1) = 0 -> exists k, n = p2 k.
Proof.
  intros n Hn H. destruct (pow2_of_land n Hn H) as (k & Hk & ->).
  exists (Z.to_nat k). unfold p2. now rewrite Z2Nat.id.
Qed.

Lemma p2_rem : forall a b, (a <= b)%nat -> Z.rem (p2 b) (p2 a) = 0.
Proof.
  intros a b H. replace b with ((b - a) + a)%nat by lia. rewrite p2_add.
  apply Z.rem_mul. pose proof (p2_pos a). lia.
Qed.

(** The lowest set bit *)
Lemma land_double : forall a b, Z.land (2 * a) (2 * b) = 2 * Z.land a b.
Proof.
  intros. rewrite !(Z.mul_comm 2). rewrite <- !(Z.shiftl_mul_pow2 _ 1) by lia.
  symmetry. apply Z.shiftl_land.
Qed.

Lemma land_odd : forall a b, Z.land (2 * a + 1) (2 * b + 1) = 2 * Z.land a b + 1.
Proof.
  intros. apply Z.bits_inj'. intros n Hn. rewrite Z.land_spec.
  destruct (Z.eq_dec n 0) as [->|H].
  - rewrite !Z.testbit_odd_0. reflexivity.
  - replace n with (Z.succ (n - 1)) by lia.
    rewrite !Z.testbit_odd_succ by lia. now rewrite Z.land_spec.
Qed.

Lemma lowbit : forall n, 0 < n ->
  exists k q, n = p2 k * (2 * q + 1) /\ 0 <= q /\ Z.land n (Z.lnot (n - 1)) = p2 k.
Proof.
  assert (K : forall m n, (Z.to_nat n <= m)%nat -> 0 < n ->
    exists k q, n = p2 k * (2 * q + 1) /\ 0 <= q /\ Z.land n (- n) = p2 k).
  { induction m; intros n Hm Hn; [lia|].
    destruct (Z.Even_or_Odd n) as [[h ->]|[h ->]].
    - destruct (IHm h) as (k & q & E & Hq & L); try lia.
      exists (S k), q. rewrite p2_S. split; [lia|]. split; auto.
      replace (- (2 * h)) with (2 * (- h)) by lia. now rewrite land_double, L.
    - exists O, h. split; [unfold p2; cbn [Z.of_nat]; change (2 ^ 0) with 1; lia|].
      split; [lia|]. replace (- (2 * h + 1)) with (2 * (Z.lnot h) + 1).
      + rewrite land_odd, Z.land_lnot_diag. reflexivity.
      + unfold Z.lnot. lia. }
  intros n Hn. replace (Z.lnot (n - 1)) with (- n) by (unfold Z.lnot; lia).
  apply (K (Z.to_nat n)); auto.
Qed.

Lemma shrink_p2 : forall fuel k w mx, (k < fuel)%nat -> (w <= k)%nat -> p2 w <= mx ->
  exists k', shrink fuel (p2 k) mx = Ok (p2 k') /\ (w <= k')%nat /\ p2 k' <= mx.
Proof.
  induction fuel; intros k w mx Hf Hw Hm; [lia|]. cbn [shrink].
  destruct (Z.ltb_spec mx (p2 k)) as [H|H].
  - destruct k as [|k].
    + assert (w = O) by lia. subst. lia.
    + rewrite p2_half. apply IHfuel; auto; [lia|].
      assert (p2 w < p2 (S k)) by lia. apply p2_lt in H0. lia.
  - exists k. auto.
Qed.

(** ** Dimensions *)

Lemma pow2_up_ok : forall fuel k m, 0 < m -> (k = O \/ p2 k < 2 * m) ->
  m - p2 k < Z.of_nat fuel -> (0 < fuel)%nat ->
  exists k', pow2_up fuel (p2 k) m = Ok (p2 k') /\ m <= p2 k' /\ (k' = O \/ p2 k' < 2 * m).
Proof.
  induction fuel; intros k m Hm Hk Hf Hf0; [lia|]. cbn [pow2_up].
  destruct (Z.ltb_spec (p2 k) m) as [H|H].
  - replace (p2 k * 2) with (p2 (S k)) by (rewrite p2_S; lia).
    pose proof (p2_pos k). apply IHfuel; auto.
    + right. rewrite p2_S. lia.
    + rewrite p2_S. lia.
    + lia.
  - exists k. auto.
Qed.

Lemma ceil_grid_ok : forall m b, 0 < m -> 0 < b ->
  0 < ceil_grid m b /\ m <= b * ceil_grid m b /\ (b = 1 -> ceil_grid m b = m) /\
  b * (ceil_grid m b - 1) < m.
Proof.
  intros m b Hm Hb. unfold ceil_grid.
  rewrite Z.quot_div_nonneg, Z.rem_mod_nonneg by lia.
  pose proof (Z.div_mod m b ltac:(lia)) as Hd. pose proof (Z.mod_pos_bound m b Hb) as Hr.
  destruct (Z.eqb_spec (m mod b) 0) as [E|E].
  - split; [nia|]. split; [nia|]. split; [|nia]. intros ->. rewrite Z.div_1_r. reflexivity.
  - assert (0 <= m / b) by (apply Z.div_pos; lia). split; [lia|]. split; [nia|].
    split; [|nia]. intros ->. rewrite Z.mod_1_r in E. lia.
Qed.

Lemma block_x_ok : forall mx, 0 < mx -> exists a, block_x mx 32 = p2 a /\ (a <= 5)%nat.
Proof.
  intros mx Hm. unfold block_x.
  destruct (Z.eqb_spec (Z.rem mx 32) 0) as [E|E]; [exists 5%nat; split; [reflexivity|lia]|].
  destruct (Z.eqb_spec (Z.land mx (mx - 1)) 0) as [E2|E2].
  - destruct (land_p2 mx Hm E2) as (k & ->). exists k. split; auto.
    destruct (Nat.le_gt_cases k 5); auto. exfalso. apply E. change 32 with (p2 5).
    apply p2_rem. lia.
  - change (Z.quot 32 2) with 16. destruct (Z.rem (Z.quot mx 16) 2 =? 0).
    + exists 4%nat. split; [reflexivity|lia].
    + exists 5%nat. split; [reflexivity|lia].
Qed.

Lemma shrink_block_ok : forall fuel t a c e my mz gY gz,
  (c + e < fuel)%nat -> (a <= t)%nat -> (t <= a + c + e)%nat -> 0 < my -> 0 < mz ->
  0 < gY -> my <= p2 c * gY -> (c = O -> gY = my) ->
  0 < gz -> mz <= p2 e * gz -> p2 c * (gY - 1) < my -> p2 e * (gz - 1) < mz ->
  exists c' e' gY' gz',
    shrink_block fuel (p2 t) my mz (p2 a) (p2 c) gY (p2 e) gz = Ok (p2 c', gY', p2 e', gz') /\
    (a + c' + e' = t)%nat /\ (c' <= c)%nat /\ (e' <= e)%nat /\
    0 < gY' /\ my <= p2 c' * gY' /\ 0 < gz' /\ mz <= p2 e' * gz' /\
    p2 c' * (gY' - 1) < my /\ p2 e' * (gz' - 1) < mz.
Proof.
  induction fuel; intros t a c e my mz gY gz Hf Ha Ht Hmy Hmz HgY Hcy Hc0 Hgz Hcz Hiy Hiz; [lia|].
  cbn [shrink_block]. rewrite <- !p2_add.
  destruct (Z.ltb_spec (p2 t) (p2 (a + c + e))) as [H|H].
  - apply p2_lt in H.
    destruct ((p2 e * gz - mz <? p2 c * gY - my) || (p2 e =? 1)) eqn:Eo.
    + assert (Hc : (0 < c)%nat).
      { apply orb_prop in Eo. destruct Eo as [Eo|Eo].
        - apply Z.ltb_lt in Eo. destruct c; [|lia]. exfalso.
          rewrite (Hc0 eq_refl) in Eo. change (p2 0) with 1 in Eo. lia.
        - apply Z.eqb_eq in Eo. change 1 with (p2 0) in Eo.
          assert (e = O) by (destruct (Nat.eq_dec e 0); auto; exfalso;
            assert (K : (0 < e)%nat) by lia; apply p2_lt in K; lia). lia. }
      destruct c as [|c]; [lia|].
      assert (H1 : 1 < p2 (S c)) by (rewrite p2_S; pose proof (p2_pos c); lia).
      rewrite (proj2 (Z.ltb_lt 1 _) H1). cbn [check bind]. rewrite p2_half.
      destruct (ceil_grid_ok my (p2 c) Hmy (p2_pos c)) as (G1 & G2 & G3 & G4).
      destruct (IHfuel t a c e my mz (ceil_grid my (p2 c)) gz)
        as (c' & e' & gY' & gz' & E & K1 & K2 & K3 & K4); auto; try lia.
      { intros ->. apply G3. reflexivity. }
      exists c', e', gY', gz'. split; [exact E|]. split; [exact K1|]. split; [lia|]. split; [exact K3|exact K4].
    + apply orb_false_elim in Eo. destruct Eo as [_ Eo]. apply Z.eqb_neq in Eo.
      destruct e as [|e]; [exfalso; apply Eo; reflexivity|]. rewrite p2_half.
      destruct (ceil_grid_ok mz (p2 e) Hmz (p2_pos e)) as (G1 & G2 & G3 & G4).
      destruct (IHfuel t a c e my mz gY (ceil_grid mz (p2 e)))
        as (c' & e' & gY' & gz' & E & K1 & K2 & K3 & K4); auto; try lia.
      exists c', e', gY', gz'. split; [exact E|]. split; [exact K1|]. split; [lia|]. split; [lia|exact K4].
  - apply p2_le in H. exists c, e, gY, gz. split; auto. split; [lia|].
    repeat split; auto.
Qed.

Lemma grow_x_ok : forall fuel mx t a s, (a <= s)%nat -> (s <= t)%nat ->
  mx - p2 a < Z.of_nat fuel -> (0 < fuel)%nat ->
  exists d, grow_x fuel mx (p2 t) (p2 a) (p2 s) = Ok (p2 (a + d), p2 (s + d)) /\
            (s + d <= t)%nat.
Proof.
  induction fuel; intros mx t a s Has Hst Hf Hf0; [lia|]. cbn [grow_x].
  destruct ((p2 a <? mx) && (p2 s <? p2 t)) eqn:E.
  - apply andb_prop in E. destruct E as [E1 E2]. apply Z.ltb_lt in E1, E2. apply p2_lt in E2.
    replace (p2 a * 2) with (p2 (S a)) by (rewrite p2_S; lia).
    replace (p2 s * 2) with (p2 (S s)) by (rewrite p2_S; lia).
    pose proof (p2_pos a).
    destruct (IHfuel mx t (S a) (S s)) as (d & Ed & Hd); try lia.
    { rewrite p2_S. lia. }
    exists (S d). rewrite Ed. split; [f_equal; f_equal; f_equal; lia|lia].
  - exists O. rewrite !Nat.add_0_r. split; auto.
Qed.

Lemma grow_warp_ok : forall fuel w a s, (s <= w)%nat -> (w < s + fuel)%nat ->
  grow_warp fuel (p2 w) (p2 a) (p2 s) = Ok (p2 (a + (w - s)), p2 w).
Proof.
  induction fuel; intros w a s Hs Hf; [lia|]. cbn [grow_warp].
  destruct (Z.ltb_spec (p2 s) (p2 w)) as [H|H].
  - apply p2_lt in H.
    replace (p2 a * 2) with (p2 (S a)) by (rewrite p2_S; lia).
    replace (p2 s * 2) with (p2 (S s)) by (rewrite p2_S; lia).
    rewrite IHfuel by lia. f_equal. f_equal. f_equal. lia.
  - apply p2_le in H. assert (s = w) by lia. subst.
    rewrite Nat.sub_diag, Nat.add_0_r. reflexivity.
Qed.

Definition pos3 (m : dim3) : Prop := 0 < dx m /\ 0 < dy m /\ 0 < dz m.

(** A configuration that is good for mesh m and blocks of at most T threads *)
Definition good (m b g : dim3) (T : Z) : Prop :=
  exists i j k, b = Dim3 (p2 i) (p2 j) (p2 k) /\ (5 <= i + j + k)%nat /\
    p2 (i + j + k) = T /\ (k <= 6)%nat /\ pos3 g /\
    (dx m <= dx b * dx g /\ dy m <= dy b * dy g /\ dz m <= dz b * dz g) /\
    dx b * (dx g - 1) < dx m /\ dy b * (dy g - 1) < dy m /\ dz b * (dz g - 1) < dz m.

Lemma dimensions_ok : forall m t, pos3 m -> (5 <= t)%nat ->
  exists b g T, dimensions m 32 (p2 t) = Ok (b, g, T) /\ good m b g T /\ T <= p2 t.
Proof.
  intros [mx my mz] t (Hx & Hy & Hz) Ht. cbn [dx dy dz] in *. unfold dimensions.
  cbn [dx dy dz].
  destruct (block_x_ok mx Hx) as (a & -> & Ha).
  change (pow2_up (S (Z.to_nat my)) 1 my) with (pow2_up (S (Z.to_nat my)) (p2 0) my).
  change (pow2_up (S (Z.to_nat mz)) 1 mz) with (pow2_up (S (Z.to_nat mz)) (p2 0) mz).
  destruct (pow2_up_ok (S (Z.to_nat my)) 0 my Hy) as (c & -> & Hc & Hc2);
    [now left|change (p2 0) with 1; lia|lia|]. cbn [bind].
  destruct (pow2_up_ok (S (Z.to_nat mz)) 0 mz Hz) as (e0 & -> & He & He2);
    [now left|change (p2 0) with 1; lia|lia|]. cbn [bind].
  assert (Hbz : exists e, (if 64 <? p2 e0 then 64 else p2 e0) = p2 e /\ (e <= 6)%nat).
  { destruct (Z.ltb_spec 64 (p2 e0)) as [H|H]; [exists 6%nat; split; [reflexivity|lia]|].
    exists e0. split; auto. change 64 with (p2 6) in H. now apply p2_le in H. }
  destruct Hbz as (e & -> & He6).
  destruct (ceil_grid_ok mz (p2 e) Hz (p2_pos e)) as (G1 & G2 & _ & G4).
  destruct (Z.leb_spec (p2 t) (p2 a * p2 c * p2 e)) as [HT|HT].
  - rewrite <- !p2_add in *. apply p2_le in HT.
    destruct (shrink_block_ok (S (Z.to_nat (p2 (a + c + e)))) t a c e my mz 1
                (ceil_grid mz (p2 e))) as (c' & e' & gY & gz & E & K1 & K2 & K3 & K4 & K5 & K6 & K7 & K8 & K9);
      auto; try lia.
    { pose proof (p2_lin (a + c + e)). lia. }
    { intros ->. change (p2 0) with 1 in Hc. lia. }
    rewrite E. cbn [bind]. rewrite <- !p2_add, K1, Z.eqb_refl. cbn [check bind].
    change 32 with (p2 5). rewrite p2_rem by lia. change (0 =? 0) with true. cbn [check bind].
    destruct (ceil_grid_ok mx (p2 a) Hx (p2_pos a)) as (X1 & X2 & _ & X4).
    eexists. eexists. eexists. split; [reflexivity|]. split; [|lia].
    exists a, c', e'. split; auto. split; [lia|]. split; [now rewrite K1|].
    split; [lia|]. split; [split; auto|]. cbn [dx dy dz].
    split; [split; [auto|split; auto]|split; [auto|split; auto]].
  - rewrite <- !p2_add in *. apply p2_lt in HT.
    destruct (grow_x_ok (S (Z.to_nat mx)) mx t a (a + c + e)) as (d & -> & Hd); try lia.
    { pose proof (p2_pos a). lia. }
    cbn [bind fst snd].
    assert (Hq : exists d', (if p2 (a + c + e + d) <? 32 then
        _ <- check (0 <? p2 (a + c + e + d)) ;;
        grow_warp (S (Z.to_nat 32)) 32 (p2 (a + d)) (p2 (a + c + e + d))
      else Ok (p2 (a + d), p2 (a + c + e + d))) = Ok (p2 (a + d'), p2 (a + c + e + d')) /\
      (5 <= a + c + e + d' <= t)%nat).
    { destruct (Z.ltb_spec (p2 (a + c + e + d)) 32) as [H|H].
      - change 32 with (p2 5) in *. rewrite (proj2 (Z.ltb_lt 0 _) (p2_pos _)).
        cbn [check bind]. apply p2_lt in H. change (Z.to_nat (p2 5)) with 32%nat.
        rewrite grow_warp_ok by lia. exists (5 - (a + c + e))%nat.
        split; [f_equal; f_equal; f_equal; lia|lia].
      - change 32 with (p2 5) in H. apply p2_le in H. exists d. split; [reflexivity|lia]. }
    destruct Hq as (d' & -> & Hd'). cbn [bind fst snd].
    destruct (ceil_grid_ok mx (p2 (a + d')) Hx (p2_pos _)) as (X1 & X2 & _ & X4).
    eexists. eexists. eexists. split; [reflexivity|]. split; [|apply p2_le; lia].
    exists (a + d')%nat, c, e. split; auto. split; [lia|].
    split; [f_equal; lia|]. split; [lia|]. split; [split; [exact X1|split; [cbn; lia|exact G1]]|].
    cbn [dx dy dz]. split; [split; [auto|split; [lia|auto]]|split; [auto|split; [lia|auto]]].
Qed.

(** ** States *)

(** A device with warps of 32 threads *)
Definition device_ok (dev : device) : Prop :=
  warpSize dev = 32 /\ 32 <= maxPerBlock dev /\ 0 < maxPerSM dev /\ maxPerSM dev mod 32 = 0.

Lemma lowbit32 : forall n k q, n = p2 k * (2 * q + 1) -> n mod 32 = 0 -> (5 <= k)%nat.
Proof.
  intros n k q E H. destruct (Nat.le_gt_cases 5 k) as [|Hk]; auto. exfalso.
  assert (K : exists h, 32 = p2 k * (2 * h)).
  { exists (p2 (4 - k)). replace (2 * p2 (4 - k)) with (p2 (S (4 - k))) by apply p2_S.
    rewrite <- p2_add. replace (k + S (4 - k))%nat with 5%nat by lia. reflexivity. }
  destruct K as (h & Eh). apply Z.mod_divide in H; [|lia]. destruct H as (z & Ez).
  rewrite E, Eh in Ez. pose proof (p2_pos k).
  assert (p2 k * (2 * q + 1) = p2 k * (z * (2 * h))) by lia.
  apply Z.mul_cancel_l in H0; lia.
Qed.

Lemma m_init_ok : forall dev st, device_ok dev ->
  exists k, (5 <= k)%nat /\ p2 k <= maxPerBlock dev /\
    m_init dev st = Ok (Tmesh (maxPerSM dev) (p2 k) (m_tpb st) 32 (mesh st) (blk st) (grid st)).
Proof.
  intros dev st (Hw & Hb & Hs & Hm). unfold m_init.
  destruct (lowbit (maxPerSM dev) Hs) as (k & q & E & Hq & ->).
  pose proof (lowbit32 _ k q E Hm) as Hk.
  destruct (shrink_p2 (S (Z.to_nat (p2 k))) k 5 (maxPerBlock dev)) as (k' & -> & K1 & K2); auto.
  - pose proof (p2_lin k). lia.
  - cbn [bind]. rewrite Hw. exists k'. auto.
Qed.

(** Initialised, with a configuration for a mesh of dimension D or none *)
Definition flat (D : nat) (m : dim3) : Prop :=
  ((D <= 1)%nat -> dy m = 1) /\ ((D <= 2)%nat -> dz m = 1).

Definition minv (D : nat) (st : tmesh) : Prop :=
  (exists k, m_max st = p2 k /\ (5 <= k)%nat) /\ m_warp st = 32 /\
  (mesh st = Dim3 0 0 0 \/
   (pos3 (mesh st) /\ flat D (mesh st) /\ good (mesh st) (blk st) (grid st) (m_tpb st))).

(** Requests that setConfig accepts *)
Definition request (D : nat) (dims : list Z) (bs : Z) : Prop :=
  length dims = D /\ (1 <= D <= 3)%nat /\ (forall d, In d dims -> 0 < d) /\
  (bs < 0 \/ exists k, bs = p2 k /\ (5 <= k)%nat).

Lemma ordered_length : forall inv dims, length (ordered inv dims) = length dims.
Proof. intros [] dims; cbn [ordered]; [apply rev_length|auto]. Qed.

Lemma ordered_in : forall inv dims d, In d (ordered inv dims) -> In d dims.
Proof. intros [] dims d H; cbn [ordered] in H; auto. now apply in_rev. Qed.

Lemma to_dim3_pos : forall D dims bs inv, request D dims bs ->
  pos3 (to_dim3 inv dims) /\ flat D (to_dim3 inv dims).
Proof.
  intros D dims bs inv (Hl & HD & Hp & _).
  pose proof (ordered_length inv dims) as Ho. pose proof (ordered_in inv dims) as Hi.
  unfold to_dim3. destruct (ordered inv dims) as [|x [|y [|z r]]]; cbn [length In] in *.
  - lia.
  - unfold pos3, flat. cbn [dx dy dz]. assert (0 < x) by (apply Hp, Hi; now left).
    repeat split; intros; lia.
  - unfold pos3, flat. cbn [dx dy dz]. assert (0 < x) by (apply Hp, Hi; now left).
    assert (0 < y) by (apply Hp, Hi; right; now left).
    repeat split; intros; lia.
  - unfold pos3, flat. cbn [dx dy dz]. assert (0 < x) by (apply Hp, Hi; now left).
    assert (0 < y) by (apply Hp, Hi; right; now left).
    assert (0 < z) by (apply Hp, Hi; right; right; now left).
    repeat split; intros; lia.
Qed.

Lemma matches_mesh : forall D dims inv bs st, request D dims bs -> minv D st ->
  matches dims inv bs st = true ->
  mesh st = to_dim3 inv dims /\ pos3 (mesh st) /\
  good (mesh st) (blk st) (grid st) (m_tpb st) /\ (bs < 0 \/ bs = m_tpb st).
Proof.
  intros D dims inv bs st Hr (_ & _ & Hm) H.
  destruct (to_dim3_pos D dims bs inv Hr) as [Hp Hf].
  unfold matches in H.
  destruct ((0 <? bs) && negb (bs =? m_tpb st)) eqn:Eb; [discriminate|].
  assert (Hbs : bs < 0 \/ bs = m_tpb st).
  { destruct Hr as (_ & _ & _ & [Hb|(k & -> & Hk)]); [now left|right].
    rewrite (proj2 (Z.ltb_lt 0 _) (p2_pos k)) in Eb. cbn [andb] in Eb.
    apply negb_false_iff in Eb. now apply Z.eqb_eq in Eb. }
  destruct Hr as (Hl & HD & _).
  pose proof (ordered_length inv dims) as Ho. unfold to_dim3 in *.
  destruct Hp as (P1 & P2 & P3).
  destruct (ordered inv dims) as [|x [|y [|z r]]]; cbn [length dx dy dz] in *.
  - lia.
  - apply Z.eqb_eq in H. destruct Hm as [Hm|(Hm1 & [Hm2 Hm2'] & Hm3)].
    + rewrite Hm in H. cbn in H. lia.
    + split; [|auto]. destruct (mesh st) as [a b c]; cbn [dx dy dz] in *.
      rewrite Hm2, Hm2', H by lia. reflexivity.
  - apply andb_prop in H. destruct H as [H1 H2]. apply Z.eqb_eq in H1, H2.
    destruct Hm as [Hm|(Hm1 & [Hm2 Hm2'] & Hm3)].
    + rewrite Hm in H1. cbn in H1. lia.
    + split; [|auto]. destruct (mesh st) as [a b c]; cbn [dx dy dz] in *.
      rewrite Hm2', H1, H2 by lia. reflexivity.
  - apply andb_prop in H. destruct H as [H H3]. apply andb_prop in H. destruct H as [H1 H2].
    apply Z.eqb_eq in H1, H2, H3.
    destruct Hm as [Hm|(Hm1 & [Hm2 Hm2'] & Hm3)].
    + rewrite Hm in H1. cbn in H1. lia.
    + split; [|auto]. destruct (mesh st) as [a b c]; cbn [dx dy dz] in *.
      rewrite H1, H2, H3. reflexivity.
Qed.

Lemma checkConfig_ok : forall st k, m_max st = p2 k -> (5 <= k)%nat -> m_warp st = 32 ->
  good (mesh st) (blk st) (grid st) (m_tpb st) -> checkConfig st = Ok tt.
Proof.
  intros st k Hk Hk5 Hw (i & j & l & Hb & Hs & HT & Hl & Hg & (C1 & C2 & C3) & _).
  unfold checkConfig. rewrite Hk, Hw. rewrite p2_land. change (0 =? 0) with true. cbn [check bind].
  change 32 with (p2 5). rewrite p2_rem by lia. change (0 =? 0) with true. cbn [check bind].
  rewrite <- HT, p2_rem by lia. change (0 =? 0) with true. cbn [check bind].
  rewrite Hb in *. cbn [dx dy dz] in *.
  pose proof (p2_pos i). pose proof (p2_pos j). pose proof (p2_pos l). pose proof (p2_pos k).
  rewrite !(proj2 (Z.leb_le _ _)) by lia. cbn [andb check bind].
  rewrite <- !p2_add, Z.eqb_refl. cbn [check bind].
  rewrite (proj2 (Z.eqb_neq (p2 k) 0)) by lia. reflexivity.
Qed.

(** One call, from a state of the same dimension *)
Theorem setConfig_ok : forall dev D dims inv bs st,
  device_ok dev -> request D dims bs ->
  st = tmesh0 \/ minv D st ->
  exists st', setConfig dev dims inv bs st = (st', Ok tt) /\ minv D st' /\
    mesh st' = to_dim3 inv dims /\ good (mesh st') (blk st') (grid st') (m_tpb st') /\
    (matches dims inv bs st = false -> m_tpb st' <= (if bs <? 0 then m_max st' else bs)).
Proof.
  intros dev D dims inv bs st Hd Hr Hst. unfold setConfig.
  destruct (to_dim3_pos D dims bs inv Hr) as [Hp Hf].
  assert (Hall : forallb (fun d => 0 <? d) dims = true).
  { apply forallb_forall. intros d Hi. apply Z.ltb_lt. now apply Hr. }
  rewrite Hall. cbn [negb].
  assert (H1 : exists st1, (if m_max st =? -1 then m_init dev st else Ok st) = Ok st1 /\
             minv D st1 /\ mesh st1 = mesh st /\ m_tpb st1 = m_tpb st).
  { destruct Hst as [->|Hst].
    - change (m_max tmesh0 =? -1) with true. cbv iota.
      destruct (m_init_ok dev tmesh0 Hd) as (k & Hk & _ & E). rewrite E.
      eexists. split; [reflexivity|]. split; [|split; reflexivity].
      split; [exists k; auto|]. split; auto.
    - pose proof Hst as ((k & Hk & _) & _). rewrite Hk. pose proof (p2_pos k).
      rewrite (proj2 (Z.eqb_neq (p2 k) (-1))) by lia. exists st. auto. }
  destruct H1 as (st1 & E1 & I1 & EM & ET). rewrite E1. cbn [orelse].
  assert (Em : matches dims inv bs st = matches dims inv bs st1).
  { unfold matches. now rewrite EM, ET. }
  rewrite Em. destruct (matches dims inv bs st1) eqn:Emt.
  - destruct (matches_mesh D dims inv bs st1 Hr I1 Emt) as (K1 & K2 & K3 & K4).
    exists st1. split; auto. split; auto. split; auto. split; auto. discriminate.
  - pose proof I1 as ((k & Hk & Hk5) & Hw & _).
    set (st2 := set_mesh st1 (to_dim3 inv dims)).
    assert (HT : exists t, requested st2 bs = Ok (p2 t) /\ (5 <= t)%nat /\
              p2 t = (if bs <? 0 then m_max st1 else bs)).
    { unfold requested. destruct Hr as (_ & _ & _ & Hb).
      destruct (Z.ltb_spec bs 0) as [Hn|Hn].
      - exists k. unfold st2. cbn [set_mesh m_max]. rewrite Hk. auto.
      - destruct Hb as [Hb|(t & -> & Ht)]; [lia|]. rewrite p2_land.
        change (0 =? 0) with true. cbn [check bind]. unfold st2. cbn [set_mesh m_warp].
        rewrite Hw. change 32 with (p2 5). rewrite (proj2 (Z.leb_le _ _)) by (apply p2_le; lia).
        cbn [check bind]. exists t. auto. }
    destruct HT as (t & E2 & Ht & Ht2). rewrite E2. cbn [orelse].
    change (mesh (set_tpb st2 (p2 t))) with (to_dim3 inv dims).
    change (m_warp (set_tpb st2 (p2 t))) with (m_warp st1). rewrite Hw.
    destruct (dimensions_ok (to_dim3 inv dims) t Hp Ht) as (b & g & T & E3 & Hg & HT).
    rewrite E3. cbn [orelse].
    set (st4 := set_tpb (set_dims (set_tpb st2 (p2 t)) b g) T).
    exists st4. rewrite (checkConfig_ok st4 k Hk Hk5 Hw Hg). split; auto.
    split; [|split; [reflexivity|split; [exact Hg|]]].
    + split; [exists k; auto|]. split; [exact Hw|]. right. split; [exact Hp|]. split; [exact Hf|exact Hg].
    + intros _. unfold st4. cbn [set_tpb set_dims set_mesh m_tpb m_max st2]. rewrite <- Ht2. auto.
Qed.
