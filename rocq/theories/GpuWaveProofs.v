(** Proofs about the GPU kernels that compute minimum images. *)
From Coq Require Import Reals ZArith List Bool Arith Lia Lra Permutation FunctionalExtensionality.
From Verif Require Import Base RSum UnitCell ShiftMin Mesh Fft WaveList GpuThreads GpuReduce GpuReduceProofs GpuGrid GpuWave.
Import ListNotations.
Local Open Scope nat_scope.

(** ** A round under an arbitrary schedule *)
Section Round.

Context {A : Type}.
Variables (rd : A -> A -> A) (act : nat -> bool) (o : nat) (m0 : nat -> option A) (v : nat -> A).
Hypothesis Hact : forall t, act t = true ->
  m0 t = Some (v t) /\ m0 (t + o) = Some (v (t + o)) /\ act (t + o) = false.

Definition rinv (cnt : nat -> nat) (c : conf A) : Prop :=
  (forall t, act t = true ->
     (cnt t = 0 /\ todo c t = [o] /\ reg c t = None /\ mem c t = Some (v t)) \/
     (cnt t = 1 /\ todo c t = [o] /\ reg c t = Some (v (t + o)) /\ mem c t = Some (v t)) \/
     (2 <= cnt t /\ todo c t = [] /\ reg c t = None /\
      mem c t = Some (rd (v t) (v (t + o))))) /\
  (forall t, act t = false -> todo c t = [] /\ mem c t = m0 t).

Lemma run_rinv : forall s cnt c, rinv cnt c ->
  exists c', run rd s c = Ok c' /\ rinv (fun t => cnt t + count_occ Nat.eq_dec s t) c'.
Proof.
  induction s; intros cnt c Hi.
  - exists c. split; auto. destruct Hi as [H1 H2]. split; auto.
    intros t Ht. cbn [count_occ]. rewrite Nat.add_0_r. auto.
  - cbn [run].
    assert (Hs : exists c1, step rd c a = Ok c1 /\
              rinv (fun t => cnt t + (if Nat.eq_dec a t then 1 else 0)) c1).
    { destruct Hi as [H1 H2]. unfold step. destruct (act a) eqn:Ha.
      - destruct (Hact a Ha) as (_ & Hm & Hb).
        destruct (H1 a Ha) as [(E0 & E1 & E2 & E3)|[(E0 & E1 & E2 & E3)|(E0 & E1 & E2 & E3)]];
          rewrite E1.
        + rewrite E2. destruct (H2 (a + o) Hb) as [_ Hmo].
          rewrite Hmo, Hm. eexists. split; [reflexivity|].
          split; cbn [mem todo reg]; [|exact H2].
          intros t Ht. destruct (Nat.eq_dec a t) as [->|Hn].
          * right. left. rewrite set_same. repeat split; auto. lia.
          * rewrite set_other by auto. rewrite Nat.add_0_r. auto.
        + rewrite E2, E3. eexists. split; [reflexivity|].
          split; cbn [mem todo reg].
          * intros t Ht. destruct (Nat.eq_dec a t) as [->|Hn].
            -- right. right. rewrite !set_same. repeat split; auto. lia.
            -- rewrite !set_other by auto. rewrite Nat.add_0_r. auto.
          * intros t Ht. assert (t <> a) by congruence. rewrite !set_other by auto. now apply H2.
        + eexists. split; [reflexivity|]. split; [|exact H2].
          intros t Ht. destruct (Nat.eq_dec a t) as [->|Hn].
          * right. right. repeat split; auto. lia.
          * rewrite Nat.add_0_r. auto.
      - destruct (H2 a Ha) as [E1 _]. rewrite E1.
        eexists. split; [reflexivity|]. split; [|exact H2].
        intros t Ht. destruct (Nat.eq_dec a t) as [->|Hn]; [congruence|].
        rewrite Nat.add_0_r. auto. }
    destruct Hs as (c1 & E1 & Hi1). rewrite E1. cbn [bind].
    destruct (IHs _ _ Hi1) as (c2 & E2 & Hi2).
    exists c2. split; auto. destruct Hi2 as [K1 K2]. split; auto.
    intros t Ht. specialize (K1 t Ht).
    replace (cnt t + count_occ Nat.eq_dec (a :: s) t)
      with (cnt t + (if Nat.eq_dec a t then 1 else 0) + count_occ Nat.eq_dec s t); auto.
    cbn [count_occ]. destruct (Nat.eq_dec a t); lia.
Qed.

Lemma gphase_ok : forall bDim s,
  (forall t, act t = true -> 2 <= count_occ Nat.eq_dec s t) ->
  exists m', gphase rd bDim (fun t => if act t then [o] else []) s m0 = Ok m' /\
    forall t, m' t = if act t then Some (rd (v t) (v (t + o))) else m0 t.
Proof.
  intros bDim s Hs. unfold gphase.
  destruct (run_rinv s (fun _ => 0) (Conf m0 (fun t => if act t then [o] else []) (fun _ => None)))
    as (c & E & K1 & K2).
  - split; cbn [mem todo reg]; intros t Ht; rewrite Ht.
    + left. repeat split; auto. now apply Hact.
    + auto.
  - rewrite E. cbn [bind].
    assert (Hd : all_done bDim c = true).
    { unfold all_done. apply forallb_forall. intros t _. destruct (act t) eqn:Ht.
      - specialize (Hs t Ht). destruct (K1 t Ht) as [K|[K|K]]; destruct K as (K0 & K & _);
          try lia. now rewrite K.
      - destruct (K2 t Ht) as [K _]. now rewrite K. }
    rewrite Hd. exists (mem c). split; auto. intros t. destruct (act t) eqn:Ht.
    + specialize (Hs t Ht). destruct (K1 t Ht) as [K|[K|K]]; destruct K as (K0 & _ & _ & K);
        try lia. auto.
    + now apply K2.
Qed.

End Round.

(** ** The reduction in a block *)
Fixpoint down (n : nat) : list nat :=
  match n with O => [] | S k => 2 ^ k :: down k end.

Lemma strides_2 : strides 2 = down 5.
Proof. reflexivity. Qed.
Lemma strides_3 : strides 3 = down 7.
Proof. reflexivity. Qed.

Lemma split_div : forall T r i, 0 < T -> i < T -> (r * T + i) / T = r.
Proof. intros T r i HT Hi. rewrite Nat.div_add_l by lia. rewrite Nat.div_small by lia. lia. Qed.
Lemma split_mod : forall T r i, 0 < T -> i < T -> (r * T + i) mod T = i.
Proof. intros T r i HT Hi. rewrite Nat.add_comm, Nat.mod_add by lia. now apply Nat.mod_small. Qed.
Lemma div_bound : forall T q t, 0 < T -> t < q * T -> t / T < q.
Proof. intros T q t HT Ht. apply Nat.div_lt_upper_bound; lia. Qed.
Lemma paramID_eq : forall D T q b, threadsPerGP D = T -> 0 < T ->
  forall t, paramID D (q * T) b t = b * q + t / T.
Proof.
  intros D T q b HT HT0 t. unfold paramID. rewrite HT. replace (b * (q * T) + t) with (b * q * T + t) by ring.
  rewrite Nat.div_add_l by lia. reflexivity.
Qed.
Lemma imageID_eq : forall D T q b, threadsPerGP D = T -> 0 < T ->
  forall t, imageID D (q * T) b t = t mod T.
Proof.
  intros D T q b HT HT0 t. unfold imageID. rewrite (paramID_eq D T) by auto. rewrite HT. rewrite (Nat.mod_eq t T) by lia.
  replace ((b * q + t / T) * T) with (b * (q * T) + T * (t / T)) by ring. lia.
Qed.

Section Rounds.

Context {A : Type}.
Variables (rd : A -> A -> A) (D T q kSize b : nat) (cand : nat -> nat -> A) (best : nat -> A).
Hypothesis HT : threadsPerGP D = T.
Hypothesis HT0 : 0 < T.
Hypothesis Hrd : forall u v, rd u v = u \/ rd u v = v.
Hypothesis Hbest : forall p, p < kSize -> exists i, i < T /\ best p = cand p i.
Hypothesis Hbest1 : forall p i, p < kSize -> i < T -> rd (best p) (cand p i) = best p.
Hypothesis Hbest2 : forall p i, p < kSize -> i < T -> rd (cand p i) (best p) = best p.

Definition segs (n : nat) (m : nat -> option A) : Prop :=
  (forall r i, r < q -> b * q + r < kSize -> i < 2 ^ n ->
     exists j, j < T /\ m (r * T + i) = Some (cand (b * q + r) j)) /\
  (forall r, r < q -> b * q + r < kSize ->
     exists i, i < 2 ^ n /\ m (r * T + i) = Some (best (b * q + r))).

Lemma rounds_ok : forall n k sch m, 2 ^ n <= T ->
  (forall k t, t < q * T -> 2 <= count_occ Nat.eq_dec (sch k) t) ->
  segs n m ->
  exists m', rounds rd D kSize (q * T) b (down n) k sch m = Ok m' /\ segs 0 m'.
Proof.
  induction n; intros k sch m Hn Hs Hm; cbn [down rounds].
  - exists m. auto.
  - set (o := 2 ^ n) in *. assert (Ho : 2 ^ S n = 2 * o) by (cbn [Nat.pow]; unfold o; lia).
    rewrite Ho in Hn. assert (Hop : 1 <= o) by apply pow2_pos. destruct Hm as [M1 M2].
    set (act := fun t => (t <? q * T) && (paramID D (q * T) b t <? kSize) && (imageID D (q * T) b t <? o)).
    assert (Act : forall t, act t = true <-> t < q * T /\ b * q + t / T < kSize /\ t mod T < o).
    { intros t. unfold act. rewrite (paramID_eq D T), (imageID_eq D T), !andb_true_iff, !Nat.ltb_lt by auto. tauto. }
    assert (Actr : forall r i, i < T -> r < q -> b * q + r < kSize -> act (r * T + i) = (i <? o)).
    { intros r i Hi Hr Hk. unfold act. rewrite (paramID_eq D T), (imageID_eq D T), split_div, split_mod by auto.
      rewrite (proj2 (Nat.ltb_lt (r * T + i) (q * T))) by nia. rewrite (proj2 (Nat.ltb_lt _ _) Hk). reflexivity. }
    set (v := fun t => match m t with Some u => u | None => best 0 end).
    destruct (gphase_ok rd act o m v) with (bDim := q * T) (s := sch k) as (m' & E & K).
    { intros t Ht. apply Act in Ht. destruct Ht as (H1 & H2 & H3).
      pose proof (div_bound T q t HT0 H1) as H4.
      assert (Et : t = t / T * T + t mod T) by (rewrite Nat.mul_comm; apply Nat.div_mod; lia).
      set (r := t / T) in *. set (i := t mod T) in *.
      destruct (M1 r i H4 H2) as (j & Hj & E1); [lia|].
      destruct (M1 r (i + o) H4 H2) as (j' & Hj' & E2); [lia|].
      replace (r * T + (i + o)) with (t + o) in E2 by lia. rewrite <- Et in E1.
      unfold v. rewrite E1, E2. split; [reflexivity|]. split; [reflexivity|].
      replace (t + o) with (r * T + (i + o)) by lia. rewrite Actr by (auto; lia).
      apply Nat.ltb_ge. lia. }
    { intros t Ht. apply Act in Ht. now apply Hs. }
    change (exists m'0, bind (gphase rd (q * T) (fun t => if act t then [o] else []) (sch k) m)
      (fun m' => rounds rd D kSize (q * T) b (down n) (S k) sch m') = Ok m'0 /\ segs 0 m'0).
    rewrite E. cbn [bind]. apply IHn; [lia|exact Hs|]. fold o. split.
    + intros r i Hr Hk Hi. rewrite K, Actr by (auto; lia). rewrite (proj2 (Nat.ltb_lt i o) Hi).
      destruct (M1 r i Hr Hk) as (j & Hj & E1); [lia|].
      destruct (M1 r (i + o) Hr Hk) as (j' & Hj' & E2); [lia|].
      replace (r * T + (i + o)) with (r * T + i + o) in E2 by lia.
      unfold v. rewrite E1, E2.
      destruct (Hrd (cand (b * q + r) j) (cand (b * q + r) j')) as [-> | ->]; eauto.
    + intros r Hr Hk. destruct (M2 r Hr Hk) as (i & Hi & Ei).
      destruct (Nat.lt_ge_cases i o) as [Hio|Hio].
      * exists i. split; [exact Hio|]. rewrite K, Actr by (auto; lia). rewrite (proj2 (Nat.ltb_lt i o) Hio).
        destruct (M1 r (i + o) Hr Hk) as (j' & Hj' & E2); [lia|].
        replace (r * T + (i + o)) with (r * T + i + o) in E2 by lia.
        unfold v. rewrite Ei, E2. now rewrite Hbest1.
      * exists (i - o). split; [lia|]. rewrite K, Actr by (auto; lia).
        rewrite (proj2 (Nat.ltb_lt (i - o) o)) by lia.
        destruct (M1 r (i - o) Hr Hk) as (j' & Hj' & E2); [lia|].
        replace (r * T + (i - o) + o) with (r * T + i) by lia.
        unfold v. rewrite Ei, E2. now rewrite Hbest2.
Qed.

End Rounds.

(** ** Stores *)
Lemma store_snd : forall D kSize p w a p', snd (store D kSize p w a) p' = if p' =? p then snd w else snd a p'.
Proof. intros. reflexivity. Qed.

Lemma store_fst : forall D kSize p w a p' j, p < kSize -> p' < kSize -> j < D ->
  fst (store D kSize p w a) (p' + j * kSize) = if p' =? p then fst w j else fst a (p' + j * kSize).
Proof.
  intros D kSize p w a p' j Hp Hp' Hj. unfold store. cbn [fst].
  assert (K : forall n m, n <= D ->
    fold_left (fun m j => set m (p + j * kSize) (fst w j)) (seq 0 n) m (p' + j * kSize)
    = if (p' =? p) && (j <? n) then fst w j else m (p' + j * kSize)).
  { induction n; intros m Hn.
    - cbn [seq fold_left]. now rewrite andb_false_r.
    - rewrite seq_S, fold_left_app. cbn [fold_left]. rewrite Nat.add_0_l. unfold set at 1.
      destruct (Nat.eqb_spec (p' + j * kSize) (p + n * kSize)) as [E|E].
      + assert (p' = p /\ j = n) as [-> ->].
        { assert (j = n) by (destruct (Nat.lt_trichotomy j n) as [H|[H|H]]; [nia|exact H|nia]). split; [nia|auto]. }
        rewrite Nat.eqb_refl. rewrite (proj2 (Nat.ltb_lt n (S n))) by lia. reflexivity.
      + rewrite IHn by lia. destruct (Nat.eqb_spec p' p) as [->|Hne]; cbn [andb]; [|reflexivity].
        assert (j <> n) by congruence.
        destruct (Nat.ltb_spec j n), (Nat.ltb_spec j (S n)); try lia; reflexivity. }
  rewrite K by lia. rewrite (proj2 (Nat.ltb_lt j D) Hj), andb_true_r. reflexivity.
Qed.

Lemma store_all_ok : forall D kSize bDim b l m a (best : nat -> wave),
  (forall t, In t l -> imageID D bDim b t = 0 -> paramID D bDim b t < kSize ->
     m t = Some (best (paramID D bDim b t))) ->
  exists a', store_all D kSize bDim b l m a = Ok a' /\
    forall p, p < kSize ->
      let hit := existsb (fun t => (imageID D bDim b t =? 0) && (paramID D bDim b t =? p)) l in
      snd a' p = (if hit then snd (best p) else snd a p) /\
      forall j, j < D -> fst a' (p + j * kSize) = if hit then fst (best p) j else fst a (p + j * kSize).
Proof.
  intros D kSize bDim b. induction l as [|t l IH]; intros m a best H; cbn [store_all existsb].
  - exists a. split; [reflexivity|]. intros p Hp. cbv zeta. split; auto.
  - destruct (Nat.eqb_spec (imageID D bDim b t) 0) as [Ei|Ei]; cbn [andb orb].
    + destruct (Nat.ltb_spec (paramID D bDim b t) kSize) as [Hk|Hk].
      * rewrite (H t) by (auto; now left).
        destruct (IH m (store D kSize (paramID D bDim b t) (best (paramID D bDim b t)) a) best) as (a' & E & K).
        { intros t' Ht'. apply H. now right. }
        exists a'. split; [exact E|]. intros p Hp. destruct (K p Hp) as [K1 K2]. cbv zeta in *. split.
        -- rewrite K1. rewrite store_snd. rewrite (Nat.eqb_sym p).
           destruct (Nat.eqb_spec (paramID D bDim b t) p) as [->|Hne]; cbn [orb]; [|reflexivity].
           now destruct (existsb _ l).
        -- intros j Hj. rewrite K2, store_fst by auto. rewrite (Nat.eqb_sym p).
           destruct (Nat.eqb_spec (paramID D bDim b t) p) as [->|Hne]; cbn [orb]; [|reflexivity].
           now destruct (existsb _ l).
      * destruct (IH m a best) as (a' & E & K).
        { intros t' Ht'. apply H. now right. }
        exists a'. split; [exact E|]. intros p Hp.
        rewrite (proj2 (Nat.eqb_neq (paramID D bDim b t) p)) by lia. cbn [orb]. now apply K.
    + destruct (IH m a best) as (a' & E & K).
      { intros t' Ht'. apply H. now right. }
      exists a'. split; [exact E|]. exact K.
Qed.

(** ** All blocks *)
Section Blocks.

Variables (D N T q kSize : nat) (d : nat -> Z) (kb : nat -> R) (sch : wsched) (best : nat -> wave).
Variable gm : nat -> Z.
Hypothesis HT : threadsPerGP D = T.
Hypothesis HN : T = 2 ^ N.
Hypothesis HS : strides D = down N.
Hypothesis Hq : 0 < q.
Hypothesis Hsch : forall b k t, t < q * T -> 2 <= count_occ Nat.eq_dec (round_order sch b k) t.

Definition cand (p i : nat) : wave :=
  let u := image_at D kSize gm d p i in (u, gsq D kb u).

Hypothesis Hbest : forall p, p < kSize -> exists i, i < T /\ best p = cand p i.
Hypothesis Hbest1 : forall p i, p < kSize -> i < T -> swap_min D (best p) (cand p i) = best p.
Hypothesis Hbest2 : forall p i, p < kSize -> i < T -> swap_min D (cand p i) (best p) = best p.

Lemma swap_min_or : forall u v, swap_min D u v = u \/ swap_min D u v = v.
Proof.
  intros u v. unfold swap_min. destruct (Rlt_dec _ _); auto. destruct (Rlt_dec _ _); auto.
  destruct (lexlt _ _ _); auto.
Qed.

Lemma T_pos : 0 < T.
Proof. rewrite HN. pose proof (pow2_pos N). lia. Qed.

Lemma image_at_ext : forall gm1 gm2 p i,
  (forall j, j < D -> gm1 (p + j * kSize) = gm2 (p + j * kSize)) ->
  image_at D kSize gm1 d p i = image_at D kSize gm2 d p i.
Proof.
  intros gm1 gm2 p i H. apply functional_extensionality. intros j. unfold image_at.
  destruct (Nat.ltb_spec j D) as [Hj|Hj]; [|reflexivity]. now rewrite H.
Qed.

(** The block that computes wave p is p / q. *)
Lemma images_block_ok : forall a b,
  (forall p j, p < kSize -> p / q = b -> j < D -> fst a (p + j * kSize) = gm (p + j * kSize)) ->
  exists a', images_block D kSize (q * T) d kb sch a b = Ok a' /\
    forall p, p < kSize ->
      snd a' p = (if p / q =? b then snd (best p) else snd a p) /\
      forall j, j < D -> fst a' (p + j * kSize) = if p / q =? b then fst (best p) j else fst a (p + j * kSize).
Proof.
  intros a b Ha. pose proof T_pos as HT0. unfold images_block. rewrite HS.
  assert (Pq : forall r, r < q -> (b * q + r) / q = b).
  { intros r Hr. rewrite Nat.div_add_l by lia. rewrite Nat.div_small by lia. lia. }
  assert (L : forall r i, r < q -> b * q + r < kSize -> i < T ->
    load_images D kSize (q * T) b (fst a) d kb (r * T + i) = Some (cand (b * q + r) i)).
  { intros r i Hr Hk Hi. unfold load_images.
    rewrite (paramID_eq D T q b HT HT0), (imageID_eq D T q b HT HT0).
    rewrite (split_div T r i HT0 Hi), (split_mod T r i HT0 Hi).
    rewrite (proj2 (Nat.ltb_lt (r * T + i) (q * T))) by nia. rewrite (proj2 (Nat.ltb_lt _ _) Hk). cbn [andb].
    unfold cand. cbv zeta. rewrite (image_at_ext (fst a) gm); [reflexivity|].
    intros j Hj. apply Ha; auto. }
  destruct (rounds_ok (swap_min D) D T q kSize b cand best HT HT0 swap_min_or Hbest1 Hbest2
              N 0 (round_order sch b) (load_images D kSize (q * T) b (fst a) d kb)) as (m & E & _ & M2).
  - rewrite HN. auto.
  - intros k t Ht. now apply Hsch.
  - unfold segs. rewrite <- HN. split.
    + intros r i Hr Hk Hi. exists i. split; [exact Hi|]. now apply L.
    + intros r Hr Hk. destruct (Hbest (b * q + r) Hk) as (i & Hi & Ei). exists i. split; [exact Hi|].
      rewrite Ei. now apply L.
  - rewrite E. cbn [bind].
    destruct (store_all_ok D kSize (q * T) b (seq 0 (q * T)) m a best) as (a' & E' & K).
    { intros t Ht Hi Hp. apply in_seq in Ht.
      rewrite (paramID_eq D T q b HT HT0) in Hp |- *. rewrite (imageID_eq D T q b HT HT0) in Hi.
      assert (Hr : t / T < q) by (apply div_bound; lia).
      destruct (M2 (t / T) Hr Hp) as (i & H0 & Em). assert (i = 0) by (cbn [Nat.pow] in H0; lia). subst i.
      rewrite <- Em. f_equal. rewrite (Nat.div_mod t T) at 1 by lia. rewrite Hi. lia. }
    exists a'. split; [exact E'|]. intros p Hp. destruct (K p Hp) as [K1 K2]. cbv zeta in K1, K2.
    assert (Hit : existsb (fun t => (imageID D (q * T) b t =? 0) && (paramID D (q * T) b t =? p)) (seq 0 (q * T))
                  = (p / q =? b)).
    { destruct (Nat.eqb_spec (p / q) b) as [Hpb|Hpb].
      - apply existsb_exists. exists ((p mod q) * T + 0).
        assert (p mod q < q) by (apply Nat.mod_upper_bound; lia).
        split; [apply in_seq; nia|].
        rewrite (imageID_eq D T q b HT HT0), (paramID_eq D T q b HT HT0).
        rewrite split_div, split_mod by lia.
        rewrite andb_true_iff, !Nat.eqb_eq. split; [reflexivity|].
        rewrite <- Hpb. rewrite (Nat.div_mod p q) at 3 by lia. lia.
      - destruct (existsb _ _) eqn:Ex; [|reflexivity]. exfalso.
        apply existsb_exists in Ex. destruct Ex as (t & Ht & Ht'). apply in_seq in Ht.
        rewrite andb_true_iff, !Nat.eqb_eq in Ht'. destruct Ht' as [_ Ht'].
        rewrite (paramID_eq D T q b HT HT0) in Ht'. apply Hpb. rewrite <- Ht'. apply Pq. apply div_bound; lia. }
    rewrite Hit in K1, K2. auto.
Qed.

Lemma images_blocks_ok : forall l a, NoDup l ->
  (forall p j, p < kSize -> In (p / q) l -> j < D -> fst a (p + j * kSize) = gm (p + j * kSize)) ->
  exists a', images_blocks D kSize (q * T) d kb sch l a = Ok a' /\
    forall p, p < kSize -> In (p / q) l ->
      snd a' p = snd (best p) /\ forall j, j < D -> fst a' (p + j * kSize) = fst (best p) j.
Proof.
  assert (G : forall l a, NoDup l ->
    (forall p j, p < kSize -> In (p / q) l -> j < D -> fst a (p + j * kSize) = gm (p + j * kSize)) ->
    exists a', images_blocks D kSize (q * T) d kb sch l a = Ok a' /\
      (forall p, p < kSize -> In (p / q) l ->
        snd a' p = snd (best p) /\ forall j, j < D -> fst a' (p + j * kSize) = fst (best p) j) /\
      (forall p, p < kSize -> ~ In (p / q) l ->
        snd a' p = snd a p /\ forall j, j < D -> fst a' (p + j * kSize) = fst a (p + j * kSize))).
  { induction l as [|b l IH]; intros a Hnd Ha; cbn [images_blocks].
    - exists a. split; [reflexivity|]. split; [intros p _ []|]. auto.
    - apply NoDup_cons_iff in Hnd. destruct Hnd as [Hni Hnd'].
      destruct (images_block_ok a b) as (a1 & E & K).
      { intros p j Hp Hb Hj. apply Ha; auto. left. auto. }
      rewrite E. cbn [bind].
      destruct (IH a1 Hnd') as (a2 & E2 & K1 & K2).
      { intros p j Hp Hi Hj. destruct (K p Hp) as [_ K']. rewrite K' by auto.
        destruct (Nat.eqb_spec (p / q) b) as [Hb|Hb]; [congruence|]. apply Ha; auto. now right. }
      exists a2. split; [exact E2|]. split.
      + intros p Hp [Hb|Hi]; [|now apply K1].
        destruct (K p Hp) as [K3 K4]. rewrite <- Hb, Nat.eqb_refl in K3. 
        assert (Hn : ~ In (p / q) l) by congruence. destruct (K2 p Hp Hn) as [K5 K6].
        split; [congruence|]. intros j Hj. rewrite K6, K4 by auto. now rewrite <- Hb, Nat.eqb_refl.
      + intros p Hp Hn. cbn [In] in Hn. destruct (K p Hp) as [K3 K4].
        destruct (K2 p Hp) as [K5 K6]; [tauto|].
        assert (Hne : p / q <> b) by (intro; apply Hn; auto).
        rewrite (proj2 (Nat.eqb_neq _ _) Hne) in K3. split; [congruence|].
        intros j Hj. rewrite K6, K4 by auto. now rewrite (proj2 (Nat.eqb_neq _ _) Hne). }
  intros l a Hnd Ha. destruct (G l a Hnd Ha) as (a' & E & K & _). exists a'. auto.
Qed.

End Blocks.
