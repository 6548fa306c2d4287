(** Proofs about the parallel reductions: one block, then one launch. *)
From Coq Require Import ZArith List Bool Arith Lia Permutation.
From Verif Require Import Base GpuThreads GpuReduce.
Import ListNotations.

Lemma pow2_pos : forall j, 1 <= 2 ^ j.
Proof. intro j. apply Nat.neq_0_lt_0, Nat.pow_nonzero. lia. Qed.

Section Generic.

Context {A : Type}.
Variable rd : A -> A -> A.

Lemma set_same : forall {B} (f : nat -> B) t v, set f t v t = v.
Proof. intros. unfold set. now rewrite Nat.eqb_refl. Qed.

Lemma set_other : forall {B} (f : nat -> B) t v i, i <> t -> set f t v i = f i.
Proof. intros. unfold set. now rewrite (proj2 (Nat.eqb_neq i t) H). Qed.

Lemma run_app : forall s1 s2 (c : conf A),
  run rd (s1 ++ s2) c = bind (run rd s1 c) (run rd s2).
Proof.
  induction s1; intros; cbn [run app bind]; auto.
  destruct (step rd c a); cbn [bind]; auto.
Qed.

(** ** A strided phase under an arbitrary schedule *)

Definition sinv (o : nat) (m0 : nat -> option A) (v : nat -> A)
  (cnt : nat -> nat) (c : conf A) : Prop :=
  (forall t, t < o ->
     (cnt t = 0 /\ todo c t = [o] /\ reg c t = None /\ mem c t = Some (v t)) \/
     (cnt t = 1 /\ todo c t = [o] /\ reg c t = Some (v (t + o)) /\ mem c t = Some (v t)) \/
     (2 <= cnt t /\ todo c t = [] /\ reg c t = None /\
      mem c t = Some (rd (v t) (v (t + o))))) /\
  (forall t, o <= t -> todo c t = [] /\ mem c t = m0 t).

Lemma run_sinv : forall o m0 v s cnt c,
  (forall t, o <= t -> t < 2 * o -> m0 t = Some (v t)) ->
  sinv o m0 v cnt c ->
  exists c', run rd s c = Ok c' /\
    sinv o m0 v (fun t => cnt t + count_occ Nat.eq_dec s t) c'.
Proof.
  intros o m0 v. induction s; intros cnt c Hm Hi.
  - exists c. split; auto. destruct Hi as [H1 H2]. split; auto.
    intros t Ht. cbn [count_occ]. rewrite Nat.add_0_r. auto.
  - cbn [run].
    assert (Hs : exists c1, step rd c a = Ok c1 /\
              sinv o m0 v (fun t => cnt t + (if Nat.eq_dec a t then 1 else 0)) c1).
    { destruct Hi as [H1 H2].
      destruct (Nat.lt_ge_cases a o) as [Ha|Ha].
      - unfold step.
        destruct (H1 a Ha) as [(E0 & E1 & E2 & E3)|[(E0 & E1 & E2 & E3)|(E0 & E1 & E2 & E3)]];
          rewrite E1.
        + rewrite E2. destruct (H2 (a + o)) as [_ Hmo]; [lia|].
          rewrite Hmo, Hm by lia. eexists. split; [reflexivity|].
          split; cbn [mem todo reg].
          * intros t Ht. destruct (Nat.eq_dec a t) as [->|Hn].
            -- right. left. rewrite set_same. repeat split; auto. lia.
            -- rewrite set_other by auto. rewrite Nat.add_0_r. auto.
          * intros t Ht. apply H2; auto.
        + rewrite E2, E3. eexists. split; [reflexivity|].
          split; cbn [mem todo reg].
          * intros t Ht. destruct (Nat.eq_dec a t) as [->|Hn].
            -- right. right. rewrite !set_same. repeat split; auto. lia.
            -- rewrite !set_other by auto. rewrite Nat.add_0_r. auto.
          * intros t Ht. rewrite !set_other by lia. apply H2; auto.
        + eexists. split; [reflexivity|]. split.
          * intros t Ht. destruct (Nat.eq_dec a t) as [->|Hn].
            -- right. right. repeat split; auto. lia.
            -- rewrite Nat.add_0_r. auto.
          * intros t Ht. apply H2; auto.
      - unfold step. destruct (H2 a Ha) as [E1 _]. rewrite E1.
        eexists. split; [reflexivity|]. split; auto.
        intros t Ht. destruct (Nat.eq_dec a t) as [->|Hn]; [lia|].
        rewrite Nat.add_0_r. auto. }
    destruct Hs as (c1 & E1 & Hi1). rewrite E1. cbn [bind].
    destruct (IHs _ _ Hm Hi1) as (c2 & E2 & Hi2).
    exists c2. split; auto. destruct Hi2 as [K1 K2]. split; auto.
    intros t Ht. specialize (K1 t Ht).
    replace (cnt t + count_occ Nat.eq_dec (a :: s) t)
      with (cnt t + (if Nat.eq_dec a t then 1 else 0) + count_occ Nat.eq_dec s t); auto.
    cbn [count_occ]. destruct (Nat.eq_dec a t); lia.
Qed.

Lemma phase_strided : forall bDim o s m v,
  2 * o <= bDim ->
  (forall t, t < bDim -> m t = Some (v t)) ->
  (forall t, t < o -> 2 <= count_occ Nat.eq_dec s t) ->
  exists m', phase rd bDim o [o] s m = Ok m' /\
    forall t, t < bDim -> m' t = Some (if t <? o then rd (v t) (v (t + o)) else v t).
Proof.
  intros bDim o s m v Ho Hm Hs. unfold phase.
  destruct (run_sinv o m v s (fun _ => 0)
              (Conf m (fun t => if t <? o then [o] else []) (fun _ => None)))
    as (c & E & K1 & K2).
  - intros. apply Hm. lia.
  - split; cbn [mem todo reg].
    + intros t Ht. left. rewrite (proj2 (Nat.ltb_lt t o) Ht). repeat split; auto.
      apply Hm. lia.
    + intros t Ht. rewrite (proj2 (Nat.ltb_ge t o) Ht). auto.
  - rewrite E. cbn [bind].
    assert (Hd : all_done bDim c = true).
    { unfold all_done. apply forallb_forall. intros t _.
      destruct (Nat.lt_ge_cases t o) as [Ht|Ht].
      - specialize (Hs t Ht). destruct (K1 t Ht) as [K|[K|K]]; destruct K as (K0 & K & _);
          try lia. now rewrite K.
      - destruct (K2 t Ht) as [K _]. now rewrite K. }
    rewrite Hd. exists (mem c). split; auto.
    intros t Ht. destruct (Nat.ltb_spec t o) as [Hl|Hl].
    + specialize (Hs t Hl). destruct (K1 t Hl) as [K|[K|K]]; destruct K as (K0 & _ & _ & K);
        try lia. auto.
    + destruct (K2 t Hl) as [_ K]. rewrite K. auto.
Qed.

(** ** The last warp, in lockstep *)

Lemma run_reads : forall o os v r c,
  NoDup r ->
  (forall t, In t r -> todo c t = o :: os /\ reg c t = None /\
                       mem c (t + o) = Some (v (t + o))) ->
  exists c', run rd r c = Ok c' /\
    (forall t, mem c' t = mem c t) /\ (forall t, todo c' t = todo c t) /\
    (forall t, In t r -> reg c' t = Some (v (t + o))) /\
    (forall t, ~ In t r -> reg c' t = reg c t).
Proof.
  intros o os v. induction r; intros c Hn Hr.
  - exists c. repeat split; auto. intros t [].
  - inversion Hn as [|x l Hx Hl]; subst.
    destruct (Hr a) as (E1 & E2 & E3); [now left|].
    cbn [run]. unfold step. rewrite E1, E2, E3. cbn [bind].
    destruct (IHr (Conf (mem c) (todo c) (set (reg c) a (Some (v (a + o))))))
      as (c' & E & K1 & K2 & K3 & K4); auto.
    { intros t Ht. cbn [mem todo reg]. rewrite set_other; [|congruence].
      apply Hr. now right. }
    exists c'. split; auto. cbn [mem todo reg] in *. repeat split; auto.
    + intros t Ht. destruct (in_dec Nat.eq_dec t r) as [Hi|Hi]; auto.
      destruct Ht as [->|Ht]; [|contradiction].
      rewrite K4 by auto. apply set_same.
    + intros t Ht. rewrite K4 by (intro; apply Ht; now right).
      apply set_other. intro. apply Ht. now left.
Qed.

Lemma run_writes : forall o os v x w c,
  NoDup w ->
  (forall t, In t w -> todo c t = o :: os /\ reg c t = Some (x t) /\
                       mem c t = Some (v t)) ->
  exists c', run rd w c = Ok c' /\
    (forall t, In t w -> mem c' t = Some (rd (v t) (x t)) /\ todo c' t = os /\
                         reg c' t = None) /\
    (forall t, ~ In t w -> mem c' t = mem c t /\ todo c' t = todo c t /\
                           reg c' t = reg c t).
Proof.
  intros o os v x. induction w; intros c Hn Hr.
  - exists c. repeat split; auto; intros; contradiction.
  - inversion Hn as [|y l Hx Hl]; subst.
    destruct (Hr a) as (E1 & E2 & E3); [now left|].
    cbn [run]. unfold step. rewrite E1, E2, E3. cbn [bind].
    destruct (IHw (Conf (set (mem c) a (Some (rd (v a) (x a)))) (set (todo c) a os)
                     (set (reg c) a None))) as (c' & E & K1 & K2); auto.
    { intros t Ht. cbn [mem todo reg]. rewrite !set_other; try congruence.
      apply Hr. now right. }
    exists c'. split; auto. cbn [mem todo reg] in *. split.
    + intros t Ht. destruct (in_dec Nat.eq_dec t w) as [Hi|Hi]; auto.
      destruct Ht as [->|Ht]; [|contradiction].
      destruct (K2 t Hi) as (-> & -> & ->). now rewrite !set_same.
    + intros t Ht. destruct (K2 t) as (-> & -> & ->); [intro; apply Ht; now right|].
      rewrite !set_other; auto; intro; apply Ht; now left.
Qed.

(** Lockstep execution of a warp of 32 threads: for each statement all threads
    read, then all threads write, in any order. *)
Inductive lockstep : list nat -> list nat -> Prop :=
| lock_nil : lockstep [] []
| lock_cons : forall o os r w s,
    Permutation r (seq 0 32) -> Permutation w (seq 0 32) ->
    lockstep os s -> lockstep (o :: os) (r ++ w ++ s).

Fixpoint warp_val (os : list nat) (v : nat -> A) : nat -> A :=
  match os with
  | [] => v
  | o :: os' => warp_val os' (fun t => if t <? 32 then rd (v t) (v (t + o)) else v t)
  end.

Lemma run_lockstep : forall os s, lockstep os s -> forall bDim v c,
  64 <= bDim -> (forall o, In o os -> o <= 32) ->
  (forall t, t < bDim -> mem c t = Some (v t)) ->
  (forall t, reg c t = None) ->
  (forall t, todo c t = if t <? 32 then os else []) ->
  exists c', run rd s c = Ok c' /\
    (forall t, t < bDim -> mem c' t = Some (warp_val os v t)) /\
    (forall t, todo c' t = []).
Proof.
  induction 1 as [|o os r w s Hr Hw Hl IH]; intros bDim v c Hb Ho Hm Hg Ht.
  - exists c. repeat split; auto. intros t. rewrite Ht. now destruct (t <? 32).
  - assert (Hri : forall t, In t r <-> t < 32).
    { intro t. split; intro Hi.
      - apply (Permutation_in _ Hr), in_seq in Hi. lia.
      - apply (Permutation_in _ (Permutation_sym Hr)), in_seq. lia. }
    assert (Hwi : forall t, In t w <-> t < 32).
    { intro t. split; intro Hi.
      - apply (Permutation_in _ Hw), in_seq in Hi. lia.
      - apply (Permutation_in _ (Permutation_sym Hw)), in_seq. lia. }
    assert (Hob : o <= 32) by (apply Ho; now left).
    rewrite run_app.
    destruct (run_reads o os v r c) as (c1 & E1 & K1 & K2 & K3 & K4).
    { apply (Permutation_NoDup (Permutation_sym Hr)), seq_NoDup. }
    { intros t Hi. apply Hri in Hi. rewrite Ht, (proj2 (Nat.ltb_lt t 32) Hi).
      repeat split; auto. apply Hm. lia. }
    rewrite E1. cbn [bind]. rewrite run_app.
    destruct (run_writes o os v (fun t => v (t + o)) w c1) as (c2 & E2 & L1 & L2).
    { apply (Permutation_NoDup (Permutation_sym Hw)), seq_NoDup. }
    { intros t Hi. apply Hwi in Hi. rewrite K2, Ht, (proj2 (Nat.ltb_lt t 32) Hi).
      repeat split; auto.
      - apply K3. now apply Hri.
      - rewrite K1. apply Hm. lia. }
    rewrite E2. cbn [bind].
    apply (IH bDim (fun t => if t <? 32 then rd (v t) (v (t + o)) else v t)); auto.
    + intros o' Hi. apply Ho. now right.
    + intros t Hb'. destruct (Nat.ltb_spec t 32) as [Hl32|Hl32].
      * now destruct (L1 t (proj2 (Hwi t) Hl32)) as (-> & _).
      * destruct (L2 t) as (-> & _). { intro Hi. apply Hwi in Hi. lia. }
        rewrite K1. auto.
    + intros t. destruct (Nat.lt_ge_cases t 32) as [Hl32|Hl32].
      * now destruct (L1 t (proj2 (Hwi t) Hl32)) as (_ & _ & ->).
      * destruct (L2 t) as (_ & _ & ->). { intro Hi. apply Hwi in Hi. lia. }
        rewrite K4; auto. intro Hi. apply Hri in Hi. lia.
    + intros t. destruct (Nat.ltb_spec t 32) as [Hl32|Hl32].
      * now destruct (L1 t (proj2 (Hwi t) Hl32)) as (_ & -> & _).
      * destruct (L2 t) as (_ & -> & _). { intro Hi. apply Hwi in Hi. lia. }
        rewrite K2, Ht. now rewrite (proj2 (Nat.ltb_ge t 32) Hl32).
Qed.

Lemma phase_warp : forall bDim s m v,
  64 <= bDim -> lockstep warp_offsets s ->
  (forall t, t < bDim -> m t = Some (v t)) ->
  exists m', phase rd bDim 32 warp_offsets s m = Ok m' /\
    m' 0 = Some (warp_val warp_offsets v 0).
Proof.
  intros bDim s m v Hb Hs Hm. unfold phase.
  destruct (run_lockstep _ _ Hs bDim v
              (Conf m (fun t => if t <? 32 then warp_offsets else []) (fun _ => None)))
    as (c & E & K1 & K2); auto.
  - intros o Ho. unfold warp_offsets in Ho. cbn [In] in Ho. lia.
  - rewrite E. cbn [bind].
    assert (Hd : all_done bDim c = true).
    { unfold all_done. apply forallb_forall. intros t _. now rewrite K2. }
    rewrite Hd. exists (mem c). split; auto. apply K1. lia.
Qed.

(** ** Tree reduction with an associative and commutative operation *)

Hypothesis rdA : forall x y z, rd x (rd y z) = rd (rd x y) z.
Hypothesis rdC : forall x y, rd x y = rd y x.

(** f 0 . f 1 . ... . f n *)
Fixpoint bf (f : nat -> A) (n : nat) : A :=
  match n with O => f 0 | S k => rd (bf f k) (f (S k)) end.

Lemma bf_ext : forall n f g, (forall i, i <= n -> f i = g i) -> bf f n = bf g n.
Proof.
  induction n; intros f g H; cbn [bf]; [apply H; lia|].
  rewrite (IHn f g), (H (S n)); auto.
Qed.

Lemma bf_pair : forall n f g, bf (fun t => rd (f t) (g t)) n = rd (bf f n) (bf g n).
Proof.
  induction n; intros f g; cbn [bf]; auto. rewrite IHn.
  rewrite <- !rdA. f_equal. rewrite !rdA. f_equal. apply rdC.
Qed.

Lemma bf_split : forall a b f,
  bf f (S a + b) = rd (bf f a) (bf (fun t => f (S a + t)) b).
Proof.
  intro a. induction b; intro f.
  - rewrite Nat.add_0_r. cbn [bf]. now rewrite Nat.add_0_r.
  - rewrite Nat.add_succ_r. cbn [bf]. rewrite IHb, <- rdA. f_equal. f_equal.
    f_equal. lia.
Qed.

Lemma bf_halve : forall o f, 0 < o ->
  bf f (2 * o - 1) = bf (fun t => rd (f t) (f (t + o))) (o - 1).
Proof.
  intros o f Ho. replace (2 * o - 1) with (S (o - 1) + (o - 1)) by lia.
  rewrite bf_split. rewrite (bf_pair (o - 1) f (fun t => f (t + o))). f_equal.
  apply bf_ext. intros i _. f_equal. lia.
Qed.

Lemma bf_halve_if : forall o c f, 0 < o -> o <= c ->
  bf (fun t => if t <? c then rd (f t) (f (t + o)) else f t) (o - 1) = bf f (2 * o - 1).
Proof.
  intros. rewrite bf_halve by auto. apply bf_ext. intros i Hi.
  now rewrite (proj2 (Nat.ltb_lt i c)) by lia.
Qed.

Definition wstep (o : nat) (v : nat -> A) : nat -> A :=
  fun t => if t <? 32 then rd (v t) (v (t + o)) else v t.

Lemma wstep_bf : forall o v, 0 < o -> o <= 32 -> bf (wstep o v) (o - 1) = bf v (2 * o - 1).
Proof. intros. apply bf_halve_if; auto. Qed.

Lemma warp_val_bf : forall v, warp_val warp_offsets v 0 = bf v 63.
Proof.
  intro v.
  change (warp_val warp_offsets v 0)
    with (bf (wstep 1 (wstep 2 (wstep 4 (wstep 8 (wstep 16 (wstep 32 v)))))) (1 - 1)).
  rewrite wstep_bf by lia. change (2 * 1 - 1) with (2 - 1).
  rewrite wstep_bf by lia. change (2 * 2 - 1) with (4 - 1).
  rewrite wstep_bf by lia. change (2 * 4 - 1) with (8 - 1).
  rewrite wstep_bf by lia. change (2 * 8 - 1) with (16 - 1).
  rewrite wstep_bf by lia. change (2 * 16 - 1) with (32 - 1).
  rewrite wstep_bf by lia. reflexivity.
Qed.

Lemma strided_bf : forall j fuel k bDim sch m v,
  j < fuel ->
  64 * 2 ^ j <= bDim ->
  (forall t, t < bDim -> m t = Some (v t)) ->
  (forall p t, t < bDim -> 2 <= count_occ Nat.eq_dec (sch p) t) ->
  exists m' v', strided fuel rd bDim (32 * 2 ^ j) k sch m = Ok m' /\
    (forall t, t < bDim -> m' t = Some (v' t)) /\
    bf v' 63 = bf v (64 * 2 ^ j - 1).
Proof.
  induction j; intros fuel k bDim sch m v Hf Hb Hm Hs; (destruct fuel as [|f]; [lia|]).
  - change (32 * 2 ^ 0) with 32. cbn [strided].
    change (32 <? 32) with false. cbn [bind]. exists m, v. repeat split; auto.
  - cbn [strided]. set (o := 32 * 2 ^ S j) in *.
    assert (Ho : o = 2 * (32 * 2 ^ j)) by (unfold o; rewrite Nat.pow_succ_r'; lia).
    assert (Hp : 1 <= 2 ^ j) by apply pow2_pos.
    rewrite (proj2 (Nat.ltb_lt 32 o)) by lia.
    assert (Hb2 : 2 * o <= bDim).
    { rewrite Ho. rewrite Nat.pow_succ_r' in Hb. lia. }
    destruct (phase_strided bDim o (sch k) m v Hb2 Hm) as (m1 & E1 & K1).
    { intros t Ht. apply Hs. lia. }
    rewrite E1. cbn [bind].
    replace (o / 2) with (32 * 2 ^ j)
      by (rewrite Ho, (Nat.mul_comm 2), Nat.div_mul; [reflexivity|lia]).
    destruct (IHj f (S k) bDim sch m1 (fun t => if t <? o then rd (v t) (v (t + o)) else v t))
      as (m' & v' & E & L1 & L2); auto; try lia.
    exists m', v'. repeat split; auto. rewrite L2.
    replace (64 * 2 ^ j - 1) with (o - 1) by lia.
    rewrite bf_halve_if by lia. f_equal. unfold o. rewrite Nat.pow_succ_r'. lia.
Qed.

(** One block: every fair schedule gives the reduction of all loaded values. *)
Definition fair_block (bDim : nat) (sch : schedule) (b : nat) : Prop :=
  (forall p t, t < bDim -> 2 <= count_occ Nat.eq_dec (at_phase sch b p) t) /\
  lockstep warp_offsets (at_warp sch b).

Lemma block_bf : forall j n k sch b v,
  red k = rd ->
  fair_block (64 * 2 ^ j) sch b ->
  (forall t, t < 64 * 2 ^ j -> load k n (64 * 2 ^ j) b t = Some (v t)) ->
  block k sch n (64 * 2 ^ j) b = Ok (bf v (64 * 2 ^ j - 1)).
Proof.
  intros j n k sch b v Hr [Hf Hw] Hl. unfold block. set (bDim := 64 * 2 ^ j) in *.
  assert (Hp : 1 <= 2 ^ j) by apply pow2_pos.
  assert (Hj : j < 2 ^ j) by (apply Nat.pow_gt_lin_r; lia).
  assert (Ha : forallb (fun t => match load k n bDim b t with Some _ => true | None => false end)
                 (seq 0 bDim) = true).
  { apply forallb_forall. intros t Ht. apply in_seq in Ht. now rewrite Hl by lia. }
  rewrite Ha, Hr.
  replace (bDim / 2) with (32 * 2 ^ j).
  2:{ unfold bDim. replace (64 * 2 ^ j) with (32 * 2 ^ j * 2) by lia.
      now rewrite Nat.div_mul by lia. }
  destruct (strided_bf j bDim 0 bDim (at_phase sch b)
              (fun t => if t <? bDim then load k n bDim b t else None) v)
    as (m1 & v1 & E1 & K1 & K2); auto.
  - unfold bDim. lia.
  - intros t Ht. rewrite (proj2 (Nat.ltb_lt t bDim) Ht). auto.
  - rewrite E1. cbn [bind].
    destruct (phase_warp bDim (at_warp sch b) m1 v1) as (m2 & E2 & K3); auto.
    + unfold bDim. lia.
    + rewrite E2. cbn [bind]. rewrite K3, warp_val_bf, K2. reflexivity.
Qed.

Lemma collect_ok : forall m f (g : nat -> A),
  (forall b, b < m -> f b = Ok (g b)) -> collect m f = Ok (map g (seq 0 m)).
Proof.
  induction m; intros f g H; cbn [collect]; auto.
  rewrite (IHm f g) by auto. cbn [bind]. rewrite H by lia. cbn [bind].
  now rewrite seq_S, map_app.
Qed.

Lemma launch_bf : forall dev j k sch n nB (v : nat -> nat -> A),
  red k = rd ->
  (Z.of_nat (64 * 2 ^ j) <= maxPerBlock dev)%Z -> 0 < nB ->
  (forall b, fair_block (64 * 2 ^ j) sch b) ->
  (forall b t, b < nB -> t < 64 * 2 ^ j -> load k n (64 * 2 ^ j) b t = Some (v b t)) ->
  launch dev k sch (Z.of_nat n) (Z.of_nat nB) (Z.of_nat (64 * 2 ^ j)) =
  Ok (map (fun b => bf (v b) (64 * 2 ^ j - 1)) (seq 0 nB)).
Proof.
  intros dev j k sch n nB v Hr Hd Hn Hf Hl. unfold launch.
  assert (Hp : 1 <= 2 ^ j) by apply pow2_pos.
  rewrite (proj2 (Z.leb_gt _ _)) by lia. rewrite (proj2 (Z.ltb_ge _ _)) by lia.
  rewrite (proj2 (Z.leb_gt _ _)) by lia. cbn [orb]. rewrite !Nat2Z.id.
  apply collect_ok. intros b Hb. apply block_bf; auto.
Qed.

End Generic.
