(** Minimum images on the GPU: the whole launch, for any order of blocks and threads. *)
From Coq Require Import Reals ZArith List Bool Arith Lia Lra Permutation FunctionalExtensionality.
From Verif Require Import Base RSum MeshSpec Mesh MeshProofs UnitCell ShiftMin PropsShiftMin Fft FftProofs
  WaveListSpec WaveList PropsWaveList GpuThreads GpuHostProofs GpuReduce GpuReduceProofs GpuGrid
  GpuWaveSpec GpuWave GpuWaveProofs.
Import ListNotations.
Local Open Scope nat_scope.

(** ** The window *)
Lemma window_shift : forall D s, D = 2 \/ D = 3 -> window D s ->
  exists i, i < threadsPerGP D /\ forall j, j < D -> nth j (shift_of D i) 0%Z = s j.
Proof.
  intros D s [-> | ->] H; cbn [window threadsPerGP shift_of] in *.
  - exists (Z.to_nat (5 * (s 0%nat + 2) + (s 1%nat + 2))).
    assert (E : Z.to_nat (5 * (s 0%nat + 2) + (s 1%nat + 2)) = Z.to_nat (s 0%nat + 2) * 5 + Z.to_nat (s 1%nat + 2)) by lia.
    rewrite E. rewrite split_div by lia. split; [lia|].
    intros [|[|j]] Hj; cbn [nth]; lia.
  - exists (Z.to_nat (25 * (s 0%nat + 2) + 5 * (s 1%nat + 2) + (s 2%nat + 2))).
    assert (E : Z.to_nat (25 * (s 0%nat + 2) + 5 * (s 1%nat + 2) + (s 2%nat + 2))
                = Z.to_nat (s 0%nat + 2) * 25 + (Z.to_nat (s 1%nat + 2) * 5 + Z.to_nat (s 2%nat + 2))) by lia.
    rewrite E. rewrite split_div by lia. split; [lia|].
    replace (Z.to_nat (s 0%nat + 2) * 25 + (Z.to_nat (s 1%nat + 2) * 5 + Z.to_nat (s 2%nat + 2)) - Z.to_nat (s 0%nat + 2) * 25)
      with (Z.to_nat (s 1%nat + 2) * 5 + Z.to_nat (s 2%nat + 2)) by lia.
    rewrite split_div by lia. intros [|[|[|j]]] Hj; cbn [nth]; lia.
Qed.

Lemma shift_window : forall D i, D = 2 \/ D = 3 -> i < threadsPerGP D ->
  window D (fun j => nth j (shift_of D i) 0%Z).
Proof.
  intros D i [-> | ->] H; cbn [window threadsPerGP shift_of nth] in *.
  - pose proof (Nat.div_mod i 5 ltac:(lia)). pose proof (Nat.mod_upper_bound i 5 ltac:(lia)).
    set (a := i / 5) in *. set (r := i mod 5) in *. lia.
  - pose proof (Nat.div_mod i 25 ltac:(lia)) as H1. pose proof (Nat.mod_upper_bound i 25 ltac:(lia)) as H2.
    set (a := i / 25) in *. replace (i - a * 25) with (i mod 25) by lia. set (r := i mod 25) in *.
    pose proof (Nat.div_mod r 5 ltac:(lia)). pose proof (Nat.mod_upper_bound r 5 ltac:(lia)).
    set (e := r / 5) in *. set (f := r mod 5) in *. lia.
Qed.

Lemma small_window : forall D s, D = 2 \/ D = 3 -> small_shift D s -> window D s.
Proof.
  intros D s [-> | ->] H; pose proof (H 0 ltac:(lia)); pose proof (H 1 ltac:(lia)); cbn [window]; [lia|].
  pose proof (H 2 ltac:(lia)). lia.
Qed.

Lemma gsq_length2 : forall D k u, D = 2 \/ D = 3 -> gsq D (flatK D k) u = length2 D k u.
Proof.
  intros D k u [-> | ->]; unfold length2; cbn [gsq rsum];
    cbv beta delta [flatK]; cbn [Nat.div Nat.divmod Nat.modulo fst snd Nat.sub Nat.mul Nat.add]; ring.
Qed.

(** ** The least image *)
Definition better (D : nat) (u v : wave) : Prop :=
  (snd u < snd v)%R \/ (snd u = snd v /\ precedes D (fst v) (fst u)).

Definition apart (u v : wave) : Prop :=
  snd u = snd v \/ (Rabs (snd u - snd v) > epsilon)%R.

Lemma precedes_irrefl : forall D u, ~ precedes D u u.
Proof. intros D u (i & _ & H & _). lia. Qed.
Lemma precedes_asym : forall D u v, precedes D u v -> ~ precedes D v u.
Proof. intros D u v H H'. apply (precedes_irrefl D u). eapply precedes_trans; eauto. Qed.
Lemma precedes_total : forall D u v, precedes D u v \/ precedes D v u \/ forall i, i < D -> u i = v i.
Proof.
  induction D; intros u v; [right; right; intros; lia|].
  destruct (IHD u v) as [(i & Hi & H)|[(i & Hi & H)|H]].
  - left. exists i. split; [lia|exact H].
  - right. left. exists i. split; [lia|exact H].
  - destruct (Z.lt_trichotomy (u D) (v D)) as [L|[L|L]].
    + left. exists D. auto.
    + right. right. intros i Hi. destruct (Nat.eq_dec i D) as [->|]; auto. apply H. lia.
    + right. left. exists D. split; [lia|]. split; [exact L|]. intros j Hj. symmetry. auto.
Qed.

Lemma better_trans : forall D u v w, better D u v -> better D v w -> better D u w.
Proof.
  intros D u v w [H|[H H']] [K|[K K']]; [left; lra|left; lra|left; lra|].
  right. split; [lra|]. eapply precedes_trans; eauto.
Qed.

Lemma swap_better : forall D u v, apart u v -> better D v u -> swap_min D u v = v.
Proof.
  intros D u v HA HB. pose proof eps_pos. unfold swap_min. destruct (Rlt_dec (snd v) (snd u - epsilon)) as [|N]; auto.
  destruct HA as [E|E].
  - destruct HB as [HB|[_ HB]]; [lra|]. destruct (Rlt_dec (snd v) (snd u + epsilon)) as [|N']; [|lra].
    apply lexlt_spec in HB. now rewrite HB.
  - exfalso. destruct HB as [HB|[HB _]].
    + rewrite Rabs_pos_eq in E by lra. lra.
    + rewrite HB in E. rewrite Rminus_diag_eq, Rabs_R0 in E by reflexivity. lra.
Qed.
Lemma swap_worse : forall D u v, apart u v -> better D u v -> swap_min D u v = u.
Proof.
  intros D u v HA HB. pose proof eps_pos. unfold swap_min. 
  assert (K : (snd u <= snd v)%R) by (destruct HB as [HB|[HB _]]; lra).
  destruct (Rlt_dec (snd v) (snd u - epsilon)) as [|N]; [lra|].
  destruct (Rlt_dec (snd v) (snd u + epsilon)) as [N'|]; auto.
  destruct HB as [HB|[_ HB]].
  - destruct HA as [E|E]; [lra|]. rewrite Rabs_minus_sym, Rabs_pos_eq in E by lra. lra.
  - destruct (lexlt D (fst u) (fst v)) eqn:EL; auto. apply lexlt_spec in EL. exfalso. now apply (precedes_asym D (fst u) (fst v)).
Qed.
Lemma swap_same : forall D u, swap_min D u u = u.
Proof.
  intros D u. unfold swap_min. destruct (Rlt_dec _ _); auto. destruct (Rlt_dec _ _); auto.
  destruct (lexlt _ _ _); auto.
Qed.

(** A family of waves that are functions of their vectors *)
Lemma best_exists : forall D (c : nat -> wave) n, 0 < n ->
  (forall i j, i < n -> j < n -> (forall e, e < D -> fst (c i) e = fst (c j) e) -> c i = c j) ->
  exists b, b < n /\ forall i, i < n -> c i = c b \/ better D (c b) (c i).
Proof.
  intros D c. induction n as [|n IH]; intros Hn Hc; [lia|].
  destruct n as [|n].
  - exists 0. split; [lia|]. intros i Hi. left. f_equal. lia.
  - destruct IH as (b & Hb & K); [lia|intros; apply Hc; auto; lia|].
    assert (Cmp : c (S n) = c b \/ better D (c b) (c (S n)) \/ better D (c (S n)) (c b)).
    { destruct (Rtotal_order (snd (c b)) (snd (c (S n)))) as [L|[L|L]].
      - right. left. now left.
      - destruct (precedes_total D (fst (c b)) (fst (c (S n)))) as [P|[P|P]].
        + right. right. right. auto.
        + right. left. right. auto.
        + left. symmetry. apply Hc; auto; lia.
      - right. right. now left. }
    destruct Cmp as [Cmp|[Cmp|Cmp]].
    + exists b. split; [lia|]. intros i Hi. destruct (Nat.eq_dec i (S n)) as [->|]; auto. apply K. lia.
    + exists b. split; [lia|]. intros i Hi. destruct (Nat.eq_dec i (S n)) as [->|]; auto. apply K. lia.
    + exists (S n). split; [lia|]. intros i Hi. destruct (Nat.eq_dec i (S n)) as [->|]; auto. right.
      destruct (K i ltac:(lia)) as [->|K']; auto. eapply better_trans; eauto.
Qed.

(** ** Number of threads *)
Definition ready (dev : device) (st : tarr) : Prop :=
  warpSize dev = 32%Z /\ tinv st /\ (maxT st <= maxPerBlock dev)%Z /\ (128 <= maxPerBlock dev)%Z.

Lemma logical_ready : forall dev n st, ready dev st -> (0 < n)%Z ->
  exists st', setThreadsLogical dev n st = Ok st' /\ ready dev st' /\ maxT st' = maxT st /\ tpb st' = maxT st /\
    (n <= blocks st' * tpb st')%Z /\ accepted dev (blocks st') (tpb st') = true /\ (0 < blocks st')%Z.
Proof.
  intros dev n st (Hw & Ht & Hm & Hb) Hn. pose proof (maxT_pos st Ht) as Hp.
  destruct (setThreadsLogical_tinv dev n st Ht Hn) as (st' & E & T' & E1 & E2 & E3 & _).
  exists st'. split; [exact E|]. split; [split; [auto|split; [auto|split; [lia|auto]]]|].
  split; [exact E1|]. split; [exact E2|].
  destruct (ceil_div_bounds n (maxT st)) as [C1 C2]; [lia|lia|]. rewrite E3, E2.
  split; [lia|]. split; [|lia]. unfold accepted. rewrite !andb_true_iff, !Z.ltb_lt, Z.leb_le. lia.
Qed.

Lemma images_resources_ok : forall dev D n st, ready dev st -> D = 1 \/ D = 2 \/ D = 3 -> 0 < n ->
  (Z.of_nat (n * threadsPerGP D) < 2 ^ 31)%Z ->
  exists st', images_resources dev D n st = Ok st' /\ ready dev st' /\
    (maxT st <= maxT st')%Z /\ (D = 3 -> (128 <= maxT st')%Z) /\
    accepted dev (blocks st') (tpb st') = true /\ (0 < blocks st')%Z /\
    (Z.of_nat (n * threadsPerGP D) <= blocks st' * tpb st')%Z /\
    exists q, 0 < q /\ Z.to_nat (tpb st') = q * threadsPerGP D /\ (tpb st' <= maxPerBlock dev)%Z.
Proof.
  intros dev D n st HR HD Hn Ho. unfold images_resources.
  destruct (Z.ltb_spec (2 ^ 31 - 1) (Z.of_nat (n * threadsPerGP D))) as [L|L]; [lia|].
  assert (HT : 0 < threadsPerGP D) by (destruct HD as [-> |[-> | ->]]; cbn; lia).
  assert (Hpos : (0 < Z.of_nat (n * threadsPerGP D))%Z) by nia.
  destruct (logical_ready dev _ st HR Hpos) as (st1 & E & R1 & M1 & P1 & C1 & A1 & B1).
  rewrite E. cbn [bind].
  assert (Q : forall st', ready dev st' -> tpb st' = maxT st' -> (D = 3 -> (128 <= maxT st')%Z) ->
    exists q, 0 < q /\ Z.to_nat (tpb st') = q * threadsPerGP D /\ (tpb st' <= maxPerBlock dev)%Z).
  { intros st' (_ & ((j & Ej) & _) & Hm & _) E1 H3. rewrite E1, Ej.
    assert (Hj : (0 < 2 ^ Z.of_nat j)%Z) by (apply Z.pow_pos_nonneg; lia).
    destruct HD as [-> |[-> | ->]]; cbn [threadsPerGP].
    - exists (Z.to_nat (32 * 2 ^ Z.of_nat j)). lia.
    - exists (Z.to_nat (2 ^ Z.of_nat j)). lia.
    - specialize (H3 eq_refl). assert (2 <= j).
      { destruct j as [|[|j]]; cbn in Ej; lia. }
      exists (Z.to_nat (2 ^ Z.of_nat (j - 2))).
      assert (E2 : (2 ^ Z.of_nat j = 4 * 2 ^ Z.of_nat (j - 2))%Z).
      { replace (Z.of_nat j) with (2 + Z.of_nat (j - 2))%Z by lia. rewrite Z.pow_add_r by lia. reflexivity. }
      assert (Hj2 : (0 < 2 ^ Z.of_nat (j - 2))%Z) by (apply Z.pow_pos_nonneg; lia). lia. }
  destruct (Nat.eqb_spec D 3) as [D3|D3]; cbn [andb].
  - destruct (Z.ltb_spec (tpb st1) 128) as [Lt|Lt].
    + destruct HR as (Hw & Ht & Hm & Hb).
      replace 128%Z with (32 * 2 ^ Z.of_nat 2)%Z by reflexivity.
      rewrite setThreadsPerBlock_pow by auto. cbn [bind].
      assert (R2 : ready dev (mark dev (32 * 2 ^ Z.of_nat 2) st1)).
      { split; [auto|]. split; [now apply mark_tinv|]. split; [|exact Hb]. cbn [mark maxT]. lia. }
      destruct (logical_ready dev _ _ R2 Hpos) as (st2 & E2 & R3 & M2 & P2 & C2 & A2 & B2).
      assert (M3 : maxT st2 = 128%Z) by (rewrite M2; reflexivity).
      exists st2. split; [exact E2|]. split; [exact R3|]. split; [lia|]. split; [lia|].
      split; [exact A2|]. split; [exact B2|]. split; [exact C2|]. apply Q; [exact R3|congruence|lia].
    + exists st1. split; [reflexivity|]. split; [exact R1|]. split; [lia|]. split; [lia|].
      split; [exact A1|]. split; [exact B1|]. split; [exact C1|]. apply Q; [exact R1|congruence|lia].
  - exists st1. split; [reflexivity|]. split; [exact R1|]. split; [lia|]. split; [lia|].
    split; [exact A1|]. split; [exact B1|]. split; [exact C1|]. apply Q; [exact R1|congruence|lia].
Qed.

(** ** Schedules in which every thread finishes *)
Definition fair_waves (dev : device) (sch : wsched) : Prop :=
  (forall nB, Permutation (block_order sch nB) (seq 0 nB)) /\
  (forall b k t, (Z.of_nat t < maxPerBlock dev)%Z -> 2 <= count_occ Nat.eq_dec (round_order sch b k) t) /\
  (forall total n t, t < total -> n <= count_occ Nat.eq_dec (grid_order sch total n) t).

(** ** The k-grid points on the device *)
Lemma grid_points_at : forall D dims old p j, p < nK dims -> j < D ->
  grid_points D dims old (p + j * nK dims) = vecOf (gridPos (computeKMesh dims) p) j.
Proof.
  intros D dims old p j Hp Hj. unfold grid_points, vecOf.
  rewrite (proj2 (Nat.ltb_lt (p + j * nK dims) (D * nK dims))) by nia.
  rewrite Nat.add_comm, split_div, split_mod by lia. reflexivity.
Qed.

(** ** The kernel for D = 1 *)
Lemma shift_1d_ok : forall img d, (0 < d)%Z -> (0 <= img <= Z.quot d 2)%Z -> shift_1d img d = Ok img.
Proof.
  intros img d Hd H. unfold shift_1d. cbn [lower].
  rewrite Z.shiftr_div_pow2 by lia. change (2 ^ 1)%Z with 2%Z.
  rewrite Z.quot_div_nonneg in H by lia.
  rewrite (proj2 (Z.ltb_ge (d / 2) img)) by lia. cbn [bind raise].
  rewrite Z.shiftr_div_pow2 by lia. change (2 ^ 1)%Z with 2%Z.
  rewrite (proj2 (Z.ltb_ge img (-1 * (d / 2)))) by lia. reflexivity.
Qed.

Lemma finite_choice : forall {B : Type} (b0 : B) n (P : nat -> B -> Prop),
  (forall i, i < n -> exists b, P i b) -> exists f, forall i, i < n -> P i (f i).
Proof.
  intros B b0. induction n as [|n IH]; intros P H.
  - exists (fun _ => b0). intros i Hi. lia.
  - destruct (IH P) as [f Hf]; [intros; apply H; lia|]. destruct (H n ltac:(lia)) as [b Hb].
    exists (fun i => if i =? n then b else f i). intros i Hi.
    destruct (Nat.eqb_spec i n) as [->|]; auto. apply Hf. lia.
Qed.

Lemma nK_pos : forall dims, positive dims -> 0 < nK dims.
Proof.
  intros dims H. apply kmesh_positive in H. unfold nK.
  assert (K : forall l, positive l -> (0 < gridSize l)%Z).
  { induction 1; cbn [gridSize]; lia. }
  specialize (K _ H). lia.
Qed.

(** Squared lengths of images of a wave are equal or differ by more than epsilon. *)
Definition resolved (D : nat) (k : nat -> nat -> R) (d v : nat -> Z) : Prop :=
  forall s s' u u', window D s -> window D s' -> shifted D v d s u -> shifted D v d s' u' ->
    length2 D k u = length2 D k u' \/ (Rabs (length2 D k u - length2 D k u') > epsilon)%R.

(** The state after computeMinimumImages has computed the arrays a *)
Definition with_images (w : gwave) (a : arrays) : gwave :=
  Gwave (gPtr w) (gAlloc w) true (gHasMinH w) true (gHasDK w) (gDims w) (gInv w) (fst a) (snd a) (gDK w).

(** Vector of wave m in an array on the device *)
Definition vec_at (n : nat) (a : nat -> Z) (m j : nat) : Z := a (m + j * n).

Theorem g_images_multi : forall dev sch w c st,
  uD c = 2 \/ uD c = 3 -> length (gDims w) = uD c -> positive (gDims w) ->
  gHasMin w = false -> gAlloc w = true -> cellOk c = true ->
  ready dev st -> fair_waves dev sch ->
  (Z.of_nat (nK (gDims w) * threadsPerGP (uD c)) < 2 ^ 31)%Z ->
  (forall m, m < nK (gDims w) ->
     resolved (uD c) (uK c) (vecOf (gDims w)) (vecOf (gridPos (computeKMesh (gDims w)) m))) ->
  exists a st', g_images dev sch w c st = Ok (with_images w a, st') /\
    ready dev st' /\ (maxT st <= maxT st')%Z /\ (uD c = 3 -> (128 <= maxT st')%Z) /\
    forall m, m < nK (gDims w) ->
      least (uD c) (uK c) (vecOf (gDims w)) (vecOf (gridPos (computeKMesh (gDims w)) m))
        (vec_at (nK (gDims w)) (fst a) m) /\
      snd a m = length2 (uD c) (uK c) (vec_at (nK (gDims w)) (fst a) m).
Proof.
  intros dev sch w c st HD HL HP H1 H2 H3 HR (F1 & F2 & F3) Ho HG.
  unfold g_images. rewrite H1, H2, H3. cbn [check bind].
  set (D := uD c) in *. set (dims := gDims w) in *. set (n := nK dims) in *.
  pose proof (nK_pos dims HP) as Hn. fold n in Hn.
  destruct (images_resources_ok dev D n st HR ltac:(tauto) Hn Ho)
    as (st' & E & R' & M1 & M2 & A & B & C & q & Hq & Eq & Eb).
  rewrite E. cbn [bind]. rewrite A.
  rewrite (proj2 (Nat.eqb_neq D 1)) by (destruct HD; lia).
  set (gm := grid_points D dims (gMin w)) in *. set (d := vecOf dims) in *. set (kb := flatK D (uK c)) in *.
  set (T := threadsPerGP D) in *.
  assert (HT : exists N, T = 2 ^ N /\ strides D = down N).
  { unfold T. destruct HD as [-> | ->]; [exists 5|exists 7]; split; reflexivity. }
  destruct HT as (N & HN & HS).
  assert (Hgm : forall p j, p < n -> j < D -> gm (p + j * n) = vecOf (gridPos (computeKMesh dims) p) j).
  { intros p j Hp Hj. unfold gm, n. now apply grid_points_at. }
  set (cd := cand D n d kb gm).
  assert (Himg : forall p i, p < n -> i < T ->
    shifted D (vecOf (gridPos (computeKMesh dims) p)) d (fun j => nth j (shift_of D i) 0%Z) (fst (cd p i))).
  { intros p i Hp Hi j Hj. unfold cd, cand, image_at. cbn [fst].
    rewrite (proj2 (Nat.ltb_lt j D) Hj). now rewrite Hgm. }
  assert (Hsq : forall p i, snd (cd p i) = length2 D (uK c) (fst (cd p i))).
  { intros p i. unfold cd, cand. cbn [fst snd]. unfold kb. now apply gsq_length2. }
  assert (Hvec : forall p i, vec D (fst (cd p i))).
  { intros p i j Hj. unfold cd, cand, image_at. cbn [fst]. now rewrite (proj2 (Nat.ltb_ge j D) Hj). }
  assert (Hcd : forall p i i', (forall e, e < D -> fst (cd p i) e = fst (cd p i') e) -> cd p i = cd p i').
  { intros p i i' He. assert (Ef : fst (cd p i) = fst (cd p i')).
    { apply functional_extensionality. intros e. destruct (Nat.lt_ge_cases e D) as [Hl|Hl]; [now apply He|].
      now rewrite !Hvec. }
    rewrite (surjective_pairing (cd p i)), (surjective_pairing (cd p i')), !Hsq, Ef. reflexivity. }
  assert (HT0 : 0 < T) by (rewrite HN; pose proof (pow2_pos N); lia).
  destruct (finite_choice 0 n (fun p b => b < T /\ forall i, i < T -> cd p i = cd p b \/ better D (cd p b) (cd p i)))
    as (bi & Hbi).
  { intros p Hp. apply best_exists; [exact HT0|]. intros i j _ _. apply Hcd. }
  set (best := fun p => cd p (bi p)).
  assert (Hap : forall p i i', p < n -> i < T -> i' < T -> apart (cd p i) (cd p i')).
  { intros p i i' Hp Hi Hi'. unfold apart. rewrite !Hsq.
    apply (HG p Hp (fun j => nth j (shift_of D i) 0%Z) (fun j => nth j (shift_of D i') 0%Z)).
    - now apply shift_window.
    - now apply shift_window.
    - now apply Himg.
    - now apply Himg. }
  assert (Hdom1 : forall p i, p < n -> i < T -> swap_min D (best p) (cd p i) = best p).
  { intros p i Hp Hi. destruct (Hbi p Hp) as [Hb K]. unfold best. destruct (K i Hi) as [-> | K']; [apply swap_same|].
    apply swap_worse; auto. }
  assert (Hdom2 : forall p i, p < n -> i < T -> swap_min D (cd p i) (best p) = best p).
  { intros p i Hp Hi. destruct (Hbi p Hp) as [Hb K]. unfold best. destruct (K i Hi) as [-> | K']; [apply swap_same|].
    apply swap_better; auto. }
  destruct (images_blocks_ok D N T q n d kb sch best gm) with (l := block_order sch (Z.to_nat (blocks st')))
    (a := (gm, gK w)) as (a & Ea & Ka); auto.
  { intros b k t Ht. apply F2. lia. }
  { intros p Hp. exists (bi p). split; [apply (Hbi p Hp)|reflexivity]. }
  { eapply Permutation_NoDup; [apply Permutation_sym, F1|]. apply seq_NoDup. }
  rewrite Eq. rewrite Ea. cbn [bind]. exists a, st'. split; [unfold with_images; rewrite H2; reflexivity|].
  split; [exact R'|]. split; [exact M1|]. split; [exact M2|].
  intros m Hm. destruct (Ka m Hm) as [K1 K2].
  { eapply Permutation_in; [apply Permutation_sym, F1|]. apply in_seq. split; [lia|]. cbn [plus].
    apply Nat.div_lt_upper_bound; [lia|]. nia. }
  destruct (Hbi m Hm) as [Hb Kb].
  assert (El : length2 D (uK c) (vec_at n (fst a) m) = snd (cd m (bi m))).
  { rewrite Hsq. apply length2_ext. intros j Hj. unfold vec_at. now apply K2. }
  split; [|rewrite K1, El; reflexivity].
  split.
  - exists (fun j => nth j (shift_of D (bi m)) 0%Z). split; [now apply shift_window|].
    intros j Hj. unfold vec_at. rewrite K2 by auto. now apply Himg.
  - intros s u' Hs Hu'. destruct (window_shift D s HD Hs) as (i & Hi & Ei).
    assert (Eu : forall j, j < D -> u' j = fst (cd m i) j).
    { intros j Hj. rewrite (Hu' j Hj), (Himg m i Hm Hi j Hj). now rewrite Ei. }
    rewrite (length2_ext D (uK c) u' (fst (cd m i)) Eu), <- Hsq, El.
    destruct (Kb i Hi) as [K|K].
    + rewrite K. split; [apply Rle_refl|]. intros _ (j & Hj & Hlt & _). unfold vec_at in Hlt.
      rewrite K2, Eu, K in Hlt by auto. unfold best in Hlt. lia.
    + destruct K as [K|[K K']].
      * split; [left; exact K|]. intros Ex. rewrite Ex in K. exfalso. now apply Rlt_irrefl in K.
      * split; [rewrite K; apply Rle_refl|]. intros _ Hb'. apply (precedes_asym D _ _ K').
        destruct Hb' as (j & Hj & Hlt & Heq). exists j. split; [exact Hj|]. split.
        -- unfold vec_at in Hlt. rewrite K2, Eu in Hlt by auto. exact Hlt.
        -- intros e He. specialize (Heq e He). unfold vec_at in Heq. rewrite K2, Eu in Heq by lia. exact Heq.
Qed.

(** D = 1 *)
Theorem g_images_one : forall dev sch w c st n,
  uD c = 1 -> gDims w = [n] -> (0 < n)%Z ->
  gHasMin w = false -> gAlloc w = true -> cellOk c = true ->
  ready dev st -> fair_waves dev sch -> (Z.of_nat (nK [n]) < 2 ^ 31)%Z ->
  exists a st', g_images dev sch w c st = Ok (with_images w a, st') /\
    ready dev st' /\ (maxT st <= maxT st')%Z /\
    forall m, m < nK [n] ->
      vec_at (nK [n]) (fst a) m 0 = Z.of_nat m /\
      snd a m = length2 1 (uK c) (vec_at (nK [n]) (fst a) m).
Proof.
  intros dev sch w c st n HD Hd Hn H1 H2 H3 HR (F1 & F2 & F3) Ho.
  unfold g_images. rewrite H1, H2, H3. cbn [check bind]. rewrite HD, Hd.
  assert (HP : positive [n]) by (constructor; [lia|constructor]).
  pose proof (nK_pos [n] HP) as Hk.
  destruct (images_resources_ok dev 1 (nK [n]) st HR ltac:(tauto) Hk) as (st' & E & R' & M1 & M2 & A & B & C & _).
  { cbn [threadsPerGP]. rewrite Nat.mul_1_r. exact Ho. }
  rewrite E. cbn [bind]. rewrite A. cbn [Nat.eqb]. unfold images_1d.
  set (k := nK [n]) in *. set (gm := grid_points 1 [n] (gMin w)).
  assert (Hgm : forall m, m < k -> gm m = Z.of_nat m).
  { intros m Hm. pose proof (grid_points_at 1 [n] (gMin w) m 0 Hm ltac:(lia)) as G.
    rewrite Nat.mul_0_l, Nat.add_0_r in G. unfold gm. rewrite G.
    unfold vecOf, gridPos. cbn [computeKMesh mk_offsets position_loop nth].
    unfold k, nK in Hm. cbn [computeKMesh gridSize] in Hm. rewrite Z.mul_1_r in Hm.
    cbn. rewrite ?Z.quot_1_r. reflexivity. }
  assert (Htot : 0 < Z.to_nat (blocks st' * tpb st')).
  { rewrite Nat.mul_1_r in C. lia. }
  match goal with |- context [grid_stride ?g ?t ?td ?s ?ar] =>
    destruct (grid_stride_all g t k s ar Htot) as (r & Er & Kr) end.
  { intros t Ht. now apply F3. }
  rewrite Er. cbn [bind]. exists (fun i => fst (r i), fun i => snd (r i)), st'.
  split; [unfold with_images; rewrite H2, Hd; reflexivity|]. split; [exact R'|]. split; [exact M1|].
  intros m Hm. unfold vec_at. cbn [fst snd]. rewrite Nat.mul_0_l, Nat.add_0_r.
  assert (Em : r m = (Z.of_nat m, (IZR (Z.of_nat m * Z.of_nat m) * flatK 1 (uK c) 0 * flatK 1 (uK c) 0)%R)).
  { rewrite Kr, (proj2 (Nat.ltb_lt m k) Hm). cbn [fst]. rewrite Hgm by auto.
    change (vecOf [n] 0) with n. rewrite shift_1d_ok; [reflexivity|exact Hn|].
    unfold k, nK in Hm. cbn [computeKMesh gridSize] in Hm. rewrite Z.mul_1_r in Hm. lia. }
  rewrite Em. cbn [fst snd]. split; [reflexivity|].
  unfold length2. cbn [rsum]. rewrite Nat.mul_0_l, Nat.add_0_r, Em. cbn [fst].
  unfold flatK. change (0 / 1) with 0. change (0 mod 1) with 0. rewrite mult_IZR. ring.
Qed.
