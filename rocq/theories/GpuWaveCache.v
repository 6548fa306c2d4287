(** The cache of wavevector data on the GPU: invariants, and comparison with the CPU. *)
From Coq Require Import Reals ZArith List Bool Arith Lia Lra Permutation FunctionalExtensionality.
From Verif Require Import Base RSum MeshSpec Mesh MeshProofs UnitCell ShiftMin PropsShiftMin Fft FftProofs
  WaveListSpec WaveList PropsWaveList GpuThreads GpuHostProofs GpuReduce GpuReduceProofs GpuGrid
  GpuWaveSpec GpuWave GpuWaveProofs GpuWaveHost.
Import ListNotations.
Local Open Scope nat_scope.

(** ** Kernels with grid-stride loops *)
Lemma flatK_at : forall D k a b, b < D -> flatK D k (b + D * a) = k a b.
Proof.
  intros D k a b Hb. unfold flatK. replace (b + D * a) with (a * D + b) by lia.
  now rewrite split_div, split_mod by lia.
Qed.

Lemma ksq_at_ok : forall D n a k m, ksq_at D n a (flatK D k) m = ksq D k (vec_at n a m).
Proof.
  intros D n a k m. unfold ksq_at, ksq. apply rsum_ext. intros j Hj. cbv zeta.
  assert (E : rsum D (fun j0 => (flatK D k (j + D * j0)%nat * IZR (a (m + j0 * n)%nat))%R)
              = rsum D (fun i => (k i j * IZR (vec_at n a m i))%R)).
  { apply rsum_ext. intros i Hi. now rewrite flatK_at. }
  now rewrite E.
Qed.

Lemma flatDkk_at : forall D f n p q, p < D -> q < D -> flatDkk D f (q + p * D + n * (D * D)) = f n p q.
Proof.
  intros D f n p q Hp Hq. unfold flatDkk.
  replace (q + p * D + n * (D * D)) with (n * (D * D) + (p * D + q)) by lia.
  rewrite split_div, split_mod by nia. rewrite split_div by lia.
  replace (n * (D * D) + (p * D + q)) with ((n * D + p) * D + q) by ring. rewrite split_mod by lia. reflexivity.
Qed.

Lemma dksq_at_ok : forall D n a f iv i m,
  dksq_at D n a (flatDkk D f) iv i m =
  ((if iv m then 2 else 1) * dksq D f (vec_at n a m) i)%R.
Proof.
  intros D n a f iv i m. unfold dksq_at, dksq. cbv zeta.
  rewrite (rsum_ext D _ (fun p => rsum D (fun q =>
    (IZR (vec_at n a m p) * IZR (vec_at n a m q) * f i p q)%R))).
  - destruct (iv m); ring.
  - intros p Hp. apply rsum_ext. intros q Hq. rewrite flatDkk_at by auto. unfold vec_at. now rewrite mult_IZR.
Qed.

Lemma dksq_todo_in : forall nP n total t e, t < total ->
  In e (dksq_todo nP n total t) <-> exists p i, p < nP /\ i < n /\ i mod total = t /\ e = p * n + i.
Proof.
  intros nP n total t e Ht. unfold dksq_todo. rewrite in_flat_map. split.
  - intros (p & Hp & He). apply in_seq in Hp. apply in_map_iff in He. destruct He as (i & <- & Hi).
    apply iterations_start in Hi; auto. exists p, i. repeat split; tauto || lia.
  - intros (p & i & Hp & Hi & Hm & ->). exists p. split; [apply in_seq; lia|].
    apply in_map_iff. exists i. split; auto. apply iterations_start; auto.
Qed.

Lemma dksq_todo_nodup : forall nP n total t, t < total -> NoDup (dksq_todo nP n total t).
Proof.
  intros nP n total t Ht. induction nP as [|nP IH]; [constructor|].
  unfold dksq_todo in *. rewrite seq_S, flat_map_app. cbn [flat_map Nat.add]. rewrite app_nil_r.
  assert (G : forall l1 l2 : list nat, NoDup l1 -> NoDup l2 -> (forall e, In e l1 -> ~ In e l2) -> NoDup (l1 ++ l2)).
  { induction l1 as [|a l1 IHl]; intros l2 N1 N2 Hd; [exact N2|]. apply NoDup_cons_iff in N1. destruct N1 as [N1 N1'].
    cbn [app]. constructor.
    - intro Hi. apply in_app_or in Hi. destruct Hi as [Hi|Hi]; [auto|]. apply (Hd a); [now left|exact Hi].
    - apply IHl; auto. intros e He. apply Hd. now right. }
  apply G; [exact IH| |].
  - apply FinFun.Injective_map_NoDup; [intros x y; lia|]. apply iterations_nodup. lia.
  - intros e He Hm. apply (dksq_todo_in nP n total t e Ht) in He. destruct He as (p & i & Hp & Hi & _ & ->).
    apply in_map_iff in Hm. destruct Hm as (i' & E & Hi'). apply iterations_start in Hi'; auto. nia.
Qed.

Lemma dksq_todo_length : forall nP n total t, length (dksq_todo nP n total t) <= nP * n.
Proof.
  induction nP as [|nP IH]; intros n total t; [cbn; lia|].
  unfold dksq_todo in *. rewrite seq_S, flat_map_app, app_length. cbn [flat_map Nat.add].
  rewrite app_nil_r, map_length. specialize (IH n total t). pose proof (iterations_length n t n total). lia.
Qed.

Lemma dksq_stride : forall {A} (g : nat -> A -> A) total nP n s arr, 0 < total -> 0 < n ->
  (forall t, t < total -> nP * n <= count_occ Nat.eq_dec s t) ->
  exists arr', grid_stride g total (dksq_todo nP n total) s arr = Ok arr' /\
    forall p i, p < nP -> i < n -> arr' (p * n + i) = g (p * n + i) (arr (p * n + i)).
Proof.
  intros A g total nP n s arr H0 Hn Hs.
  destruct (grid_stride_ok g total (dksq_todo nP n total) arr) with (s := s) as (arr' & E & E1 & _).
  - intros t Ht. now apply dksq_todo_nodup.
  - intros t t' e Ht Ht' Hi Hi'. apply dksq_todo_in in Hi; auto. apply dksq_todo_in in Hi'; auto.
    destruct Hi as (p & i & _ & Hi & M & E). destruct Hi' as (p' & i' & _ & Hi' & M' & E').
    assert (i = i'); [|congruence]. rewrite E in E'.
    assert (p = p') by (destruct (Nat.lt_trichotomy p p') as [L|[L|L]]; [nia|exact L|nia]). nia.
  - intros t Ht. pose proof (dksq_todo_length nP n total t). specialize (Hs t Ht). lia.
  - exists arr'. split; auto. intros p i Hp Hi. apply (E1 (i mod total)); [apply Nat.mod_upper_bound; lia|].
    apply dksq_todo_in; [apply Nat.mod_upper_bound; lia|]. exists p, i. auto.
Qed.

(** ** Implicit inverses *)
Lemma last_kmesh : forall dims, dims <> [] -> last (computeKMesh dims) 0%Z = (Z.quot (last dims 0) 2 + 1)%Z.
Proof.
  induction dims as [|x [|y ds] IH]; intros H; [congruence|reflexivity|].
  change (computeKMesh (x :: y :: ds)) with (x :: computeKMesh (y :: ds)).
  change (last (x :: y :: ds) 0%Z) with (last (y :: ds) 0%Z). rewrite <- IH by discriminate.
  destruct (computeKMesh (y :: ds)) eqn:E; [|reflexivity]. destruct ds; discriminate.
Qed.

Lemma implicit_at_ok : forall dims m, dims <> [] -> positive dims ->
  implicit_at dims m = hasImplicitInverse (gridPos (computeKMesh dims) m) dims.
Proof.
  intros dims m Hn HP. unfold implicit_at, hasImplicitInverse. cbv zeta. rewrite last_kmesh by auto.
  assert (Hl : (0 < last dims 0)%Z).
  { clear m. induction HP as [|x l Hx HP IH]; [congruence|]. destruct l; [exact Hx|]. apply IH. discriminate. }
  assert (0 <= Z.quot (last dims 0) 2)%Z by (apply Z.quot_pos; lia).
  destruct (Z.eqb_spec (last (gridPos (computeKMesh dims) m) 0%Z) 0) as [->|E]; cbn [negb andb].
  - apply Z.ltb_ge. lia.
  - destruct (_ <? _)%Z; reflexivity.
Qed.

(** ** What a GPU wave list reports, as a CPU wave list *)
Definition view (g : gwave) : wavelist :=
  let n := nK (gDims g) in
  mkWaveList (gPtr g) (gAlloc g) (gHasMin g) (gHasK g) (gHasDK g) (gDims g)
    (vec_at n (gMin g)) (gK g) (fun i m => gDK g (i * n + m)).

Lemma view_clear : forall g c, clearUnitCellData (view g) c = bind (g_clear g c) (fun g' => Ok (view g')).
Proof.
  intros g c. unfold clearUnitCellData, g_clear, view. cbn [wPtr]. destruct (gPtr g); [|reflexivity].
  destruct (uLat c) as [l|]; [|destruct (uD c =? 1); reflexivity]. cbn [bind gDims gMin gK gDK gAlloc gHasMin gHasK gHasDK gPtr].
  destruct (hasVariableAngle l); reflexivity.
Qed.
Lemma g_clear_inv : forall g c g', g_clear g c = Ok g' -> gInv g' = gInv g /\ gDims g' = gDims g /\
  (gHasMin g' = true -> gHasMin g = true).
Proof.
  intros g c g' H. unfold g_clear in H. destruct (gPtr g); [|discriminate].
  destruct (uLat c) as [l|].
  - injection H as <-. cbn [gInv gDims gHasMin]. repeat split; auto. rewrite andb_true_iff. tauto.
  - destruct (uD c =? 1); [|discriminate]. injection H as <-. auto.
Qed.

Section Cache.
Variables (dev : device) (l : lattice) (dims : list Z).
Hypothesis HP : positive dims.
Hypothesis HL : length dims = dim l.
Hypothesis Ho : (Z.of_nat (nK dims * threadsPerGP (dim l)) < 2 ^ 31)%Z.

Record gInvariant (s : ucell * gwave * tarr) : Prop := {
  gi_wl : wlInv l dims (fst (fst s), view (snd (fst s)));
  gi_spaced : uInit (fst (fst s)) = true -> spaced l (uP (fst (fst s))) dims;
  gi_inv : forall m, m < nK dims ->
    gInv (snd (fst s)) m = hasImplicitInverse (gridPos (computeKMesh dims) m) dims;
  gi_ready : ready dev (snd s);
  gi_128 : dim l = 3 -> gHasMin (snd (fst s)) = true -> (128 <= maxT (snd s))%Z
}.

Lemma dim_cases : dim l = 1 \/ dim l = 2 \/ dim l = 3.
Proof. destruct l; cbn [dim]; auto. Qed.

Lemma dims_nonempty : dims <> [].
Proof. clear Ho. intros E. rewrite E in HL. cbn in HL. destruct l; discriminate HL. Qed.

Lemma spaced_resolved : forall p v, spaced l p dims -> resolved (dim l) (kBasis l p) (vecOf dims) v.
Proof.
  intros p v HS s s' u u' _ _ Hu Hu'. apply HS. intros i Hi. exists (s i - s' i)%Z.
  rewrite (Hu i Hi), (Hu' i Hi). ring.
Qed.

Lemma least_shortest : forall p v u, searchOk l p dims -> in_box dims v ->
  dim l = 2 \/ dim l = 3 ->
  least (dim l) (kBasis l p) (vecOf dims) (vecOf v) u ->
  shortest (dim l) (kBasis l p) (vecOf dims) (vecOf v) u.
Proof.
  intros p v u HS HB HD [(s & _ & Hu) HM]. split.
  - intros i Hi. exists (s i). now apply Hu.
  - intros u' Hu'. destruct (HS v HB) as [_ K]. specialize (K u' Hu').
    assert (VV := vecOf_vec dims v HB). rewrite HL in VV.
    destruct (shiftToMinimum_image (dim l) (vecOf v) (vecOf dims) (kBasis l p)) as (s' & S1 & S2 & _); [lia|exact VV|].
    destruct (HM s' _ (small_window _ _ HD S1) S2) as [K' _]. eapply Rle_trans; eauto.
Qed.

(** Images of all waves after a launch, in every number of dimensions *)
Definition images_of (p : nat -> R) (a : arrays) : Prop :=
  forall m, m < nK dims ->
    let v := vecOf (gridPos (computeKMesh dims) m) in
    let u := vec_at (nK dims) (fst a) m in
    (dim l = 1 -> u 0 = v 0) /\
    (dim l = 2 \/ dim l = 3 -> least (dim l) (kBasis l p) (vecOf dims) v u) /\
    snd a m = length2 (dim l) (kBasis l p) u.

Lemma one_dim : dim l = 1 -> exists n, dims = [n] /\ (0 < n)%Z.
Proof.
  intros H. rewrite H in HL. destruct dims as [|n [|]]; try discriminate. exists n. split; auto. now inversion HP.
Qed.

Lemma gridPos_1 : forall n m, gridPos (computeKMesh [n]) m = [Z.of_nat m].
Proof.
  intros n m. unfold gridPos. cbn. rewrite ?Z.quot_1_r. reflexivity.
Qed.

Lemma g_images_ok : forall sch g c st, gInvariant (c, g, st) -> fair_waves dev sch ->
  gHasMin g = false -> cellOk c = true ->
  exists a st', g_images dev sch g c st = Ok (with_images g a, st') /\
    ready dev st' /\ (maxT st <= maxT st')%Z /\ (dim l = 3 -> (128 <= maxT st')%Z) /\ images_of (uP c) a.
Proof.
  intros sch g c st I HF H1 H2. destruct I as [W S _ R _]. cbn [fst snd] in *.
  destruct W as [I1 I2 I3 I4 I5 I6 I7 I8 I9 I10]. cbn [fst snd] in *.
  assert (HI : uInit c = true). { unfold cellOk in H2. rewrite I1 in H2. exact H2. }
  destruct (I4 HI) as (K1 & K2 & K3 & K4). specialize (S HI).
  cbn [view wAlloc wDims] in I6, I7.
  destruct (dim_cases) as [D1|D23].
  - destruct (one_dim D1) as (n & E & Hn).
    destruct (g_images_one dev sch g c st n) as (a & st' & E1 & R' & M & Ka); try assumption; try congruence.
    { rewrite <- E. rewrite D1 in Ho. cbn [threadsPerGP] in Ho. now rewrite Nat.mul_1_r in Ho. }
    exists a, st'. split; [exact E1|]. split; [exact R'|]. split; [exact M|]. split; [lia|].
    intros m Hm. cbv zeta. rewrite E in Hm |- *. destruct (Ka m Hm) as [Ka1 Ka2].
    split; [|split].
    + intros _. rewrite gridPos_1. rewrite Ka1. reflexivity.
    + lia.
    + rewrite D1, Ka2, K1. reflexivity.
  - destruct (g_images_multi dev sch g c st) as (a & st' & E1 & R' & M & M3 & Ka); try assumption.
    + rewrite I2. exact D23.
    + rewrite I7, I2. exact HL.
    + rewrite I7. exact HP.
    + rewrite I7, I2. exact Ho.
    + intros m _. rewrite I2, I7, K1. now apply spaced_resolved.
    + exists a, st'. split; [exact E1|]. split; [exact R'|]. split; [exact M|].
      split; [intros H3; apply M3; congruence|].
      rewrite I2, I7, K1 in Ka. intros m Hm. cbv zeta. destruct (Ka m Hm) as [Ka1 Ka2].
      split; [lia|]. split; [intros _; exact Ka1|exact Ka2].
Qed.

Lemma images_shortest : forall p a m, searchOk l p dims -> images_of p a -> m < nK dims ->
  shortest (dim l) (kBasis l p) (vecOf dims) (vecOf (gridPos (computeKMesh dims) m)) (vec_at (nK dims) (fst a) m).
Proof.
  intros p a m HS Ha Hm. pose proof (kpos_in_box dims HP m Hm) as HB. destruct (Ha m Hm) as (A1 & A2 & _).
  destruct dim_cases as [D1|D23].
  - specialize (A1 D1). destruct (one_dim D1) as (n & E & Hn).
    destruct (HS _ HB) as [S1 S2].
    assert (Es : shiftToMinimum (dim l) (vecOf (gridPos (computeKMesh dims) m)) (vecOf dims) (kBasis l p) 0
                 = vecOf (gridPos (computeKMesh dims) m) 0).
    { rewrite D1. cbn [shiftToMinimum Nat.eqb]. unfold shift1. rewrite E. rewrite gridPos_1.
      unfold vecOf. cbn [nth]. rewrite E in Hm. unfold nK in Hm. cbn [computeKMesh gridSize] in Hm. rewrite Z.mul_1_r in Hm.
      assert (0 <= Z.quot n 2)%Z by (apply Z.quot_pos; lia).
      rewrite (proj2 (Z.ltb_ge (Z.quot n 2) (Z.of_nat m))) by lia.
      rewrite (proj2 (Z.ltb_ge (Z.of_nat m) (- Z.quot n 2))) by lia. reflexivity. }
    assert (Eu : forall i, i < dim l -> vec_at (nK dims) (fst a) m i
       = shiftToMinimum (dim l) (vecOf (gridPos (computeKMesh dims) m)) (vecOf dims) (kBasis l p) i).
    { intros i Hi. replace i with 0 by lia. rewrite Es. exact A1. }
    split.
    + intros i Hi. rewrite Eu by auto. now apply S1.
    + intros u' Hu'. rewrite (length2_ext _ _ _ _ Eu). now apply S2.
  - apply least_shortest; auto.
Qed.

(** After computeMinimumImages *)
Lemma images_invariant : forall c g st a st', gInvariant (c, g, st) -> uInit c = true -> gHasMin g = false ->
  ready dev st' -> (dim l = 3 -> (128 <= maxT st')%Z) -> images_of (uP c) a ->
  gInvariant (c, with_images g a, st').
Proof.
  intros c g st a st' I HI H1 R' M3 Ha. destruct I as [W S V R _]. cbn [fst snd] in *.
  destruct W as [I1 I2 I3 I4 I5 I6 I7 I8 I9 I10]. cbn [fst snd] in *.
  destruct (I4 HI) as (K1 & K2 & K3 & K4).
  cbn [view wPtr wAlloc wDims wHasMin wHasK wHasDK wMin wK wDK] in *.
  constructor; cbn [fst snd with_images gInv gHasMin]; auto.
  constructor; cbn [fst snd view with_images wPtr wAlloc wDims wHasMin wHasK wHasDK wMin wK wDK gPtr gAlloc gDims gHasMin gHasK gHasDK gMin gK gDK]; auto.
  - intros _. split; [exact HI|]. intros m Hm. rewrite I7. now apply images_shortest.
  - intros _. split; [reflexivity|]. intros m Hm. rewrite I7. destruct (Ha m Hm) as (_ & _ & A3).
    rewrite A3, ksq_norm2, length2_norm2. reflexivity.
  - intros Hd. destruct (I10 Hd) as [F _]. congruence.
Qed.

(** ** One operation *)
Definition nice (ps : list R) : Prop :=
  posParams l (params ps) /\ searchOk l (params ps) dims /\ spaced l (params ps) dims.

Lemma spaced_ext : forall p p', (forall i, i < nParam l -> p i = p' i) -> spaced l p dims -> spaced l p' dims.
Proof. intros p p' H. unfold spaced. now rewrite (kBasis_ext l p p' H). Qed.

Lemma g_params_step : forall c g st c' g' ps, gInvariant (c, g, st) -> nice ps ->
  setParameters c ps = Ok c' -> g_clear g c' = Ok g' -> gInvariant (c', g', st).
Proof.
  intros c g st c' g' ps [W S V R H3] (N1 & N2 & N3) E1 E2. cbn [fst snd] in *.
  assert (E3 : clearUnitCellData (view g) c' = Ok (view g')) by (rewrite view_clear, E2; reflexivity).
  destruct (inv_params l dims c (view g) c' (view g') ps W N1 N2 E1 E3) as (W' & HI & HU).
  destruct (g_clear_inv g c' g' E2) as (F1 & F2 & F3).
  constructor; cbn [fst snd]; auto.
  - intros _. apply (spaced_ext (params ps)); auto. intros i Hi. symmetry. auto.
  - intros m Hm. rewrite F1. auto.
Qed.

Lemma g_ksq_ok : forall sch g c st, gInvariant (c, g, st) -> fair_waves dev sch ->
  gHasK g = false -> gHasMin g = true -> cellOk c = true ->
  exists K st', g_ksq dev sch g c st =
      Ok (Gwave (gPtr g) (gAlloc g) (gHasMin g) (gHasMinH g) true (gHasDK g) (gDims g) (gInv g) (gMin g) K (gDK g), st') /\
    ready dev st' /\ maxT st' = maxT st /\
    forall m, m < nK dims -> K m = ksq (dim l) (kBasis l (uP c)) (vec_at (nK dims) (gMin g) m).
Proof.
  intros sch g c st I (F1 & F2 & F3) H1 H2 H3. destruct I as [W S V R _]. cbn [fst snd] in *.
  destruct W as [I1 I2 I3 I4 I5 I6 I7 I8 I9 I10]. cbn [fst snd view wDims] in *.
  assert (HI : uInit c = true). { unfold cellOk in H3. rewrite I1 in H3. exact H3. }
  destruct (I4 HI) as (K1 & K2 & K3 & K4).
  unfold g_ksq. rewrite H1, H2, H3. cbn [negb].
  assert (HN : (0 <? uN c) = true). { rewrite I3. destruct l; reflexivity. }
  rewrite HN. cbn [check bind]. rewrite I7. pose proof (nK_pos dims HP) as Hn.
  destruct (logical_ready dev (Z.of_nat (nK dims)) st R ltac:(lia)) as (st' & E & R' & M & P & C & A & B).
  rewrite E. cbn [bind]. rewrite A.
  match goal with |- context [grid_stride ?g ?t ?td ?s ?ar] =>
    destruct (grid_stride_all g t (nK dims) s ar) as (r & Er & Kr) end.
  { lia. }
  { intros t Ht. now apply F3. }
  rewrite Er. cbn [bind]. exists r, st'. split; [reflexivity|]. split; [exact R'|]. split; [exact M|].
  intros m Hm. rewrite Kr, (proj2 (Nat.ltb_lt _ _) Hm). rewrite ksq_at_ok, I2, K1. reflexivity.
Qed.

Lemma g_dksq_ok : forall sch g c st, gInvariant (c, g, st) -> fair_waves dev sch ->
  gHasDK g = false -> gHasMin g = true -> cellOk c = true ->
  exists DK st', g_dksq dev sch g c st =
      Ok (Gwave (gPtr g) (gAlloc g) (gHasMin g) (gHasMinH g) (gHasK g) true (gDims g) (gInv g) (gMin g) (gK g) DK, st') /\
    ready dev st' /\ maxT st' = maxT st /\
    forall i m, i < nParam l -> m < nK dims -> DK (i * nK dims + m) =
      ((if hasImplicitInverse (gridPos (computeKMesh dims) m) dims then 2 else 1)
       * dksq (dim l) (dkkBasis l (uP c)) (vec_at (nK dims) (gMin g) m) i)%R.
Proof.
  intros sch g c st I (F1 & F2 & F3) H1 H2 H3. destruct I as [W S V R H128]. cbn [fst snd] in *.
  destruct W as [I1 I2 I3 I4 I5 I6 I7 I8 I9 I10]. cbn [fst snd view wDims] in *.
  assert (HI : uInit c = true). { unfold cellOk in H3. rewrite I1 in H3. exact H3. }
  destruct (I4 HI) as (K1 & K2 & K3 & K4).
  unfold g_dksq. rewrite H1, H2, H3. cbn [negb bind fst snd].
  assert (HN : (0 <? uN c) = true). { rewrite I3. destruct l; reflexivity. }
  rewrite HN. cbn [check bind]. rewrite I7. pose proof (nK_pos dims HP) as Hn.
  destruct (logical_ready dev (Z.of_nat (nK dims)) st R ltac:(lia)) as (st' & E & R' & M & P & C & A & B).
  rewrite E. cbn [bind].
  assert (HC : (Z.of_nat (uN c * uD c * uD c) <? tpb st')%Z = true).
  { apply Z.ltb_lt. rewrite P, I2, I3. assert (Hp := maxT_pos st (proj1 (proj2 R))).
    specialize (fun H => H128 H H2). destruct l; cbn [nParam dim] in *; try lia; specialize (H128 eq_refl); lia. }
  rewrite HC. cbn [check bind]. rewrite A.
  match goal with |- context [grid_stride ?g ?t (dksq_todo ?nP ?n ?t) ?s ?ar] =>
    destruct (dksq_stride g t nP n s ar) as (r & Er & Kr) end.
  { lia. }
  { exact Hn. }
  { intros t Ht. now apply F3. }
  rewrite Er. cbn [bind]. exists r, st'. split; [rewrite ?H2, ?I7; reflexivity|]. split; [exact R'|]. split; [exact M|].
  intros i m Hi Hm. rewrite Kr by (auto; now rewrite I3).
  rewrite split_div, split_mod by auto. rewrite dksq_at_ok, I2, K2, V by auto. reflexivity.
Qed.

(** ** Comparison with the CPU *)

(** Images beyond the window of the CPU are longer than some image within it. *)
Definition near (p : nat -> R) : Prop :=
  forall m s u, m < nK dims -> window (dim l) s -> ~ small_shift (dim l) s ->
    shifted (dim l) (vecOf (gridPos (computeKMesh dims) m)) (vecOf dims) s u ->
    exists s' u', small_shift (dim l) s' /\
      shifted (dim l) (vecOf (gridPos (computeKMesh dims) m)) (vecOf dims) s' u' /\
      (length2 (dim l) (kBasis l p) u' < length2 (dim l) (kBasis l p) u)%R.

Lemma small_dec : forall s, (dim l = 2 \/ dim l = 3) -> small_shift (dim l) s \/ ~ small_shift (dim l) s.
Proof.
  intros s HD.
  assert (K : forall D, small_shift D s \/ ~ small_shift D s).
  { induction D as [|D IH]; [left; intros i Hi; lia|]. destruct IH as [H|H].
    - destruct (Z_le_dec (-2) (s D)) as [H1|H1]; [destruct (Z_le_dec (s D) 2) as [H2|H2]|].
      + left. intros i Hi. destruct (Nat.eq_dec i D) as [->|]; [lia|]. apply H. lia.
      + right. intros H'. specialize (H' D ltac:(lia)). lia.
      + right. intros H'. specialize (H' D ltac:(lia)). lia.
    - right. intros H'. apply H. intros i Hi. apply H'. lia. }
  apply K.
Qed.

Lemma cpu_least : forall p m, spaced l p dims -> near p -> dim l = 2 \/ dim l = 3 -> m < nK dims ->
  least (dim l) (kBasis l p) (vecOf dims) (vecOf (gridPos (computeKMesh dims) m))
    (shiftToMinimum (dim l) (vecOf (gridPos (computeKMesh dims) m)) (vecOf dims) (kBasis l p)).
Proof.
  intros p m HS HN HD Hm. pose proof (kpos_in_box dims HP m Hm) as HB.
  set (v := vecOf (gridPos (computeKMesh dims) m)) in *.
  assert (VV := vecOf_vec dims _ HB). rewrite HL in VV. fold v in VV.
  set (r := shiftToMinimum (dim l) v (vecOf dims) (kBasis l p)).
  destruct (shiftToMinimum_image (dim l) v (vecOf dims) (kBasis l p)) as (s & S1 & S2 & S3); [lia|exact VV|].
  fold r in S2, S3.
  assert (SM : forall s u, small_shift (dim l) s -> shifted (dim l) v (vecOf dims) s u ->
    (length2 (dim l) (kBasis l p) r <= length2 (dim l) (kBasis l p) u)%R /\
    (length2 (dim l) (kBasis l p) u = length2 (dim l) (kBasis l p) r -> ~ before (dim l) r u)).
  { intros s' u Hs Hu. set (u1 := fun i => if i <? dim l then u i else 0%Z).
    assert (E1 : forall i, i < dim l -> u1 i = u i).
    { intros i Hi. unfold u1. now rewrite (proj2 (Nat.ltb_lt _ _) Hi). }
    destruct (shiftToMinimum_exact (dim l) v (vecOf dims) (kBasis l p)) with (s := s') (u := u1) as [X1 X2].
    - lia.
    - exact VV.
    - intros x y a b _ _ Hx Hy. rewrite <- !length2_norm2. apply HS. eapply image_diff; eauto.
    - exact Hs.
    - intros i Hi. rewrite E1 by auto. now apply Hu.
    - intros i Hi. unfold u1. now rewrite (proj2 (Nat.ltb_ge _ _) Hi).
    - fold r in X1, X2. rewrite <- !length2_norm2 in X1, X2. rewrite (length2_ext _ _ u1 u E1) in X1, X2.
      split; [exact X1|]. intros Eq (i & Hi & Hlt & Hb). apply (X2 Eq).
      exists i. split; [exact Hi|]. split; [now rewrite E1|]. intros j Hj. rewrite E1 by lia. now apply Hb. }
  split.
  - exists s. split; [now apply small_window|exact S2].
  - intros s' u Hw Hu. destruct (small_dec s' HD) as [Hs|Hs]; [now apply (SM s')|].
    destruct (HN m s' u Hm Hw Hs Hu) as (s2 & u2 & H1 & H2 & H3). destruct (SM s2 u2 H1 H2) as [H4 _].
    split; [left; eapply Rle_lt_trans; eauto|]. intros Eq. exfalso. rewrite Eq in H3. lra.
Qed.

Lemma least_unique : forall D k d v u u', least D k d v u -> least D k d v u' -> forall i, i < D -> u i = u' i.
Proof.
  intros D k d v u u' [(s & W & S) M] [(s' & W' & S') M'].
  destruct (M s' u' W' S') as [L1 L2]. destruct (M' s u W S) as [L1' L2'].
  assert (Eq : length2 D k u = length2 D k u') by (apply Rle_antisym; auto).
  destruct (precedes_total D u u') as [P|[P|P]]; [|
    |exact P].
  - exfalso. apply L2; [symmetry; exact Eq|exact P].
  - exfalso. apply L2'; [exact Eq|exact P].
Qed.

Lemma images_cpu : forall p a m j, spaced l p dims -> near p -> images_of p a -> m < nK dims -> j < dim l ->
  vec_at (nK dims) (fst a) m j =
  shiftToMinimum (dim l) (vecOf (gridPos (computeKMesh dims) m)) (vecOf dims) (kBasis l p) j.
Proof.
  intros p a m j HS HN Ha Hm Hj. destruct (Ha m Hm) as (A1 & A2 & _).
  destruct dim_cases as [D1|D23].
  - replace j with 0 by lia. rewrite (A1 D1). destruct (one_dim D1) as (n & E & Hn).
    rewrite D1. cbn [shiftToMinimum Nat.eqb]. unfold shift1. rewrite E. rewrite gridPos_1.
    unfold vecOf. cbn [nth]. rewrite E in Hm. unfold nK in Hm. cbn [computeKMesh gridSize] in Hm. rewrite Z.mul_1_r in Hm.
    assert (0 <= Z.quot n 2)%Z by (apply Z.quot_pos; lia).
    rewrite (proj2 (Z.ltb_ge (Z.quot n 2) (Z.of_nat m))) by lia.
    rewrite (proj2 (Z.ltb_ge (Z.of_nat m) (- Z.quot n 2))) by lia. reflexivity.
  - specialize (A2 D23). revert j Hj. eapply least_unique; [exact A2|]. now apply cpu_least.
Qed.

Variable NR : Prop.

Record sim (s : ucell * wavelist) (s' : ucell * gwave * tarr) : Prop := {
  sim_cell : fst (fst s') = fst s;
  sim_cpu : wlInv l dims s;
  sim_gpu : gInvariant s';
  sim_min : gHasMin (snd (fst s')) = wHasMin (snd s);
  sim_k : gHasK (snd (fst s')) = wHasK (snd s);
  sim_dk : gHasDK (snd (fst s')) = wHasDK (snd s);
  sim_images : NR -> wHasMin (snd s) = true -> forall m j, m < nK dims -> j < dim l ->
    vec_at (nK dims) (gMin (snd (fst s'))) m j = wMin (snd s) m j
}.

Definition agree {A B} (R : A -> B -> Prop) (x : outcome A) (y : outcome B) : Prop :=
  match x, y with Ok a, Ok b => R a b | Throw, Throw => True | _, _ => False end.

Definition near_now (c : ucell) : Prop := NR -> uInit c = true -> near (uP c).

Lemma near_ext : forall p p', (forall i, i < nParam l -> p i = p' i) -> near p -> near p'.
Proof. intros p p' H. unfold near. now rewrite (kBasis_ext l p p' H). Qed.

(** computeMinimumImages on both sides *)
Lemma sim_compute : forall sch c w g st, fair_waves dev sch -> near_now c -> sim (c, w) (c, g, st) ->
  wHasMin w = false ->
  match computeMinimumImages w c, g_images dev sch g c st with
  | Ok w', Ok (g', st') => sim (c, w') (c, g', st') /\ wHasMin w' = true /\ wHasK w' = true /\ wHasDK w' = wHasDK w /\
      gHasDK g' = gHasDK g /\ cellOk c = true
  | Throw, Throw => cellOk c = false
  | _, _ => False
  end.
Proof.
  intros sch c w g st HF HN S Hm. destruct S as [_ SC SG S1 S2 S3 S4]. cbn [fst snd] in *.
  destruct (computeMinimumImages w c) as [w'| | |] eqn:Ew.
  - destruct (inv_min l dims HP c w w' SC Ew) as (J1 & J2 & J3 & J4).
    assert (HC : cellOk c = true).
    { unfold computeMinimumImages in Ew. rewrite Hm in Ew. destruct (wAlloc w); [|discriminate]. cbn [check bind] in Ew.
      destruct (cellOk c); [reflexivity|discriminate]. }
    assert (HI : uInit c = true). { unfold cellOk in HC. destruct (uLat c); [exact HC|discriminate]. }
    destruct (g_images_ok sch g c st SG HF ltac:(congruence) HC) as (a & st' & E & R' & M & M3 & Ha).
    rewrite E. split; [|split; [exact J2|split; [auto|split; [exact J4|split; [reflexivity|exact HC]]]]].
    constructor; cbn [fst snd with_images gHasMin gHasK gHasDK gMin]; auto.
    + apply (images_invariant c g st); auto. congruence.
    + symmetry. apply J3. exact Hm.
    + congruence.
    + intros Hnr _ m j Hm' Hj.
      destruct SC as [C1 C2 _ C4 _ C6 C7 _ _ _]. cbn [fst snd] in *. destruct (C4 HI) as (C41 & _).
      rewrite (images_cpu (uP c) a m j); auto; [|apply SG; exact HI].
      unfold computeMinimumImages in Ew. rewrite Hm, C6, HC in Ew. cbn [check bind] in Ew. injection Ew as <-.
      cbn [wMin]. unfold fillTo, minImageOf. rewrite C7, C2, C41, (proj2 (Nat.ltb_lt _ _) Hm'). reflexivity.
  - destruct SC as [C1 C2 _ C4 _ C6 C7 _ _ _]. cbn [fst snd] in *.
    unfold computeMinimumImages in Ew. rewrite Hm, C6 in Ew. cbn [check bind] in Ew.
    destruct (cellOk c) eqn:HC; [discriminate|].
    unfold g_images. rewrite S1, Hm. destruct SG as [W _ _ _ _]. destruct W as [_ _ _ _ _ W6 _ _ _ _].
    cbn [fst snd view wAlloc] in W6. rewrite W6, HC. reflexivity.
  - exfalso. unfold computeMinimumImages in Ew. rewrite Hm in Ew. destruct (wAlloc w); [|discriminate]. cbn [check bind] in Ew.
    destruct (cellOk c); discriminate.
  - exfalso. unfold computeMinimumImages in Ew. rewrite Hm in Ew. destruct (wAlloc w); [|discriminate]. cbn [check bind] in Ew.
    destruct (cellOk c); discriminate.
Qed.

Lemma nParam_pos : (0 <? nParam l) = true.
Proof. destruct l; reflexivity. Qed.

Lemma sim_step : forall sch c w g st o, fair_waves dev sch -> near_now c -> sim (c, w) (c, g, st) ->
  (forall ps, o = WParams ps -> nice ps) ->
  agree sim (wl_step (c, w) o) (gl_step dev sch (c, g, st) o).
Proof.
  intros sch c w g st o HF HN S HQ. destruct o as [ps| | |]; cbn [wl_step gl_step].
  - destruct S as [_ SC SG S1 S2 S3 S4]. cbn [fst snd] in *.
    destruct (setParameters c ps) as [c'| | |] eqn:Ep; cbn [bind]; try exact Logic.I.
    + assert (Ew := SC). destruct Ew as [C1 C2 C3 _ C5 _ C7 _ _ _]. cbn [fst snd] in *.
      destruct SG as [W SP V R H3] eqn:ESG. clear ESG. assert (G5 := wi_ptr l dims _ W). cbn [fst snd view wPtr] in G5.
      assert (L' : uLat c' = Some l).
      { unfold setParameters in Ep. destruct (length ps =? uN c); [|discriminate]. cbn [check bind] in Ep.
        unfold setLattice in Ep. cbn [withParams uLat] in Ep. rewrite C1 in Ep.
        destruct (_ =? _); [|discriminate]. cbn [check bind] in Ep. injection Ep as <-. reflexivity. }
      destruct (HQ ps eq_refl) as (N1 & N2 & N3).
      destruct (clearUnitCellData w c') as [w'| | |] eqn:Ec.
      2-4: unfold clearUnitCellData in Ec; rewrite C5, L' in Ec; discriminate.
      destruct (g_clear g c') as [g'| | |] eqn:Eg.
      2-4: unfold g_clear in Eg; rewrite G5, L' in Eg; discriminate.
      cbn [bind agree]. 
      destruct (inv_params l dims c w c' w' ps SC N1 N2 Ep Ec) as (J1 & J2 & J3).
      constructor; cbn [fst snd]; auto.
      * apply (g_params_step c g st c' g' ps SG (conj N1 (conj N2 N3)) Ep Eg).
      * unfold clearUnitCellData in Ec. rewrite C5, L' in Ec. injection Ec as <-.
        unfold g_clear in Eg. rewrite G5, L' in Eg. injection Eg as <-. cbn [gHasMin wHasMin].
        rewrite S1. destruct (hasVariableAngle l); reflexivity.
      * unfold clearUnitCellData in Ec. rewrite C5, L' in Ec. injection Ec as <-.
        unfold g_clear in Eg. rewrite G5, L' in Eg. injection Eg as <-. reflexivity.
      * unfold clearUnitCellData in Ec. rewrite C5, L' in Ec. injection Ec as <-.
        unfold g_clear in Eg. rewrite G5, L' in Eg. injection Eg as <-. reflexivity.
      * unfold clearUnitCellData in Ec. rewrite C5, L' in Ec. injection Ec as <-.
        unfold g_clear in Eg. rewrite G5, L' in Eg. injection Eg as <-. cbn [wHasMin wMin gMin].
        intros Hnr Hh. destruct (hasVariableAngle l); [discriminate|]. now apply S4.
    + exfalso. unfold setParameters in Ep. destruct (length ps =? uN c); [|discriminate]. cbn [check bind] in Ep.
      unfold setLattice in Ep. cbn [withParams uLat] in Ep. destruct SC as [C1 _ _ _ _ _ _ _ _ _]. cbn [fst] in C1.
      rewrite C1 in Ep. destruct (_ =? _); discriminate.
    + exfalso. unfold setParameters in Ep. destruct (length ps =? uN c); [|discriminate]. cbn [check bind] in Ep.
      unfold setLattice in Ep. cbn [withParams uLat] in Ep. destruct SC as [C1 _ _ _ _ _ _ _ _ _]. cbn [fst] in C1.
      rewrite C1 in Ep. destruct (_ =? _); discriminate.
  - destruct (wHasMin w) eqn:Hm.
    + assert (Hg : gHasMin g = true) by (destruct S; cbn [fst snd] in *; congruence).
      unfold computeMinimumImages, g_images. rewrite Hm, Hg. cbn [bind agree fst snd]. exact S.
    + pose proof (sim_compute sch c w g st HF HN S Hm) as K.
      destruct (computeMinimumImages w c) as [w'| | |], (g_images dev sch g c st) as [[g' st']| | |]; try contradiction;
        cbn [bind agree fst snd]; [apply K|exact Logic.I].
  - destruct (wHasK w) eqn:HK.
    + assert (Hg : gHasK g = true) by (destruct S; cbn [fst snd] in *; congruence).
      unfold computeKSq, g_ksq. rewrite HK, Hg. cbn [bind agree fst snd]. exact S.
    + assert (Hg : gHasK g = false) by (destruct S; cbn [fst snd] in *; congruence).
      destruct (wHasMin w) eqn:Hm.
      * assert (Hgm : gHasMin g = true) by (destruct S; cbn [fst snd] in *; congruence).
        destruct (cellOk c) eqn:HC.
        -- assert (S' := S). destruct S' as [_ SC SG S1 S2 S3 S4]. cbn [fst snd] in *.
           destruct (g_ksq_ok sch g c st SG HF Hg Hgm HC) as (K & st' & E & R' & M & HKs). rewrite E. cbn [bind fst snd].
           destruct (computeKSq w c) as [w'| | |] eqn:Ew.
           2-4: exfalso; unfold computeKSq in Ew; rewrite HK, Hm in Ew; cbn [negb] in Ew;
             destruct SC as [_ _ C3 _ _ C6 _ _ _ _]; cbn [fst snd] in *; rewrite C6, C3, nParam_pos, HC in Ew; discriminate.
           cbn [bind agree]. destruct (inv_k l dims HP c w w' SC Ew) as [J1 J2].
           assert (Ew' := Ew). unfold computeKSq in Ew'. rewrite HK, Hm in Ew'. cbn [negb] in Ew'.
           destruct SC as [C1 C2 C3 C4 C5 C6 C7 C8 C9 C10] eqn:ESC. cbn [fst snd] in *. rewrite C6, C3, nParam_pos, HC in Ew'.
           cbn [check bind] in Ew'. 
           constructor; cbn [fst snd gHasMin gHasK gHasDK gMin].
           ++ reflexivity.
           ++ exact J1.
           ++ destruct SG as [W SP V R H3]. cbn [fst snd] in *.
              constructor; cbn [fst snd gInv gHasMin]; auto.
              ** destruct W as [W1 W2 W3 W4 W5 W6 W7 W8 W9 W10].
                 cbn [fst snd view wPtr wAlloc wDims wHasMin wHasK wHasDK wMin wK wDK] in *.
                 constructor; cbn [fst snd view wPtr wAlloc wDims wHasMin wHasK wHasDK wMin wK wDK gPtr gAlloc gDims gHasMin gHasK gHasDK gMin gK gDK]; auto.
                 intros _. split; [exact Hgm|]. intros m Hm'. rewrite W7. now apply HKs.
              ** intros D3 _. rewrite M. now apply H3.
           ++ injection Ew' as <-. cbn [wHasMin]. congruence.
           ++ injection Ew' as <-. reflexivity.
           ++ injection Ew' as <-. cbn [wHasDK]. congruence.
           ++ injection Ew' as <-. cbn [wHasMin wMin]. intros Hnr _. exact (S4 Hnr Hm).
        -- unfold computeKSq, g_ksq. rewrite HK, Hg, Hm, Hgm, HC. cbn [negb].
           destruct S as [_ SC _ _ _ _ _]. destruct SC as [_ _ C3 _ _ C6 _ _ _ _]. cbn [fst snd] in *.
           rewrite C6, C3, nParam_pos. cbn [check bind agree]. exact Logic.I.
      * assert (Hgm : gHasMin g = false) by (destruct S; cbn [fst snd] in *; congruence).
        unfold computeKSq, g_ksq. rewrite HK, Hg, Hm, Hgm. cbn [negb].
        pose proof (sim_compute sch c w g st HF HN S Hm) as K.
        destruct (computeMinimumImages w c) as [w'| | |], (g_images dev sch g c st) as [[g' st']| | |]; try contradiction;
          cbn [bind agree fst snd]; [apply K|exact Logic.I].
  - destruct (wHasDK w) eqn:HK.
    + assert (Hg : gHasDK g = true) by (destruct S; cbn [fst snd] in *; congruence).
      unfold computedKSq, g_dksq. rewrite HK, Hg. cbn [bind agree fst snd]. exact S.
    + assert (Hg : gHasDK g = false) by (destruct S; cbn [fst snd] in *; congruence).
      (* both have images *)
      assert (MAIN : forall w g st, sim (c, w) (c, g, st) -> wHasDK w = false -> wHasMin w = true -> cellOk c = true ->
        agree sim (w' <- computedKSq w c ;; Ok (c, w')) (r <- g_dksq dev sch g c st ;; Ok (c, fst r, snd r))).
      { clear S HK Hg w g st. intros w g st S HK Hm HC.
        assert (Hg : gHasDK g = false) by (destruct S; cbn [fst snd] in *; congruence).
        assert (Hgm : gHasMin g = true) by (destruct S; cbn [fst snd] in *; congruence).
        destruct S as [_ SC SG S1 S2 S3 S4]. cbn [fst snd] in *.
        destruct (g_dksq_ok sch g c st SG HF Hg Hgm HC) as (K & st' & E & R' & M & HKs). rewrite E. cbn [bind fst snd].
        destruct (computedKSq w c) as [w'| | |] eqn:Ew.
        2-4: exfalso; unfold computedKSq in Ew; rewrite HK, Hm in Ew; cbn [negb bind] in Ew;
             destruct SC as [_ _ C3 _ _ C6 _ _ _ _]; cbn [fst snd] in *; rewrite C6, C3, nParam_pos, HC in Ew; discriminate.
        cbn [bind agree]. destruct (inv_dk l dims HP c w w' SC Ew) as [J1 J2].
        assert (Ew' := Ew). unfold computedKSq in Ew'. rewrite HK, Hm in Ew'. cbn [negb bind] in Ew'.
        destruct SC as [C1 C2 C3 C4 C5 C6 C7 C8 C9 C10] eqn:ESC. cbn [fst snd] in *. rewrite C6, C3, nParam_pos, HC in Ew'.
        cbn [check bind] in Ew'.
        constructor; cbn [fst snd gHasMin gHasK gHasDK gMin].
        - reflexivity.
        - exact J1.
        - destruct SG as [W SP V R H3]. cbn [fst snd] in *.
          constructor; cbn [fst snd gInv gHasMin]; auto.
          + destruct W as [W1 W2 W3 W4 W5 W6 W7 W8 W9 W10].
            cbn [fst snd view wPtr wAlloc wDims wHasMin wHasK wHasDK wMin wK wDK] in *.
            constructor; cbn [fst snd view wPtr wAlloc wDims wHasMin wHasK wHasDK wMin wK wDK gPtr gAlloc gDims gHasMin gHasK gHasDK gMin gK gDK]; auto.
            intros _. split; [exact Hgm|]. intros i m Hi Hm'. rewrite W7. now apply HKs.
          + intros D3 _. rewrite M. now apply H3.
        - injection Ew' as <-. cbn [wHasMin]. congruence.
        - injection Ew' as <-. cbn [wHasK]. congruence.
        - injection Ew' as <-. reflexivity.
        - injection Ew' as <-. cbn [wHasMin wMin]. intros Hnr _. exact (S4 Hnr Hm). }
      destruct (wHasMin w) eqn:Hm.
      * destruct (cellOk c) eqn:HC; [now apply MAIN|].
        assert (Hgm : gHasMin g = true) by (destruct S; cbn [fst snd] in *; congruence).
        unfold computedKSq, g_dksq. rewrite HK, Hg, Hm, Hgm, HC. cbn [negb bind fst snd].
        destruct S as [_ SC _ _ _ _ _]. destruct SC as [_ _ C3 _ _ C6 _ _ _ _]. cbn [fst snd] in *.
        rewrite C6, C3, nParam_pos. cbn [check bind agree]. exact Logic.I.
      * assert (Hgm : gHasMin g = false) by (destruct S; cbn [fst snd] in *; congruence).
        pose proof (sim_compute sch c w g st HF HN S Hm) as K.
        unfold computedKSq, g_dksq. rewrite HK, Hg, Hm, Hgm. cbn [negb].
        destruct (computeMinimumImages w c) as [w'| | |], (g_images dev sch g c st) as [[g' st']| | |]; try contradiction;
          cbn [bind agree fst snd]; [|exact Logic.I].
        destruct K as (K1 & K2 & K3 & K4 & K5 & K6).
        assert (HK' : wHasDK w' = false) by congruence. assert (Hg' : gHasDK g' = false) by congruence.
        assert (Hgm' : gHasMin g' = true) by (destruct K1; cbn [fst snd] in *; congruence).
        pose proof (MAIN w' g' st' K1 HK' K2 K6) as MM.
        unfold computedKSq, g_dksq in MM. rewrite HK', Hg', K2, Hgm' in MM. cbn [negb bind fst snd] in MM. exact MM.
Qed.

Lemma near_step : forall c w o c' w', near_now c -> wl_step (c, w) o = Ok (c', w') -> wlInv l dims (c, w) ->
  (forall ps, o = WParams ps -> nice ps /\ (NR -> near (params ps))) -> near_now c'.
Proof.
  intros c w o c' w' HN E W HQ. destruct o as [ps| | |]; cbn [wl_step] in E.
  - destruct (setParameters c ps) as [c1| | |] eqn:Ep; try discriminate. cbn [bind] in E.
    destruct (clearUnitCellData w c1) as [w1| | |] eqn:Ec; try discriminate. cbn [bind] in E. injection E as <- <-.
    destruct (HQ ps eq_refl) as [(N1 & N2 & N3) N4].
    destruct (inv_params l dims c w c1 w1 ps W N1 N2 Ep Ec) as (_ & _ & J3).
    intros Hnr _. apply (near_ext (params ps)); auto. intros i Hi. symmetry. auto.
  - destruct (computeMinimumImages w c); try discriminate. cbn [bind] in E. now injection E as <- <-.
  - destruct (computeKSq w c); try discriminate. cbn [bind] in E. now injection E as <- <-.
  - destruct (computedKSq w c); try discriminate. cbn [bind] in E. now injection E as <- <-.
Qed.

Theorem sim_run : forall ops sch k s g, (forall k, fair_waves dev (sch k)) -> near_now (fst s) -> sim s g ->
  (forall ps, In (WParams ps) ops -> nice ps /\ (NR -> near (params ps))) ->
  agree sim (wl_run s ops) (gl_run dev sch k g ops).
Proof.
  induction ops as [|o ops IH]; intros sch k [c w] [[c' g] st] HF HN S HQ; cbn [wl_run gl_run].
  - exact S.
  - assert (c' = c) by (destruct S; auto). subst c'.
    assert (W := sim_cpu _ _ S).
    pose proof (sim_step (sch k) c w g st o (HF k) HN S (fun ps Ho => proj1 (HQ ps (or_introl Ho)))) as K.
    destruct (wl_step (c, w) o) as [[c1 w1]| | |] eqn:E1; destruct (gl_step dev (sch k) (c, g, st) o) as [[[c2 g2] st2]| | |];
      try contradiction; cbn [bind agree]; try exact Logic.I.
    apply IH; auto.
    + cbn [fst]. apply (near_step c w o c1 w1 HN E1 W). intros ps ->. apply HQ. now left.
    + intros ps Hps. apply HQ. now right.
Qed.
End Cache.
