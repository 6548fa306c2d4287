(** C73: the wavevector data computed on a GPU are those of the current unit cell,
    for all interleavings of threads, and those that the CPU computes. *)
From Coq Require Import Reals ZArith List Bool Arith Lia Lra Permutation FunctionalExtensionality.
From Verif Require Import Base RSum MeshSpec Mesh MeshProofs UnitCell ShiftMin PropsShiftMin Fft FftProofs
  WaveListSpec WaveList PropsWaveList GpuThreads GpuHostProofs GpuReduce GpuReduceProofs GpuGrid
  GpuWaveSpec GpuWave GpuWaveProofs GpuWaveHost GpuWaveCache.
Import ListNotations.
Local Open Scope nat_scope.

(** ** One call of computeMinimumImages *)

(** For every cell and every interleaving, each image is the shortest in the window
    of shifts, the last such image in lexicographic order, and kSq is its squared
    length. *)
Theorem C73_images : forall dev sch w c st,
  uD c = 2 \/ uD c = 3 -> length (gDims w) = uD c -> positive (gDims w) ->
  gHasMin w = false -> gAlloc w = true -> cellOk c = true ->
  ready dev st -> fair_waves dev sch ->
  (Z.of_nat (nK (gDims w) * threadsPerGP (uD c)) < 2 ^ 31)%Z ->
  (forall m, m < nK (gDims w) ->
     resolved (uD c) (uK c) (vecOf (gDims w)) (vecOf (gridPos (computeKMesh (gDims w)) m))) ->
  exists w' st', g_images dev sch w c st = Ok (w', st') /\ ready dev st' /\
    gHasMin w' = true /\ gHasK w' = true /\
    forall m, m < nK (gDims w) ->
      least (uD c) (uK c) (vecOf (gDims w)) (vecOf (gridPos (computeKMesh (gDims w)) m))
        (vec_at (nK (gDims w)) (gMin w') m) /\
      gK w' m = length2 (uD c) (uK c) (vec_at (nK (gDims w)) (gMin w') m).
Proof.
  intros dev sch w c st H1 H2 H3 H4 H5 H6 H7 H8 H9 H10.
  destruct (g_images_multi dev sch w c st H1 H2 H3 H4 H5 H6 H7 H8 H9 H10) as (a & st' & E & R & _ & _ & K).
  exists (with_images w a), st'. split; [exact E|]. split; [exact R|]. split; [reflexivity|]. split; [reflexivity|]. exact K.
Qed.
Print Assumptions C73_images.

(** ** The cache of a system *)

(** The state after the lattice was read and the wave list allocated *)
Definition gstarted (l : lattice) (dims : list Z) (s : ucell * gwave) : Prop :=
  exists junk m k dk iv, setLat (newCell (dim l) junk) l = Ok (fst s) /\
    g_allocate (newGwave m k dk iv) dims (fst s) = Ok (snd s).

Lemma gstarted_invariant : forall dev l dims c g st, positive dims -> length dims = dim l ->
  gstarted l dims (c, g) -> ready dev st ->
  gInvariant dev l dims (c, g, st) /\ gHasMin g = false /\ gHasK g = false /\ gHasDK g = false /\ uInit c = false.
Proof.
  intros dev l dims c g st HP HL (junk & m & k & dk & iv & E1 & E2) R. cbn [fst snd] in *.
  assert (A : allocate (newWaveList (vec_at (nK dims) m) k (fun i j => dk (i * nK dims + j))) dims c = Ok (view g)
     /\ gInv g = fillTo (nK dims) (implicit_at dims) iv /\ gHasMin g = false /\ gHasK g = false /\ gHasDK g = false).
  { unfold g_allocate in E2. unfold allocate. destruct (0 <? gridSize dims)%Z; [|discriminate].
    cbn [check bind] in *. destruct (0 <? uN c); [|discriminate]. cbn [check bind newGwave newWaveList negb gAlloc wAlloc] in *.
    unfold g_clear in E2. unfold clearUnitCellData. cbn [gPtr wPtr] in *.
    unfold setLat in E1. cbn [newCell uLat bind] in E1. injection E1 as <-. cbn [uLat] in *.
    cbn [bind gHasMin gHasMinH gHasK gHasDK gDims gInv gMin gK gDK gAlloc wHasMin wHasK wHasDK wMin wK wDK wDims] in *.
    injection E2 as <-. unfold view. cbn [gPtr gHasMin gHasMinH gHasK gHasDK gDims gInv gMin gK gDK gAlloc].
    rewrite ?andb_false_r. split; [|auto]. destruct (hasVariableAngle l); reflexivity. }
  destruct A as (A & AI & A1 & A2 & A3).
  assert (HI : uInit c = false).
  { unfold setLat in E1. cbn [newCell uLat bind] in E1. injection E1 as <-. reflexivity. }
  split; [|auto]. constructor; cbn [fst snd].
  - apply (inv_start l dims junk _ _ _ c (view g) E1 A).
  - congruence.
  - intros i Hi. rewrite AI. unfold fillTo. rewrite (proj2 (Nat.ltb_lt _ _) Hi).
    apply implicit_at_ok; auto. exact (dims_nonempty l dims HL).
  - exact R.
  - congruence.
Qed.

Lemma start_sim : forall dev l dims NR c w g st, positive dims -> length dims = dim l ->
  started l dims (c, w) -> gstarted l dims (c, g) -> ready dev st ->
  sim dev l dims NR (c, w) (c, g, st) /\ near_now l dims NR c.
Proof.
  intros dev l dims NR c w g st HP HL (junk & M & K & DK & E1 & E2) G R. cbn [fst snd] in *.
  destruct (gstarted_invariant dev l dims c g st HP HL G R) as (I & G1 & G2 & G3 & G4).
  assert (F : wHasMin w = false /\ wHasK w = false /\ wHasDK w = false).
  { unfold allocate in E2. destruct (0 <? gridSize dims)%Z; [|discriminate]. cbn [check bind] in E2.
    destruct (0 <? uN c); [|discriminate]. cbn [check bind newWaveList negb wAlloc] in E2.
    unfold clearUnitCellData in E2. cbn [wPtr] in E2.
    unfold setLat in E1. cbn [newCell uLat bind] in E1. injection E1 as <-. cbn [uLat bind] in E2. injection E2 as <-.
    cbn [wHasMin wHasK wHasDK newWaveList]. destruct (hasVariableAngle l); auto. }
  destruct F as (F1 & F2 & F3).
  split; [|intros _; congruence].
  constructor; cbn [fst snd]; try congruence; auto.
  apply (inv_start l dims junk M K DK c w E1 E2).
Qed.

(** After any operations, under any interleavings, GPU and CPU code either both
    raise an exception or both succeed, never with undefined behaviour.  In the
    latter case what the GPU wave list reports as available belongs to the present
    unit cell, the same items are available, and squared lengths are the same. *)
Theorem C73_fresh : forall dev l dims ops sch st c0 w0 g0,
  positive dims -> length dims = dim l -> started l dims (c0, w0) -> gstarted l dims (c0, g0) ->
  ready dev st -> (forall k, fair_waves dev (sch k)) ->
  (Z.of_nat (nK dims * threadsPerGP (dim l)) < 2 ^ 31)%Z ->
  (forall ps, In (WParams ps) ops ->
     posParams l (params ps) /\ searchOk l (params ps) dims /\ spaced l (params ps) dims) ->
  match wl_run (c0, w0) ops, gl_run dev sch 0 (c0, g0, st) ops with
  | Ok (c, w), Ok (c', g, _) =>
      c' = c /\ fresh l dims (uP c) (view g) /\
      gHasMin g = wHasMin w /\ gHasK g = wHasK w /\ gHasDK g = wHasDK w /\
      forall K K' m, getKSq w = Ok K -> getKSq (view g) = Ok K' -> m < nK dims -> K' m = K m
  | Throw, Throw => True
  | _, _ => False
  end.
Proof.
  intros dev l dims ops sch st c0 w0 g0 HP HL HS HG HR HF Ho HQ.
  destruct (start_sim dev l dims False c0 w0 g0 st HP HL HS HG HR) as [S N].
  pose proof (sim_run dev l dims HP HL Ho False ops sch 0 (c0, w0) (c0, g0, st) HF N S) as K.
  specialize (K (fun ps H => conj (HQ ps H) (False_ind _))).
  destruct (wl_run (c0, w0) ops) as [[c w]| | |], (gl_run dev sch 0 (c0, g0, st) ops) as [[[c' g] st']| | |];
    cbn [agree] in K; try contradiction; try exact Logic.I.
  destruct K as [K1 K2 K3 K4 K5 K6 _]. cbn [fst snd] in *. subst c'.
  assert (F1 := inv_fresh l dims HP HL c w K2).
  assert (F2 := inv_fresh l dims HP HL c (view g) (gi_wl _ _ _ _ K3)).
  split; [reflexivity|]. split; [exact F2|]. split; [exact K4|]. split; [exact K5|]. split; [exact K6|].
  intros KC KG m H1 H2 Hm.
  destruct (fr_ksq _ _ _ _ F1 KC m H1 Hm) as [(u & U1 & U2) U3].
  destruct (fr_ksq _ _ _ _ F2 KG m H2 Hm) as [(u' & U1' & U2') U3'].
  apply Rle_antisym; [rewrite U2; auto|rewrite U2'; auto].
Qed.
Print Assumptions C73_fresh.

(** If moreover images beyond the window of the CPU are not shortest, then images
    and derivatives are the same as well. *)
Theorem C73_same : forall dev l dims ops sch st c0 w0 g0 c w c' g st',
  positive dims -> length dims = dim l -> started l dims (c0, w0) -> gstarted l dims (c0, g0) ->
  ready dev st -> (forall k, fair_waves dev (sch k)) ->
  (Z.of_nat (nK dims * threadsPerGP (dim l)) < 2 ^ 31)%Z ->
  (forall ps, In (WParams ps) ops ->
     posParams l (params ps) /\ searchOk l (params ps) dims /\ spaced l (params ps) dims /\ near l dims (params ps)) ->
  wl_run (c0, w0) ops = Ok (c, w) -> gl_run dev sch 0 (c0, g0, st) ops = Ok (c', g, st') ->
  (forall M M' m j, getMinImages w = Ok M -> getMinImages (view g) = Ok M' -> m < nK dims -> j < dim l -> M' m j = M m j) /\
  (forall K K' m, getKSq w = Ok K -> getKSq (view g) = Ok K' -> m < nK dims -> K' m = K m) /\
  (forall dK dK' i m, getdKSq w = Ok dK -> getdKSq (view g) = Ok dK' -> i < nParam l -> m < nK dims -> dK' i m = dK i m).
Proof.
  intros dev l dims ops sch st c0 w0 g0 c w c' g st' HP HL HS HG HR HF Ho HQ E1 E2.
  destruct (start_sim dev l dims True c0 w0 g0 st HP HL HS HG HR) as [S N].
  pose proof (sim_run dev l dims HP HL Ho True ops sch 0 (c0, w0) (c0, g0, st) HF N S) as K.
  assert (HQ' : forall ps, In (WParams ps) ops -> nice l dims ps /\ (True -> near l dims (params ps))).
  { intros ps H. destruct (HQ ps H) as (Q1 & Q2 & Q3 & Q4). split; [split; [exact Q1|split; [exact Q2|exact Q3]]|auto]. }
  specialize (K HQ'). rewrite E1, E2 in K. cbn [agree] in K.
  destruct K as [K1 K2 K3 K4 K5 K6 K7]. cbn [fst snd] in *. subst c'. specialize (K7 Logic.I).
  destruct K3 as [W _ _ _ _]. cbn [fst snd] in W.
  destruct K2 as [_ _ _ _ _ _ _ _ C9 C10]. destruct W as [_ _ _ _ _ _ W7 _ W9 W10].
  cbn [fst snd view wHasMin wHasK wHasDK wMin wK wDK wDims] in *.
  split; [|split].
  - intros M M' m j H1 H2 Hm Hj. unfold getMinImages in *. cbn [view wHasMin wMin] in *. rewrite K4 in H2.
    destruct (wHasMin w); [|discriminate]. cbn [check bind] in *. injection H1 as <-. injection H2 as <-.
    rewrite W7. now apply K7.
  - intros KC KG m H1 H2 Hm. unfold getKSq in *. cbn [view wHasK wK] in *. rewrite K5 in *.
    destruct (wHasK w); [|discriminate]. cbn [check bind] in *. injection H1 as <-. injection H2 as <-.
    destruct (C9 eq_refl) as [HM C9']. destruct (W9 eq_refl) as [_ W9'].
    rewrite C9', W9', !ksq_norm2, <- !length2_norm2 by auto. apply length2_ext. intros i Hi. rewrite W7. now apply K7.
  - intros KC KG i m H1 H2 Hi Hm. unfold getdKSq in *. cbn [view wHasDK wDK] in *. rewrite K6 in *.
    destruct (wHasDK w); [|discriminate]. cbn [check bind] in *. injection H1 as <-. injection H2 as <-.
    destruct (C10 eq_refl) as [HM C10']. destruct (W10 eq_refl) as [_ W10'].
    rewrite C10', W10' by auto. f_equal. unfold dksq. apply rsum_ext. intros a Ha. apply rsum_ext. intros b Hb.
    rewrite W7, !K7 by auto. reflexivity.
Qed.
Print Assumptions C73_same.

(** ** Lattices for which images beyond the window of the CPU are not shortest *)
Lemma kpos_bounds : forall l dims m, positive dims -> length dims = dim l -> m < nK dims ->
  forall i, i < dim l -> (0 <= vecOf (gridPos (computeKMesh dims) m) i < vecOf dims i)%Z.
Proof.
  intros l dims m HP HL Hm i Hi. apply vecOf_box; [now apply kpos_in_box|lia].
Qed.

Definition orthogonal (l : lattice) : Prop :=
  match l with Lamellar | Square | Rectangular | Cubic | Tetragonal | Orthorhombic => True | _ => False end.

Lemma near_orthogonal : forall l dims p, positive dims -> length dims = dim l -> orthogonal l -> posParams l p ->
  near l dims p.
Proof.
  intros l dims p HP HL HO Hp m s u Hm Hw Hs Hu.
  pose proof (kpos_bounds l dims m HP HL Hm) as B.
  set (v := vecOf (gridPos (computeKMesh dims) m)) in *.
  destruct (Nat.eq_dec (dim l) 1) as [D1|D1]; [rewrite D1 in Hw; destruct Hw|].
  assert (D0 : 0 < dim l) by (destruct l; cbn; lia).
  assert (Hs0 : (3 <= s 0%nat)%Z /\ forall i, 0 < i -> i < dim l -> (-2 <= s i <= 2)%Z).
  { destruct l; try contradiction; cbn [dim] in *; cbn [window] in Hw.
    all: split; [|intros i H1 H2; destruct i as [|[|[|i]]]; lia].
    all: destruct (Z_le_dec 3 (s 0%nat)) as [G|G]; [exact G|exfalso; apply Hs; intros i Hi;
      destruct i as [|[|[|i]]]; lia]. }
  destruct Hs0 as [S0 S1].
  exists (fun i => if i =? 0 then 0%Z else s i), (fun i => if i =? 0 then v 0%nat else u i).
  split; [|split].
  - intros i Hi. destruct (Nat.eqb_spec i 0) as [->|Hi0]; [lia|]. apply S1; lia.
  - intros i Hi. destruct (Nat.eqb_spec i 0) as [->|Hi0]; [ring|]. now apply Hu.
  - assert (U0 := Hu 0 D0). specialize (B 0 D0).
    assert (Q : (sqZ (v 0%nat) < sqZ (u 0%nat))%R).
    { unfold sqZ. rewrite <- !mult_IZR. apply IZR_lt.
      assert (X : (v 0%nat < u 0%nat)%Z) by (rewrite U0; nia). nia. }
    assert (HV : hasVariableAngle l = false) by (destruct l; try contradiction; reflexivity).
    rewrite !lat_norm by auto.
    pose proof (fun g Hg => latCoef_pos l p g Hp Hg HV) as C.
    destruct l; try contradiction; cbn [dim latGroups] in *; try lia; cbn [rsum latQ Nat.eqb] in *;
      specialize (C 0%nat ltac:(lia)); nra.
Qed.

Lemma near_hexagonal : forall l dims p, positive dims -> length dims = dim l -> l = Hexagonal2 \/ l = Hexagonal3 ->
  posParams l p -> (vecOf dims 1%nat < 2 * vecOf dims 0%nat)%Z -> near l dims p.
Proof.
  intros l dims p HP HL HO Hp Hd m s u Hm Hw Hs Hu.
  pose proof (kpos_bounds l dims m HP HL Hm) as B.
  set (v := vecOf (gridPos (computeKMesh dims) m)) in *.
  assert (D2 : 1 < dim l) by (destruct HO as [-> | ->]; cbn; lia).
  assert (Hs0 : (3 <= s 0%nat <= 4)%Z /\ forall i, 0 < i -> i < dim l -> (-2 <= s i <= 2)%Z).
  { destruct HO as [-> | ->]; cbn [dim] in *; cbn [window] in Hw.
    all: split; [|intros i H1 H2; destruct i as [|[|[|i]]]; lia].
    all: destruct (Z_le_dec 3 (s 0%nat)) as [G|G]; [lia|exfalso; apply Hs; intros i Hi;
      destruct i as [|[|[|i]]]; lia]. }
  destruct Hs0 as [S0 S1].
  exists (fun i => if i =? 0 then (s 0%nat - 2)%Z else s i), (fun i => if i =? 0 then (u 0%nat - 2 * vecOf dims 0%nat)%Z else u i).
  split; [|split].
  - intros i Hi. destruct (Nat.eqb_spec i 0) as [->|Hi0]; [lia|]. apply S1; lia.
  - intros i Hi. destruct (Nat.eqb_spec i 0) as [->|Hi0]; [rewrite (Hu 0 Hi); ring|]. now apply Hu.
  - assert (U0 := Hu 0 ltac:(lia)). assert (U1 := Hu 1 D2).
    assert (B0 := B 0 ltac:(lia)). assert (B1 := B 1 D2). specialize (S1 1 ltac:(lia) D2).
    assert (Q : (hexq (u 0%nat - 2 * vecOf dims 0%nat) (u 1%nat) < hexq (u 0%nat) (u 1%nat))%R).
    { unfold hexq, sqZ. rewrite <- !mult_IZR, <- !plus_IZR. apply IZR_lt.
      assert (X : (0 < 2 * u 0%nat + u 1%nat - 2 * vecOf dims 0%nat)%Z) by (rewrite U0, U1; nia).
      nia. }
    assert (HV : hasVariableAngle l = false) by (destruct HO as [-> | ->]; reflexivity).
    rewrite !lat_norm by auto.
    pose proof (fun g Hg => latCoef_pos l p g Hp Hg HV) as C.
    destruct HO as [-> | ->]; cbn [dim latGroups] in *; cbn [rsum latQ Nat.eqb] in *;
      specialize (C 0%nat ltac:(lia)); nra.
Qed.

Theorem C73_near : forall l dims p, positive dims -> length dims = dim l -> posParams l p ->
  orthogonal l \/ ((l = Hexagonal2 \/ l = Hexagonal3) /\ (vecOf dims 1%nat < 2 * vecOf dims 0%nat)%Z) ->
  near l dims p.
Proof.
  intros l dims p HP HL Hp [H|[H1 H2]]; [now apply near_orthogonal|now apply near_hexagonal].
Qed.
Print Assumptions C73_near.

(** ** Where CPU and GPU differ *)

(** On a 2 x 28 mesh of a hexagonal cell the GPU finds a shorter image of the wave
    (0, 14) than the CPU, because its window of shifts is larger. *)
Definition hexDims : list Z := [2; 28]%Z.
Definition hexCell0 : ucell := fst refStart.
Definition hexCpu0 : wavelist :=
  mkWaveList true true false false false hexDims (fun _ _ => 0%Z) (fun _ => 0%R) (fun _ _ => 0%R).
Definition hexGpu0 : gwave :=
  Gwave true true false false false false hexDims (fillTo (nK hexDims) (implicit_at hexDims) (fun _ => false))
    (fun _ => 0%Z) (fun _ => 0%R) (fun _ => 0%R).
Definition hexCell : ucell := match setParameters hexCell0 [1%R] with Ok c => c | _ => hexCell0 end.

Lemma hex_set : setParameters hexCell0 [1%R] = Ok hexCell.
Proof. reflexivity. Qed.
Lemma hex_uK : uK hexCell = kBasis Hexagonal2 (uP hexCell) /\ uD hexCell = 2 /\ cellOk hexCell = true /\
  uP hexCell 0 = 1%R.
Proof. repeat split; reflexivity. Qed.
Lemma hex_started : started Hexagonal2 hexDims (hexCell0, hexCpu0).
Proof. exists refJunk, (fun _ _ => 0%Z), (fun _ => 0%R), (fun _ _ => 0%R). split; reflexivity. Qed.
Lemma hex_gstarted : gstarted Hexagonal2 hexDims (hexCell0, hexGpu0).
Proof. exists refJunk, (fun _ => 0%Z), (fun _ => 0%R), (fun _ => 0%R), (fun _ => false). split; reflexivity. Qed.

Definition hexWindow (b : Z) : bool :=
  forallb (fun s0 => forallb (fun s1 =>
    (b <=? hexN (fun i => match i with 0%nat => s0 * 2 | _ => 14 + s1 * 28 end))%Z) range2) range2.

Theorem C73_same_refuted : forall dev sch st, ready dev st -> (forall k, fair_waves dev (sch k)) ->
  exists c w g st' K K', 
    wl_run (hexCell0, hexCpu0) [WParams [1%R]; WKSq] = Ok (c, w) /\
    gl_run dev sch 0 (hexCell0, hexGpu0, st) [WParams [1%R]; WKSq] = Ok (c, g, st') /\
    posParams Hexagonal2 (uP c) /\ spaced Hexagonal2 (uP c) hexDims /\
    getKSq w = Ok K /\ getKSq (view g) = Ok K' /\ 14 < nK hexDims /\ (K' 14%nat < K 14%nat)%R /\
    exists j, j < 2 /\ vec_at (nK hexDims) (gMin g) 14 j <> wMin w 14 j.
Proof.
  intros dev sch st HR HF.
  destruct hex_uK as (EK & ED & EC & EP).
  assert (POS : (0 < uP hexCell 0)%R) by (rewrite EP; lra).
  assert (BIG : (epsilon < (2 * PI / uP hexCell 0) ^ 2 * (4 / 3))%R) by (rewrite EP; apply refParam_big).
  assert (SP := spaced_int Hexagonal2 (uP hexCell) hexDims _ hexN BIG (fun u => hex_length2 (uP hexCell) u POS)).
  assert (A0 : (0 < (2 * PI / uP hexCell 0) ^ 2 * (4 / 3))%R) by (assert (X := eps_pos); lra).
  assert (NK : nK hexDims = 30) by (vm_compute; reflexivity).
  assert (G1 : gridPos (computeKMesh hexDims) 14 = [0; 14]%Z) by (vm_compute; reflexivity).
  (* GPU *)
  assert (HP : positive hexDims) by (repeat constructor).
  destruct (g_images_multi dev (sch 1) hexGpu0 hexCell st) as (a & st' & E & R' & _ & _ & K).
  { left; exact ED. }
  { exact (eq_sym ED). }
  { exact HP. }
  { reflexivity. }
  { reflexivity. }
  { exact EC. }
  { exact HR. }
  { apply HF. }
  { rewrite ED. cbn [hexGpu0 gDims threadsPerGP]. rewrite NK. cbn. lia. }
  { intros m _. rewrite ED, EK. apply (spaced_resolved Hexagonal2 hexDims). exact SP. }
  cbn [hexGpu0 gDims] in K. rewrite ED, EK in K. destruct (K 14 ltac:(rewrite NK; lia)) as [[_ K1] K2]. rewrite G1 in K1.
  destruct (K1 (fun i => match i with 0%nat => 3 | _ => -1 end)%Z (fun i => match i with 0%nat => 6 | _ => -14 end)%Z) as [K3 _].
  { cbn. lia. }
  { intros i Hi. destruct i as [|[|i]]; [reflexivity|reflexivity|lia]. }
  rewrite <- K2, hex_length2 in K3 by exact POS.
  (* CPU *)
  set (mi := fillTo (nK hexDims) (minImageOf hexDims hexCell) (fun _ _ => 0%Z)).
  set (w := mkWaveList true true true true false hexDims mi
        (fillTo (nK hexDims) (fun m => ksq (uD hexCell) (uK hexCell) (mi m)) (fun _ => 0%R)) (fun _ _ => 0%R)).
  assert (EW : wl_run (hexCell0, hexCpu0) [WParams [1%R]; WKSq] = Ok (hexCell, w)).
  { cbn [wl_run wl_step]. rewrite hex_set. cbn [bind]. reflexivity. }
  assert (EG : gl_run dev sch 0 (hexCell0, hexGpu0, st) [WParams [1%R]; WKSq] = Ok (hexCell, with_images hexGpu0 a, st')).
  { cbn [gl_run gl_step]. rewrite hex_set. cbn [bind]. change (g_clear hexGpu0 hexCell) with (Ok hexGpu0).
    cbn [bind gl_step]. unfold g_ksq. change (gHasK hexGpu0) with false. change (gHasMin hexGpu0) with false. cbn [negb].
    rewrite E. reflexivity. }
  assert (W14 : wK w 14 = length2 2 (kBasis Hexagonal2 (uP hexCell)) (wMin w 14)).
  { cbn [w wK wMin]. unfold fillTo at 1. rewrite (proj2 (Nat.ltb_lt 14 (nK hexDims))) by (rewrite NK; lia).
    rewrite ED, EK, ksq_norm2. reflexivity. }
  assert (WM : wMin w 14 = shiftToMinimum 2 (vecOf [0; 14]%Z) (vecOf hexDims) (kBasis Hexagonal2 (uP hexCell))).
  { cbn [w wMin]. unfold mi, fillTo. rewrite (proj2 (Nat.ltb_lt 14 (nK hexDims))) by (rewrite NK; lia).
    unfold minImageOf. rewrite ED, EK, G1. reflexivity. }
  assert (VV : vec 2 (vecOf [0; 14]%Z)) by (intros i Hi; unfold vecOf; apply nth_overflow; exact Hi).
  destruct (shiftToMinimum_image 2 (vecOf [0; 14]%Z) (vecOf hexDims) (kBasis Hexagonal2 (uP hexCell)) ltac:(lia) VV)
    as (t & T1 & T2 & _). rewrite <- WM in T2.
  assert (HN : (156 <= hexN (wMin w 14%nat))%Z).
  { assert (HW : hexWindow 156 = true) by (vm_compute; reflexivity). unfold hexWindow in HW.
    rewrite forallb_forall in HW. specialize (HW (t 0%nat) (small_in _ (T1 0%nat ltac:(lia)))).
    rewrite forallb_forall in HW. specialize (HW (t 1%nat) (small_in _ (T1 1%nat ltac:(lia)))). apply Z.leb_le in HW.
    eapply Z.le_trans; [exact HW|]. unfold hexN. rewrite (T2 0%nat), (T2 1%nat) by lia. unfold vecOf, hexDims. cbn [nth]. lia. }
  assert (LT : (snd a 14%nat < wK w 14%nat)%R).
  { rewrite W14, hex_length2 by exact POS. eapply Rle_lt_trans; [exact K3|]. apply Rmult_lt_compat_l; [exact A0|]. apply IZR_lt.
    eapply Z.lt_le_trans; [|exact HN]. vm_compute. reflexivity. }
  exists hexCell, w, (with_images hexGpu0 a), st', (wK w), (snd a).
  split; [exact EW|]. split; [exact EG|]. split. { intros i Hi. cbn [nParam] in Hi. replace i with 0 by lia. exact POS. }
  split; [exact SP|]. split; [reflexivity|]. split; [reflexivity|]. split; [rewrite NK; lia|]. split; [exact LT|].
  cbn [with_images gMin].
  destruct (Z.eq_dec (vec_at (nK hexDims) (fst a) 14 0) (wMin w 14 0)) as [E0|E0]; [|exists 0; split; [lia|exact E0]].
  destruct (Z.eq_dec (vec_at (nK hexDims) (fst a) 14 1) (wMin w 14 1)) as [E1|E1]; [|exists 1; split; [lia|exact E1]].
  exfalso. rewrite K2, W14 in LT. rewrite (length2_ext 2 _ _ (wMin w 14)) in LT; [lra|].
  intros i Hi. destruct i as [|[|i]]; [exact E0|exact E1|lia].
Qed.
Print Assumptions C73_same_refuted.

(** ** The reduction for D = 2 relies on lockstep execution of a warp *)
Definition refCell0 : ucell :=
  mkUcell 2 (Some Square) 1 (fun _ => 0%R) false (fun _ _ => 0%R) (fun _ _ => 0%R) (fun _ _ _ => 0%R) (fun _ _ _ => 0%R)
    (fun _ _ _ => 0%R) (fun _ _ _ => 0%R).
Definition sqCell : ucell := match setParameters refCell0 [1%R] with Ok c => c | _ => refCell0 end.
Definition sqDims : list Z := [3; 3]%Z.
Lemma sqCell_ok : uK sqCell = kBasis Square (uP sqCell) /\ uD sqCell = 2 /\ cellOk sqCell = true /\ posParams Square (uP sqCell).
Proof.
  split; [reflexivity|]. split; [reflexivity|]. split; [reflexivity|].
  intros i Hi. cbn [nParam] in Hi. replace i with 0 by lia. change (uP sqCell 0) with 1%R. lra.
Qed.
Definition sqN (u : nat -> Z) : Z := (u 0%nat * u 0%nat + u 1%nat * u 1%nat)%Z.
Lemma sq_length2 : forall u, length2 2 (kBasis Square (uP sqCell)) u = ((2 * PI) ^ 2 * IZR (sqN u))%R.
Proof.
  intros u. destruct sqCell_ok as (_ & _ & _ & P). assert (X := lat_norm Square (uP sqCell) u eq_refl P).
  change (dim Square) with 2 in X. rewrite X. cbn [latGroups dim rsum latCoef latQ]. unfold sqZ, twoPi, sqN.
  change (uP sqCell 0) with 1%R. rewrite plus_IZR, !mult_IZR. field.
Qed.

(** Thread 0 takes all of its steps before the others. *)
Definition hasty : list nat := flat_map (fun t => repeat t 10) (seq 0 32).

Lemma unsynced_hasty : forall (A : Type) (red : A -> A -> A) (f : nat -> A),
  exists m, unsynced red 2 6 32 0 hasty (fun t => if t <? 32 then Some (f t) else None) = Ok m /\
    m 0 = Some (red (red (red (red (red (f 0) (f 16)) (f 8)) (f 4)) (f 2)) (f 1)).
Proof.
  intros A red f.
  assert (E : match unsynced red 2 6 32 0 hasty (fun t => if t <? 32 then Some (f t) else None) with
              | Ok m => m 0 | _ => None end = Some (red (red (red (red (red (f 0) (f 16)) (f 8)) (f 4)) (f 2)) (f 1)))
    by (vm_compute; reflexivity).
  destruct (unsynced red 2 6 32 0 hasty _) as [m| | |]; try discriminate. exists m. split; [reflexivity|exact E].
Qed.

Lemma swap_min_in : forall D u v, swap_min D u v = u \/ swap_min D u v = v.
Proof.
  intros D u v. unfold swap_min. destruct (Rlt_dec _ _); auto. destruct (Rlt_dec _ _); auto. destruct (lexlt _ _ _); auto.
Qed.

Definition sqLoad (t : nat) : option wave :=
  load_images 2 (nK sqDims) 32 0 (grid_points 2 sqDims (fun _ => 0%Z)) (vecOf sqDims) (flatK 2 (uK sqCell)) t.

(** Without that, the zero wave can get an image of nonzero length although its
    image of length zero is in shared memory. *)
Theorem C73_lockstep_refuted : exists s m u t0 u0,
  (forall t, t < 32 -> 10 <= count_occ Nat.eq_dec s t) /\
  unsynced (swap_min 2) 2 (nK sqDims) 32 0 s sqLoad = Ok m /\
  m 0 = Some u /\ (0 < snd u)%R /\
  t0 < 32 /\ sqLoad t0 = Some u0 /\ snd u0 = 0%R.
Proof.
  assert (NK : nK sqDims = 6) by (vm_compute; reflexivity).
  set (f := fun t => let u := image_at 2 6 (grid_points 2 sqDims (fun _ => 0%Z)) (vecOf sqDims) (paramID 2 32 0 t) (imageID 2 32 0 t) in
                     (u, gsq 2 (flatK 2 (uK sqCell)) u) : wave).
  assert (EL : sqLoad = fun t => if t <? 32 then Some (f t) else None).
  { apply functional_extensionality. intros t. unfold sqLoad, load_images. rewrite NK.
    destruct (Nat.ltb_spec t 32) as [Ht|Ht]; [|reflexivity]. cbn [andb].
    assert (P0 : paramID 2 32 0 t = 0). { unfold paramID. cbn [threadsPerGP]. rewrite Nat.div_small by lia. reflexivity. }
    rewrite (proj2 (Nat.ltb_lt (paramID 2 32 0 t) 6)) by lia. reflexivity. }
  assert (FN : forall t, snd (f t) = ((2 * PI) ^ 2 * IZR (sqN (fst (f t))))%R).
  { intros t. unfold f. cbn [fst snd]. destruct sqCell_ok as (EK & _). rewrite EK.
    rewrite gsq_length2 by (left; reflexivity). apply sq_length2. }
  assert (POS : forall t, (0 < sqN (fst (f t)))%Z -> (0 < snd (f t))%R).
  { intros t H. rewrite FN. apply Rmult_lt_0_compat; [|now apply IZR_lt]. apply pow_lt. assert (X := PI_RGT_0). lra. }
  destruct (unsynced_hasty wave (swap_min 2) f) as (m & E & E0).
  exists hasty, m. eexists. exists 12, (f 12).
  split. { intros t Ht. do 32 (destruct t as [|t]; [vm_compute; repeat constructor|]). lia. }
  split. { rewrite NK, EL. exact E. }
  split; [exact E0|].
  split.
  - assert (G : forall x y, (0 < snd x)%R -> (0 < snd y)%R -> (0 < snd (swap_min 2 x y))%R).
    { intros x y Hx Hy. destruct (swap_min_in 2 x y) as [-> | ->]; auto. }
    repeat apply G; apply POS; vm_compute; reflexivity.
  - split; [lia|]. split; [rewrite EL; reflexivity|]. rewrite FN.
    replace (sqN (fst (f 12))) with 0%Z by (vm_compute; reflexivity). ring.
Qed.
Print Assumptions C73_lockstep_refuted.

(** ** Large meshes *)
(** kSize_*threadsPerGP overflows. *)
Theorem C73_overflow_refuted : forall dev D n st,
  (2 ^ 31 <= Z.of_nat n * Z.of_nat (threadsPerGP D))%Z -> images_resources dev D n st = UB.
Proof.
  intros dev D n st H. unfold images_resources. rewrite Nat2Z.inj_mul.
  destruct (Z.ltb_spec (2 ^ 31 - 1) (Z.of_nat n * Z.of_nat (threadsPerGP D))); [reflexivity|lia].
Qed.
Print Assumptions C73_overflow_refuted.

(** A mesh with 512 x 512 x 126 points, whose 2^25 points are far from the limit *)
Example C73_overflow_case : forall dev st, images_resources dev 3 (nK [512; 512; 126]%Z) st = UB /\
  (gridSize [512; 512; 126] < 2 ^ 31)%Z.
Proof.
  intros dev st. split; [|vm_compute; reflexivity]. apply C73_overflow_refuted.
  unfold nK. rewrite Z2Nat.id by (vm_compute; discriminate). vm_compute. discriminate.
Qed.

(** ** Access to images on the host *)
(** The array on the host is never allocated; were it allocated, component 1 of an
    image would be component 0 of the image of another wave. *)
Theorem C73_host_images_refuted : forall w, gHasMin w = true ->
  minImages_h false 2 w = UB /\
  exists f, minImages_h true 2 w = Ok f /\
    forall n m, f m 0 = vec_at n (gMin w) m 0 /\ f m 1 = vec_at n (gMin w) (m + 2) 0.
Proof.
  intros w H. unfold minImages_h. rewrite H. cbn [check bind]. split; [reflexivity|].
  eexists. split; [reflexivity|]. intros n m. unfold vec_at. cbn [Nat.mul]. split; f_equal; lia.
Qed.
Print Assumptions C73_host_images_refuted.

(** ** Launches that are refused *)
(** A block size above the limit of the device is accepted by setThreadsPerBlock;
    the kernel then does not run, but its results are reported as available. *)
Definition gpu1024 : device := Device 32 2048 1024.
Definition sqGpu : gwave :=
  Gwave true true false false false false sqDims (fillTo (nK sqDims) (implicit_at sqDims) (fun _ => false))
    (fun _ => 0%Z) (fun _ => 0%R) (fun _ => 0%R).
Theorem C73_launch_refuted : forall sch, exists st g st',
  setThreadsPerBlock gpu1024 2048 tarr0 = Ok st /\
  g_images gpu1024 sch sqGpu sqCell st = Ok (g, st') /\ gHasMin g = true /\ gHasK g = true /\
  gK g = gK sqGpu /\ 4 < nK sqDims /\
  ~ least 2 (uK sqCell) (vecOf sqDims) (vecOf (gridPos (computeKMesh sqDims) 4)) (vec_at (nK sqDims) (gMin g) 4).
Proof.
  intros sch.
  set (a := (grid_points 2 sqDims (fun _ => 0%Z), fun _ : nat => 0%R)).
  exists (mark gpu1024 2048 tarr0), (with_images sqGpu a), (Tarr 2048 2048 1 192 32).
  split; [reflexivity|]. split; [reflexivity|]. split; [reflexivity|]. split; [reflexivity|]. split; [reflexivity|].
  split. { vm_compute. lia. }
  intros [_ H]. destruct (H (fun i => match i with 0%nat => -1 | _ => 0 end)%Z (fun i => match i with 0%nat => -1 | _ => 0 end)%Z) as [H1 _].
  { cbn. lia. }
  { intros i Hi. destruct i as [|[|i]]; [vm_compute; reflexivity|vm_compute; reflexivity|lia]. }
  destruct sqCell_ok as (EK & _). rewrite EK, !sq_length2 in H1.
  assert (P : (0 < (2 * PI) ^ 2)%R) by (apply pow_lt; assert (X := PI_RGT_0); lra).
  apply Rmult_le_reg_l in H1; [|exact P]. apply le_IZR in H1. vm_compute in H1. apply H1. reflexivity.
Qed.
Print Assumptions C73_launch_refuted.

(** ** Concrete cases *)
Definition in_turn (N : nat) : wsched :=
  Wsched (fun nB => seq 0 nB) (fun _ _ => seq 0 N ++ seq 0 N) (fun total n => concat (repeat (seq 0 total) n)).

Lemma count_seq : forall n t, t < n -> count_occ Nat.eq_dec (seq 0 n) t = 1.
Proof.
  intros n t H. assert (X := proj1 (NoDup_count_occ' Nat.eq_dec (seq 0 n)) (seq_NoDup n 0) t). apply X. apply in_seq. lia.
Qed.

Example C73_fair : fair_waves gpu1024 (in_turn (Z.to_nat 1024)).
Proof.
  split; [|split].
  - intros nB. apply Permutation_refl.
  - intros b k t Ht. cbn [gpu1024 maxPerBlock] in Ht. cbn [in_turn round_order]. rewrite count_occ_app, !count_seq by lia. lia.
  - intros total n t Ht. cbn [in_turn grid_order]. induction n as [|n IH]; [lia|].
    cbn [repeat concat]. rewrite count_occ_app, count_seq by auto. lia.
Qed.

Definition st256 : tarr := mark gpu1024 256 tarr0.
Example C73_ready : setThreadsPerBlock gpu1024 256 tarr0 = Ok st256 /\ ready gpu1024 st256.
Proof.
  split; [reflexivity|]. split; [reflexivity|]. split.
  - split; [exists 3; reflexivity|]. split; [reflexivity|left; reflexivity].
  - cbn. lia.
Qed.

(** A hexagonal cell whose parameter changes *)
Definition hexGpu4 : gwave :=
  Gwave true true false false false false [4; 4]%Z (fillTo (nK [4; 4]%Z) (implicit_at [4; 4]%Z) (fun _ => false))
    (fun _ => 0%Z) (fun _ => 0%R) (fun _ => 0%R).
Example C73_case :
  let dims := [4; 4]%Z in
  positive dims /\ length dims = dim Hexagonal2 /\ started Hexagonal2 dims exStart /\
  gstarted Hexagonal2 dims (fst exStart, hexGpu4) /\ ready gpu1024 st256 /\ fair_waves gpu1024 (in_turn (Z.to_nat 1024)) /\
  (Z.of_nat (nK dims * threadsPerGP (dim Hexagonal2)) < 2 ^ 31)%Z /\
  (exists s, wl_run exStart exOps = Ok s) /\
  (forall ps, In (WParams ps) exOps -> posParams Hexagonal2 (params ps) /\ searchOk Hexagonal2 (params ps) dims /\
     spaced Hexagonal2 (params ps) dims /\ near Hexagonal2 dims (params ps)).
Proof.
  intros dims.
  assert (P4 : positive dims) by (repeat constructor).
  split; [exact P4|]. split; [reflexivity|].
  split. { exists refJunk, (fun _ _ => 0%Z), (fun _ => 0%R), (fun _ _ => 0%R). split; reflexivity. }
  split. { exists refJunk, (fun _ => 0%Z), (fun _ => 0%R), (fun _ => 0%R), (fun _ => false). split; reflexivity. }
  split; [apply C73_ready|]. split; [apply C73_fair|]. split; [vm_compute; reflexivity|].
  destruct C68_hexagonal as (c & w & K & dK & _ & _ & HQ & HR & _).
  split; [exists (c, w); exact HR|].
  intros ps H. destruct (HQ ps H) as [Q1 Q2]. split; [exact Q1|]. split; [exact Q2|].
  assert (E : ps = [1%R] \/ ps = [2%R]).
  { unfold exOps in H. cbn [In] in H. destruct H as [H|[H|[H|[H|[H|[]]]]]]; try discriminate; inversion H; auto. }
  assert (P0 := Q1 0 ltac:(cbn; lia)).
  split.
  - apply (spaced_int Hexagonal2 (params ps) dims ((2 * PI / params ps 0) ^ 2 * (4 / 3)) hexN); [|intros u; now apply hex_length2].
    assert (Y : (1 < 2 * PI / 2)%R) by (assert (X := PI2_3_2); lra). unfold epsilon.
    destruct E as [-> | ->]; unfold params; cbn [nth].
    + replace (2 * PI / 1)%R with (2 * (2 * PI / 2))%R by field. nra.
    + nra.
  - apply C73_near; auto. right. split; [now left|]. vm_compute. reflexivity.
Qed.
