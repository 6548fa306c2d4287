(** Convergence of the stress of the thread model. *)
From Coq Require Import Reals ZArith List Bool Arith Lia Lra.
From Coquelicot Require Import Coquelicot.
From Coq Require Import List.
From Verif Require Import Base RSum UnitCellProofs MeshSpec MeshProofs Polymer PolymerSpec PolymerProofs PropsPolymer Solve SolveProofs
  Species Mesh Fft FftProofs PropsFft FftCompose R1d R1dProofs Rpc RpcProofs PropsRpc Stress BeadDerivative
  Expand ExpandProofs Convergence LinearResponse ThreadConvergence Simpson ConvergenceSpec PropsConvergence ThreadResponse.
Import ListNotations.
Local Open Scope R_scope.

(** The weights of computeStressThread are those of Simpson's rule. *)
Lemma simpson_dels : forall t h y, (1 <= t)%nat ->
  rsum (2 * t + 1) (fun j => y j * (if (negb (j =? 0) && negb (j =? 2 * t))%nat then (if Nat.even j then h / 3 * 2 else h / 3 * 4) else h / 3))
  = simpson t h y.
Proof.
  intros t h y Ht. rewrite <- (simpson_code t h y Ht). replace (2 * t + 1)%nat with (S (2 * t)) by lia. cbn [rsum].
  rewrite Nat.eqb_refl, andb_false_r.
  rewrite (rsum_ext (2 * t) _ (fun j => (h / 3) * (if Nat.odd j then y j * 4 else 0)
     + ((h / 3) * (if Nat.even j && (2 <=? j)%nat then y j * 2 else 0) + (if (j =? 0)%nat then y 0%nat * (h / 3) else 0)))).
  2:{ intros j Hj. destruct (Nat.eqb_spec j (2 * t)); [lia|]. unfold Nat.odd.
      destruct (Nat.eqb_spec j 0) as [->|N]; cbn [negb andb].
      - cbn. ring.
      - destruct (Nat.even j) eqn:E; cbn [negb andb]; [|ring].
        destruct (Nat.leb_spec 2 j); [ring|]. assert (j = 1)%nat by lia. subst j. discriminate. }
  rewrite !rsum_plus, !rsum_scal. rewrite (rsum_single (2 * t) 0 (fun j => if (j =? 0)%nat then _ else _)).
  2: lia. 2:{ intros j _ N. destruct (Nat.eqb_spec j 0); [congruence|reflexivity]. }
  rewrite Nat.eqb_refl.
  assert (E : rsum (2 * t) (fun j => if Nat.even j && (2 <=? j)%nat then y j * 2 else 0)
    = rsum (2 * t - 1) (fun j => if Nat.even j && (2 <=? j)%nat then y j * 2 else 0)).
  { replace (2 * t)%nat with (S (2 * t - 1)) at 1 by lia. cbn [rsum].
    assert (O : Nat.even (2 * t - 1) = false).
    { replace (2 * t - 1)%nat with (S (2 * (t - 1)))%nat by lia. rewrite Nat.even_succ, <- Nat.negb_even, Nat.even_mul. reflexivity. }
    rewrite O. cbn [andb]. ring. }
  rewrite E. ring.
Qed.

Section E.
Variables (dims : list Z) (K : list Z -> R) (kSq : nat -> R).
Hypothesis Hne : dims <> [].
Hypothesis HP : positive dims.
Hypothesis HE : evenWaves dims K kSq.
Notation n := (nR dims).
Variables (bs : list pblock) (w : nat -> field) (es : list (nat * nat)) (fuel : nat) (p : polymer).
Hypothesis HT : tree es.
Hypothesis HLen : length bs = length es.
Hypothesis HB : Forall (fun b => 0 < pb_length b) bs.
Hypothesis Hf : (2 * length es <= fuel)%nat.
Hypothesis HG : readGraph fuel es = Ok p.
Notation len := (fun b => pb_length (pblockAt bs b)).
Notation kuhn := (fun b => pb_kuhn (pblockAt bs b)).
Variable U : nat * bool -> R -> field.
Hypothesis HU : reference dims K bs w es U.
Variable D : R.
Hypothesis HD : 0 < D.

(** Correlation of the two propagators of a block at two points. *)
Definition refII (b i j : nat) : R := RInt (fun s => U (b, false) s j * U (b, true) (len b - s) i) 0 (len b).

Lemma pair_error : forall b, (b < length es)%nat -> forall i j, (i < n)%nat -> (j < n)%nat -> exists C, 0 <= C /\
  forall ds st l0 l1, 0 < ds <= D -> solvedAll dims kSq bs w es p ds st -> st (b, false) = Some l0 -> st (b, true) = Some l1 ->
  forall t, pNs Thread ds bs b = (2 * t + 1)%nat ->
    Rabs (simpson t (pDs Thread ds bs b) (fun k => qAt l0 k j * qAt l1 (2 * t - k) i) - refII b i j) <= C * ds ^ 4.
Proof.
  intros b Hb i j Hi Hj. destruct HE as [HK HkSq].
  destruct (tree_error dims K kSq Hne HP HK HkSq bs w es fuel p HT HLen HB Hf HG U HU D HD) as [C [PC TE]].
  assert (HU1 := proj1 HU).
  assert (PL : 0 < len b) by (apply (len_pos bs es fuel HLen HB Hf (b, false)); exact Hb).
  destruct (solves_bounded n _ (U (b, false)) (len b) (proj1 (mde_solves dims K kSq Hne HP HK HkSq _ _ _) (HU1 (b, false) Hb))) as [M0 [PM0 HM0]].
  destruct (solves_bounded n _ (U (b, true)) (len b) (proj1 (mde_solves dims K kSq Hne HP HK HkSq _ _ _) (HU1 (b, true) Hb))) as [M1 [PM1 HM1]].
  destruct (simpson_error (len b) (fun s => U (b, false) s j * U (b, true) (len b - s) i) ltac:(lra)) as [Cs [PCs SE]].
  { assert (SM := solves_smooth dims K kSq Hne HP HK HkSq bs w es U HU).
    apply smooth_mult. { apply (SM (b, false)); auto; lra. }
    apply (smooth_rev (len b) (fun s => U (b, true) s i)). apply (SM (b, true)); auto; lra. }
  set (E := C * D ^ 4). assert (PE : 0 <= E) by (apply Rmult_le_pos; auto; apply pow_le; lra).
  exists (len b * (C * (M1 + E) + M0 * C) + 6 * Cs).
  assert (P1 : 0 <= len b * (C * (M1 + E) + M0 * C)).
  { apply Rmult_le_pos; [lra|]. apply Rplus_le_le_0_compat; apply Rmult_le_pos; auto; lra. }
  split; [lra|]. intros ds st l0 l1 Hds HS E0 E1 t Et.
  assert (P4 : 0 <= ds ^ 4) by (apply pow_le; lra).
  destruct (rpcNs_cases (len b) ds PL ltac:(lra)) as [m [A1 [A2 [A3 A4]]]]. cbv beta in *.
  assert (LE := rpcDs_le (len b) ds PL ltac:(lra)). cbv beta in LE.
  destruct (TE ds st Hds HS (b, false) Hb) as [l0' [F0 T0]]. rewrite E0 in F0. inversion F0; subst l0'; clear F0.
  destruct (TE ds st Hds HS (b, true) Hb) as [l1' [F1 T1]]. rewrite E1 in F1. inversion F1; subst l1'; clear F1.
  unfold pNs, pDs in *. cbn [fst] in *. rewrite Et in *.
  set (h := rpcDs (pb_length (pblockAt bs b)) ds) in *. rewrite A2 in *.
  assert (HL : INR (2 * t) * h = pb_length (pblockAt bs b)).
  { rewrite <- A3. f_equal. rewrite INR_IZR_INZ. f_equal. lia. }
  set (y := fun k => qAt l0 k j * qAt l1 (2 * t - k) i).
  set (z := fun k => U (b, false) (INR k * h) j * U (b, true) (pb_length (pblockAt bs b) - INR k * h) i).
  replace (simpson t h y - refII b i j) with ((simpson t h y - simpson t h z) + (simpson t h z - refII b i j)) by ring.
  eapply Rle_trans; [apply Rabs_triang|]. rewrite Rmult_plus_distr_r. apply Rplus_le_compat.
  - rewrite Rmult_assoc. rewrite <- HL at 1. apply simpson_diff; [lra|]. intros k Hk. unfold y, z.
    assert (B0 := T0 k ltac:(lia) j Hj). assert (B1 := T1 (2 * t - k)%nat ltac:(lia) i Hi). cbv beta in B0, B1.
    assert (EJ : pb_length (pblockAt bs b) - INR k * h = INR (2 * t - k) * h).
    { rewrite minus_INR by lia. rewrite <- HL. ring. }
    rewrite EJ.
    assert (Bj : 0 <= INR k * h <= pb_length (pblockAt bs b)).
    { rewrite <- HL. split. { apply Rmult_le_pos; [apply pos_INR|lra]. } apply Rmult_le_compat_r; [lra|]. now apply le_INR. }
    assert (U0 := HM0 _ Bj j Hj).
    assert (U1 := HM1 (INR (2 * t - k) * h) ltac:(rewrite <- EJ; lra) i Hi).
    set (q0 := qAt l0 k j) in *. set (q1 := qAt l1 (2 * t - k) i) in *.
    set (u0 := U (b, false) (INR k * h) j) in *. set (u1 := U (b, true) (INR (2 * t - k) * h) i) in *.
    assert (X4 : C * ds ^ 4 <= E) by (unfold E; apply Rmult_le_compat_l; auto; apply pow_incr; lra).
    assert (Q1 : Rabs q1 <= M1 + E).
    { replace q1 with (u1 + (q1 - u1)) by ring. eapply Rle_trans; [apply Rabs_triang|]. lra. }
    replace (q0 * q1 - u0 * u1) with ((q0 - u0) * q1 + u0 * (q1 - u1)) by ring.
    eapply Rle_trans; [apply Rabs_triang|]. rewrite !Rabs_mult.
    replace ((C * (M1 + E) + M0 * C) * ds ^ 4) with ((C * ds ^ 4) * (M1 + E) + M0 * (C * ds ^ 4)) by ring.
    apply Rplus_le_compat; apply Rmult_le_compat; auto; apply Rabs_pos.
  - eapply Rle_trans; [apply (SE t h); lra|].
    assert (X : h ^ 4 <= 6 * ds ^ 4).
    { apply Rle_trans with ((3 / 2 * ds) ^ 4). { apply pow_incr. lra. } rewrite Rpow_mult_distr.
      apply Rmult_le_compat_r; auto. lra. }
    replace (6 * Cs * ds ^ 4) with (Cs * (6 * ds ^ 4)) by ring. now apply Rmult_le_compat_l.
Qed.

Lemma odd_steps : forall ds b, 0 < ds -> (b < length es)%nat -> exists t, (1 <= t)%nat /\ pNs Thread ds bs b = (2 * t + 1)%nat.
Proof.
  intros ds b Hds Hb.
  assert (PL : 0 < len b) by (apply (len_pos bs es fuel HLen HB Hf (b, false)); exact Hb).
  destruct (rpcNs_cases (len b) ds PL Hds) as [m [A1 [A2 [A3 A4]]]]. cbv beta in A2. exists (Z.to_nat m).
  unfold pNs. rewrite A2. lia.
Qed.

(** One block, with the wave derivatives dK. *)
Variables (dK : list Z -> R) (dk : nat -> R).
Hypothesis HdK : evenWaves dims dK dk.
Definition refStress (b : nat) : R :=
  kuhn b * kuhn b / 6 * (1 / INR n * rsum n (fun i => rsum n (fun j => kernel dims dK i j * refII b i j))).
Lemma stress_simpson : forall kb h t l0 l1 pre, (1 <= t)%nat ->
  blockStressThread dims (fun m => c2rWeight dims m * dk m) kb h (2 * t + 1) l0 l1 pre
  = pre * (kb * kb / 6 * (1 / INR n * rsum n (fun i => rsum n (fun j => kernel dims dK i j * simpson t h (fun k => qAt l0 k j * qAt l1 (2 * t - k) i))))).
Proof.
  intros kb h t l0 l1 pre Ht. unfold blockStressThread. replace (2 * t + 1 - 1)%nat with (2 * t)%nat by lia.
  set (dels := fun j : nat => if (negb (j =? 0) && negb (j =? 2 * t))%nat then (if Nat.even j then h / 3 * 2 else h / 3 * 4) else h / 3).
  rewrite (rsum_ext (2 * t + 1) _ (fun k => rsum n (fun i => rsum n (fun j =>
     kb * kb / 6 * (1 / INR n) * kernel dims dK i j * (qAt l0 k j * qAt l1 (2 * t - k) i * dels k))))).
  2:{ intros k _. fold (dels k). rewrite <- (kernel_waveSum dims Hne HP dK dk) by auto.
      rewrite <- rsum_scal, <- rsum_scal_r. apply rsum_ext. intros i _. rewrite <- rsum_scal, <- rsum_scal_r. apply rsum_ext. intros j _. ring. }
  rewrite rsum_swap.
  rewrite (rsum_ext n _ (fun i => rsum n (fun j => kb * kb / 6 * (1 / INR n) * kernel dims dK i j * simpson t h (fun k => qAt l0 k j * qAt l1 (2 * t - k) i)))).
  2:{ intros i _. rewrite rsum_swap. apply rsum_ext. intros j _. rewrite rsum_scal. f_equal.
      apply (simpson_dels t h (fun k => qAt l0 k j * qAt l1 (2 * t - k) i) Ht). }
  replace (-1 * pre * (0 - _)) with (pre * rsum n (fun i => rsum n (fun j => kb * kb / 6 * (1 / INR n) * kernel dims dK i j * simpson t h (fun k => qAt l0 k j * qAt l1 (2 * t - k) i))))
    by (set (X := rsum n _); ring).
  f_equal. rewrite <- !rsum_scal. apply rsum_ext. intros i _. rewrite <- !rsum_scal. apply rsum_ext. intros j _. ring.
Qed.

Lemma block_stress_error : forall b, (b < length es)%nat -> exists C, 0 <= C /\
  forall ds st l0 l1 pre, 0 < ds <= D -> solvedAll dims kSq bs w es p ds st -> st (b, false) = Some l0 -> st (b, true) = Some l1 ->
    Rabs (blockStressThread dims (fun m => c2rWeight dims m * dk m) (kuhn b) (pDs Thread ds bs b) (pNs Thread ds bs b) l0 l1 pre
          - pre * refStress b) <= Rabs pre * (C * ds ^ 4).
Proof.
  intros b Hb.
  destruct (fin_const n (fun i C => forall j, (j < n)%nat -> forall ds st l0 l1, 0 < ds <= D -> solvedAll dims kSq bs w es p ds st -> st (b, false) = Some l0 -> st (b, true) = Some l1 ->
    forall t, pNs Thread ds bs b = (2 * t + 1)%nat ->
    Rabs (simpson t (pDs Thread ds bs b) (fun k => qAt l0 k j * qAt l1 (2 * t - k) i) - refII b i j) <= C * ds ^ 4)) as [C [PC HC]].
  { intros i C C' LE H j Hj ds st l0 l1 Hds HS E0 E1 t Et. eapply Rle_trans; [eapply H; eauto|]. apply Rmult_le_compat_r; auto. apply pow_le; lra. }
  { intros i Hi. apply fin_const.
    - intros j C C' LE H ds st l0 l1 Hds HS E0 E1 t Et. eapply Rle_trans; [eapply H; eauto|]. apply Rmult_le_compat_r; auto. apply pow_le; lra.
    - intros j Hj. now apply pair_error. }
  set (N := rsum n (fun i => rsum n (fun j => Rabs (kernel dims dK i j)))).
  assert (PN : 0 <= N).
  { unfold N. assert (Q := rsum_mono n (fun _ => 0) (fun i => rsum n (fun j => Rabs (kernel dims dK i j)))). rewrite rsum_zero in Q. apply Q.
    intros i _. assert (Q2 := rsum_mono n (fun _ => 0) (fun j => Rabs (kernel dims dK i j))). rewrite rsum_zero in Q2. apply Q2. intros; apply Rabs_pos. }
  set (f := kuhn b * kuhn b / 6 * (1 / INR n)).
  exists (Rabs f * (N * C)). split. { apply Rmult_le_pos; [apply Rabs_pos|now apply Rmult_le_pos]. }
  intros ds st l0 l1 pre Hds HS E0 E1. destruct (odd_steps ds b ltac:(lra) Hb) as [t [Ht Et]].
  assert (HC' := fun i Hi j Hj => HC i Hi j Hj ds st l0 l1 Hds HS E0 E1 t Et). rewrite Et. rewrite stress_simpson by auto.
  unfold refStress. rewrite <- !Rmult_minus_distr_l. rewrite Rabs_mult. apply Rmult_le_compat_l; [apply Rabs_pos|].
  rewrite <- Rmult_assoc. fold f. rewrite Rabs_mult. rewrite (Rmult_assoc (Rabs f)). apply Rmult_le_compat_l; [apply Rabs_pos|].
  rewrite <- rsum_minus. eapply Rle_trans; [apply rsum_abs|].
  replace (N * C * ds ^ 4) with (N * (C * ds ^ 4)) by ring. unfold N. rewrite <- rsum_scal_r. apply rsum_mono. intros i Hi.
  rewrite <- rsum_minus. eapply Rle_trans; [apply rsum_abs|]. rewrite <- rsum_scal_r. apply rsum_mono. intros j Hj.
  rewrite <- Rmult_minus_distr_l, Rabs_mult. apply Rmult_le_compat_l; [apply Rabs_pos|]. now apply HC'.
Qed.
End E.
