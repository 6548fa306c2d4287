(** The basis functions are exactly real, or conjugate for two open stars. *)
From Coq Require Import ZArith QArith Qcanon Qreals Reals Lra Lia List Bool Sorting.Permutation.
From Coquelicot Require Import Complex.
From Verif Require Import Base RSum MeshSpec Mesh MeshProofs PropsMesh Fft FftProofs FieldIo FieldIoProofs Symmetry SymmetryProofs SymmetryAlg PropsSymmetry Basis BasisSpec BasisProofs BasisValid PropsBasis MakeBasis MakeBasisProofs OrbitSpec OrbitPhase OrbitStars OrbitCoeff OrbitExact OrbitFacts.
From Coq Require Import List.
Import ListNotations.
Local Open Scope Z_scope.
Local Open Scope list_scope.

Lemma layout_partner : forall b is0 iw ib l, layout (size (bMesh b)) (bNBasis b) is0 iw ib l -> forall done, bStars b = done ++ l -> Z.of_nat (length done) = is0 ->
  forall is s s', is0 <= is -> sAt b is s -> sAt b (is + sFlag s) s' ->
  sSize s' = sSize s /\ sCancel s' = sCancel s /\ forall x, component x s' = Cconj (component x s).
Proof.
  intros b is0 iw ib l H. induction H as [is|is iw ib s r F St B E EW SZ BI L IH|is iw ib s1 s2 r F1 F2 St1 St2 C B1 E1 B2 SZ1 SZ2 SZ3 E2 BI1 BI2 L IH]; intros done HB HDn j s0 s' Hj Hs0 Hs'.
  - destruct Hs0 as [_ Hs0]. rewrite HB, app_nil_r in Hs0. assert (Z.to_nat j < length done)%nat by (apply nth_error_Some; congruence). lia.
  - pose proof (layout_at b done _ HB s r eq_refl) as Hs. rewrite HDn in Hs.
    assert (HB' : bStars b = (done ++ [s]) ++ r) by (rewrite <- app_assoc; exact HB).
    assert (HD' : Z.of_nat (length (done ++ [s])) = is + 1) by (rewrite app_length; cbn [length]; lia).
    destruct (Z.eq_dec j is) as [->|N]; [|apply (IH _ HB' HD' j); auto; lia].
    rewrite (sAt_fun _ _ _ _ Hs0 Hs) in *. rewrite F, Z.add_0_r in Hs'. rewrite (sAt_fun _ _ _ _ Hs' Hs). split; auto. split; auto. intros x. unfold component. rewrite F. cbn [Z.eqb].
    destruct (sCancel s); unfold Cconj, RtoC; cbn [fst snd]; f_equal; ring.
  - pose proof (layout_at b done _ HB s1 _ eq_refl) as Hs1. rewrite HDn in Hs1.
    assert (HB1 : bStars b = (done ++ [s1]) ++ s2 :: r) by (rewrite <- app_assoc; exact HB).
    assert (HD1 : Z.of_nat (length (done ++ [s1])) = is + 1) by (rewrite app_length; cbn [length]; lia).
    pose proof (layout_at b _ _ HB1 s2 _ eq_refl) as Hs2. rewrite HD1 in Hs2.
    assert (HB' : bStars b = (done ++ [s1; s2]) ++ r) by (rewrite <- app_assoc; exact HB).
    assert (HD' : Z.of_nat (length (done ++ [s1; s2])) = is + 2) by (rewrite app_length; cbn [length]; lia).
    assert (S2 : (sqrt 2 <> 0)%R) by (pose proof Rlt_sqrt2_0; lra).
    assert (CC : forall x, component x s2 = Cconj (component x s1)).
    { intros x. unfold component. rewrite C, F1, F2. cbn [Z.eqb Pos.eqb]. destruct (sCancel s1) eqn:EC; [unfold Cconj, RtoC; cbn [fst snd]; f_equal; ring|].
      rewrite BI1, BI2. replace (ib + 1 - 1) with ib by lia. set (u := nth (Z.to_nat ib) x 0%R). set (v := nth (Z.to_nat (ib + 1)) x 0%R).
      unfold Cdiv, Cmult, Cinv, RtoC, Cconj. cbn [fst snd]. f_equal; field; repeat split; auto; intros X0; nra. }
    destruct (Z.eq_dec j is) as [->|N].
    + rewrite (sAt_fun _ _ _ _ Hs0 Hs1) in *. rewrite F1 in Hs'. rewrite (sAt_fun _ _ _ _ Hs' Hs2). split; auto.
    + destruct (Z.eq_dec j (is + 1)) as [->|N'].
      * rewrite (sAt_fun _ _ _ _ Hs0 Hs2) in *. rewrite F2 in Hs'. replace (is + 1 + -1) with is in Hs' by lia. rewrite (sAt_fun _ _ _ _ Hs' Hs1). split; auto. split; auto.
        intros x. rewrite CC. symmetry. apply Cconj_conj.
      * apply (IH _ HB' HD' j); auto. lia.
Qed.
Lemma partner : forall b is s s', goodBasis b -> sAt b is s -> sAt b (is + sFlag s) s' ->
  sSize s' = sSize s /\ sCancel s' = sCancel s /\ forall x, component x s' = Cconj (component x s).
Proof. intros b is s s' G Hs Hs'. apply (layout_partner b 0 0 0 (bStars b) (gb_layout b G) [] eq_refl eq_refl is); auto. apply Hs. Qed.

Lemma turn_near : forall N q x x', 0 < N <= 500 -> half N x -> half N x' -> (1 / 46341 <= q)%R ->
  (Cmod (Cminus (Cconj (Cmult (turn x') (RtoC q))) (Cmult (turn x) (RtoC q))) <= 1 / 10^8)%R -> Cconj (turn x') = turn x.
Proof.
  intros N q x x' HN Hx Hx' Hq HM. assert (E : Cconj (turn x') = turn (- x')).
  { unfold turn, Cconj. cbn [fst snd]. replace (2 * PI * - x')%R with (- (2 * PI * x'))%R by ring. rewrite cos_neg, sin_neg. reflexivity. }
  rewrite Cconj_mult, E in HM. replace (Cconj (RtoC q)) with (RtoC q) in HM by (unfold Cconj, RtoC; cbn; f_equal; ring). rewrite E.
  destruct (half_plus N HN _ _ (half_opp N HN _ Hx') (half_opp N HN _ Hx)) as [k K].
  assert (T : turn (- x') = Cmult (turn (- x' + - x)) (turn x)) by (rewrite <- turn_plus; f_equal; ring).
  destruct (turn_gap k N ltac:(lia)) as [_ G]. rewrite <- K in G. pose proof (turn_unit (- x' + - x)) as U. rewrite T in *. set (u := turn (- x' + - x)) in *.
  assert (MM : (Cmod (Cminus u (RtoC 1)) * q <= 1 / 10^8)%R).
  { replace (Cminus (Cmult (Cmult u (turn x)) (RtoC q)) (Cmult (turn x) (RtoC q))) with (Cmult (Cmult (Cminus u (RtoC 1)) (turn x)) (RtoC q)) in HM by ring.
    rewrite !Cmod_mult, Cmod_R, (Rabs_pos_eq q) in HM by lra.
    assert (C1 : Cmod (turn x) = 1%R). { pose proof (Cmod_sq (turn x)) as S. rewrite turn_unit in S. pose proof (Cmod_ge_0 (turn x)). nra. }
    rewrite C1 in HM. lra. }
  assert (CM : (Cmod (Cminus u (RtoC 1)) <= 46341 / 10^8)%R).
  { pose proof (Cmod_ge_0 (Cminus u (RtoC 1))) as P0. assert (Q : (Cmod (Cminus u (RtoC 1)) * (1 / 46341) <= Cmod (Cminus u (RtoC 1)) * q)%R) by (apply Rmult_le_compat_l; auto). lra. }
  pose proof (Cmod_sq (Cminus u (RtoC 1))) as S. pose proof (Cmod_ge_0 (Cminus u (RtoC 1))) as P. destruct u as [c s]. cbn [fst snd] in *. unfold Cminus, Cplus, Copp, RtoC in *. cbn [fst snd] in *.
  clear HM. set (r := Cmod (c + - (1), s + - 0)%R) in *. assert (RR : (r * r <= 46341 / 10^8 * (46341 / 10^8))%R) by (apply Rmult_le_compat; lra).
  assert (SS : s = 0%R).
  { destruct G as [G|G]; auto. exfalso. pose proof (inv_N N HN) as I. assert (A : (1 / 1500 <= Rabs s)%R) by lra. rewrite <- (Rabs_pos_eq (s * s)) in * by nra.
    assert ((Rabs s * Rabs s = s * s)%R) by (rewrite <- Rabs_mult; apply Rabs_pos_eq; nra). assert ((1 / 1500 * (1 / 1500) <= s * s)%R) by nra.
    rewrite (Rabs_pos_eq (s * s)) in * by nra. assert ((s * s <= r * r)%R) by nra. lra. }
  subst s. assert (CE : c = 1%R). { assert (F : ((c - 1) * (c + 1) = 0)%R) by lra. apply Rmult_integral in F. destruct F as [F|F]; [lra|]. exfalso. assert (c = -1)%R by lra. subst c. lra. }
  subst c. replace (1, 0)%R with (RtoC 1) by reflexivity. ring.
Qed.

Section Conj.
Variables (ksqOf : list Z -> R) (smin : list Z -> list Z) (sortNorm : list twave -> list twave) (m : mesh) (group : list symm) (fuel : nat) (junk : Z) (b : basis) (N : Z).
Let dims := dimensions m.
Let D := length dims.
Hypothesis Hne : dims <> [].
Hypothesis Hm : setDimensions dims = Ok m.
Hypothesis Hsz : size m < 2^31.
Hypothesis HD : (1 <= D <= 3)%nat.
Hypothesis HG : space_group D group.
Hypothesis Hsort : forall l, Permutation (sortNorm l) l.
Hypothesis HI : images b smin.
Hypothesis HF : fractions D group N.
Hypothesis HN5 : 0 < N <= 500.
Hypothesis H : makeBasis ksqOf smin sortNorm m group fuel junk = Ok b.
Lemma exact_conjugate : conjugate b.
Proof.
  intros i w w' Hw Hw'.
  assert (HG0 : group <> []) by (destruct HG as [X _]; intros E; rewrite E in X; destruct X).
  destruct (makeBasis_good _ _ _ _ _ _ _ _ Hne Hm Hsz HG0 Hsort H) as [GB [BM [NC _]]].
  destruct (gb_wave _ GB _ _ Hw) as [s [Hs _]]. destruct (gb_wave _ GB _ _ Hw') as [s' [Hs' _]].
  pose proof (gb_partner _ GB _ _ _ _ _ Hs Hw eq_refl Hw') as ST. pose proof Hs' as Hs''. rewrite ST in Hs''. destruct (partner _ _ _ _ GB Hs Hs'') as [P1 [P2 _]].
  destruct (sCancel s) eqn:EC.
  - rewrite (cancelled_zero ksqOf smin sortNorm m group fuel junk b N Hne Hm Hsz HD HG Hsort HI HF HN5 H i w s), (cancelled_zero ksqOf smin sortNorm m group fuel junk b N Hne Hm Hsz HD HG Hsort HI HF HN5 H (wInv w) w' s'); auto.
    unfold Cconj, RtoC. cbn [fst snd]. f_equal. ring.
  - destruct (coeff_half ksqOf smin sortNorm m group fuel junk b N Hne Hm Hsz HD HG Hsort HI HF HN5 H i w s Hw Hs EC) as [x [X1 X2]].
    destruct (coeff_half ksqOf smin sortNorm m group fuel junk b N Hne Hm Hsz HD HG Hsort HI HF HN5 H _ w' s' Hw' Hs' P2) as [x' [Y1 Y2]].
    pose proof (NC _ _ _ _ _ Hs EC Hw eq_refl Hw') as NE. assert (SN : snorm s' = snorm s) by (unfold snorm; rewrite P1; reflexivity). rewrite X2, Y2, SN in *.
    destruct (star_source _ _ _ _ _ _ _ _ Hne Hm Hsz HG0 Hsort HI H _ s Hs) as (_ & _ & _ & _ & _ & _ & _ & _ & R6).
    pose proof (turn_near N _ _ _ HN5 X1 Y1 (snorm_bounds s R6) NE) as T. rewrite Cconj_mult, <- T, Cconj_conj. f_equal. unfold Cconj, RtoC. cbn [fst snd]. f_equal. ring.
Qed.
End Conj.
