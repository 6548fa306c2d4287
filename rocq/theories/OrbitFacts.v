(** Stars are orbits, and the coefficients of their waves follow the group. *)
From Coq Require Import ZArith QArith Qcanon Qreals Reals Lra Lia List Bool Sorting.Permutation.
From Coquelicot Require Import Complex.
From Verif Require Import Base RSum MeshSpec Mesh MeshProofs PropsMesh Fft FftProofs FieldIo FieldIoProofs Symmetry SymmetryProofs SymmetryAlg PropsSymmetry Basis BasisSpec BasisProofs BasisValid MakeBasis MakeBasisProofs OrbitSpec OrbitPhase OrbitStars OrbitCoeff OrbitExact.
From Coq Require Import List.
Import ListNotations.
Local Open Scope Z_scope.
Local Open Scope list_scope.

Lemma nodup_waves : forall b i j w w', goodBasis b -> wAt b i w -> wAt b j w' -> wDft w = wDft w' -> i = j /\ w = w'.
Proof.
  intros b i j w w' G [I1 I2] [J1 J2] E. assert (X : Z.to_nat i = Z.to_nat j).
  { apply (proj1 (NoDup_nth_error (map wDft (bWaves b))) (gb_nodup b G)).
    - rewrite map_length. apply nth_error_Some. congruence.
    - rewrite !nth_error_map, I2, J2. cbn [option_map]. congruence. }
  split; [lia|]. congruence.
Qed.

Section Facts.
Variables (ksqOf : list Z -> R) (smin : list Z -> list Z) (sortNorm : list twave -> list twave) (m : mesh) (group : list symm) (fuel : nat) (junk : Z) (b : basis) (N : Z).
Let dims := dimensions m.
Let D := length dims.
Hypothesis Hne : dims <> [].
Hypothesis Hm : setDimensions dims = Ok m.
Hypothesis Hsz : size m < 2^31.
Hypothesis HD : (1 <= D <= 3)%nat.
Hypothesis HG : space_group D group.
Hypothesis HN : Forall (normal D) group.
Hypothesis Hsort : forall l, Permutation (sortNorm l) l.
Hypothesis HI : images b smin.
Hypothesis HF : fractions D group N.
Hypothesis HN5 : 0 < N <= 500.
Hypothesis HA0 : forall s, In s group -> (Zpos (Qden (tr s 0%nat)) | nth 0 dims 0).
Hypothesis H : makeBasis ksqOf smin sortNorm m group fuel junk = Ok b.

Lemma of_mesh : admits dims group.
Proof.
  pose proof H as H'. unfold makeBasis in H'. inv_bind H'. destruct a. apply checkMesh_facts in E. destruct E as [E1 E2]. intros s Hs. split.
  - intros i Hi. destruct i as [|i]; [apply HA0; auto|]. apply (E1 s (S i)); auto. unfold dim. fold dims. lia.
  - intros i j Hi Hj. apply (E2 s i j); auto.
Qed.
Lemma of_ne : group <> []. Proof. destruct HG as [X _]. intros E. rewrite E in X. destruct X. Qed.
Lemma of_pos : positive dims. Proof. apply (proj1 (mesh_constructible _ Hne)); eauto. Qed.
Lemma of_good : goodBasis b /\ bMesh b = m.
Proof. destruct (makeBasis_good _ _ _ _ _ _ _ _ Hne Hm Hsz of_ne Hsort H) as [A [B _]]. auto. Qed.

Record starFacts (is : Z) (s : star) (root : list Z) (y : R) : Prop := {
  sf_len : length root = D;
  sf_src : forall i w, wAt b i w -> wStar w = is -> exists g, In g group /\ cong dims (rot dims root g) (wDft w) /\
     (sCancel s = false -> wCoeff w = Cmult (turn (shiftPhase dims g root + y)) (RtoC (snorm s))) /\ (sCancel s = true -> wCoeff w = RtoC 0);
  sf_half : sCancel s = false -> half N y;
  sf_all : forall g, In g group -> exists i w, wAt b i w /\ wStar w = is /\ cong dims (rot dims root g) (wDft w);
  sf_bad : sCancel s = true -> exists g g', In g group /\ In g' group /\ cong dims (rot dims root g) (rot dims root g') /\ ~ modZ (shiftPhase dims g root) (shiftPhase dims g' root);
  sf_ok : sCancel s = false -> forall g, In g group -> cong dims (rot dims root g) root -> modZ (shiftPhase dims g root) 0 }.

Lemma star_facts : forall is s, sAt b is s -> exists root y, starFacts is s root y.
Proof.
  intros is s Hs. destruct of_good as [GB BM].
  destruct (star_source _ _ _ _ _ _ _ _ Hne Hm Hsz of_ne Hsort HI H is s Hs) as (root & st & f & R1 & R2 & R3 & R4 & R5 & R6).
  pose proof (starOf_facts ksqOf smin m group of_pos root st _ R1 R2) as SI. destruct R1 as [RL RD]. fold dims in RL. fold D in RL.
  assert (WH : forall g, In g group -> whole N (shiftPhase dims g (tBz root))) by (intros g Hg; apply (phase_frac dims group); auto; lia).
  assert (TP : forall g, tPhase (rotated smin m root g) = reduce (shiftPhase dims g (tBz root))) by reflexivity.
  assert (TD : forall g, cong dims (rot dims (tBz root) g) (tDft (rotated smin m root g))).
  { intros g. rewrite rotated_dft. apply (shift_cong dims of_pos). apply rot_length. }
  assert (FY : exists y, sCancel s = false -> half N y /\ f = turn y).
  { destruct (sCancel s) eqn:EC; [exists 0%R; discriminate|]. destruct (factor_turn N _ f HN5 (fun c Hc => Hc) ) as [y Hy]; [|exists y; auto].
    specialize (R5 eq_refl). destruct R5 as [c0 [P0 F]].
    assert (GW : forall c, (exists t, In t st /\ c = coeffOf (tPhase t)) -> exists x, whole N x /\ c = coeffOf x).
    { intros c (t & T1 & ->). exists (tPhase t). split; auto. destruct (si_src _ _ _ _ _ _ SI t T1) as [g [G1 ->]]. rewrite TP. apply whole_reduce; auto. }
    exists c0. split; [auto|]. destruct F as [F|(c1 & F1 & F2)]; auto. right. exists c1. auto. }
  destruct FY as [y FY]. exists (tBz root), y. constructor; auto.
  - intros i w Hw Hst. destruct (R3 i w Hw Hst) as [t [T1 [T2 [T3 [T4 T5]]]]]. destruct (si_src _ _ _ _ _ _ SI t T1) as [g [G1 G2]]. exists g. split; auto.
    split; [rewrite T2, G2; apply TD|]. split; [|exact T5]. intros HC. destruct (FY HC) as [Y1 Y2]. rewrite (T4 HC), G2, TP, Y2.
    assert (W := whole_reduce N HN5 _ (WH g G1)). rewrite (coeffOf_exact N HN5) by (apply whole_half; auto). rewrite <- turn_plus.
    rewrite (tidy_exact N HN5) by (auto; apply half_plus; auto; apply whole_half; auto). f_equal. apply turn_mod. apply modZ_plus; [apply reduce_mod|apply modZ_refl].
  - intros HC. apply FY. auto.
  - intros g Hg. destruct (si_all _ _ _ _ _ _ SI g Hg) as [t [T1 T2]]. destruct (R4 t T1) as (i & w & W1 & W2 & W3 & _). exists i, w. split; auto. split; auto. rewrite W3, T2. apply TD.
  - intros HC. destruct (si_bad _ _ _ _ _ _ SI HC) as (g & g' & G1 & G2 & G3 & G4). exists g, g'. split; auto.
    assert (G2' : In g' group) by (destruct G2 as [G2| ->]; auto; apply HG). split; auto. split.
    + rewrite !rotated_dft in G3. apply (shift_eq dims of_pos) in G3; auto; apply rot_length.
    + intros X. apply G4. apply reduce_eq. exact X.
  - intros HC g Hg HCo. assert (E : tDft (rotated smin m root g) = tDft root).
    { rewrite rotated_dft, RD. apply (shift_eq dims of_pos); auto. apply rot_length. }
    pose proof (si_ok _ _ _ _ _ _ SI HC g Hg E) as B. change (phaseOf m (tBz root) g) with (reduce (shiftPhase dims g (tBz root))) in B.
    set (x := shiftPhase dims g (tBz root)) in *. assert (Z0 : reduce x = 0%R).
    { apply (whole_small N HN5); [apply whole_reduce; auto; apply WH; auto|]. rewrite Rabs_mult in B. pose proof PI2_1. rewrite (Rabs_pos_eq (2 * PI)) in B by lra. pose proof (Rabs_pos (reduce x)). nra. }
    apply modZ_sym. rewrite <- Z0. apply reduce_mod.
Qed.

(** Elements that take root R_p back to root R_q *)
Lemma between : forall root p q, length root = D -> In p group -> In q group -> cong dims (rot dims root p) (rot dims root q) ->
  exists h, In h group /\ cong dims (rot dims root h) root /\ modZ (shiftPhase dims h root + shiftPhase dims p root) (shiftPhase dims q root).
Proof.
  intros root p q HL Hp Hq HC. destruct (group_inverse dims group HG HN HD p Hp) as [c [C1 [C2 C3]]]. pose proof of_mesh as AD.
  exists (smul D q c). split; [apply HG; auto|]. split.
  - rewrite <- rot_mul. eapply cong_trans; [apply (rot_cong dims group AD c (rot dims root q) (rot dims root p) C1); apply cong_sym; exact HC|]. rewrite rot_mul, C2, rot_id by auto. apply cong_refl.
  - pose proof (phase_mul dims q c root) as M1. pose proof (phase_mul dims p c root) as M2. rewrite C2, phase_id in M2.
    pose proof (phase_cong dims group AD c _ _ C1 HC) as M3. fold D in M1.
    destruct M1 as [z1 M1], M2 as [z2 M2], M3 as [z3 M3]. exists (z1 + z3 - z2). rewrite M1, M3, minus_IZR, plus_IZR. lra.
Qed.
Lemma phase_unique : forall is s root y p q, starFacts is s root y -> sCancel s = false -> In p group -> In q group -> cong dims (rot dims root p) (rot dims root q) ->
  modZ (shiftPhase dims p root) (shiftPhase dims q root).
Proof.
  intros is s root y p q SF HC Hp Hq HCo. destruct (between root p q (sf_len _ _ _ _ SF) Hp Hq HCo) as [h [H1 [H2 H3]]].
  pose proof (sf_ok _ _ _ _ SF HC h H1 H2) as Z0. destruct Z0 as [a A], H3 as [c C]. exists (c - a). rewrite minus_IZR. lra.
Qed.

(** ** Orbits *)
Lemma orbit_closed : forall i w j w' g, wAt b i w -> wAt b j w' -> In g group -> turns dims g (wDft w) (wDft w') -> wStar w' = wStar w.
Proof.
  intros i w j w' g Hw Hw' Hg HT. destruct of_good as [GB BM]. destruct (gb_wave _ GB _ _ Hw) as [s [Hs _]]. destruct (star_facts _ s Hs) as (root & y & SF).
  destruct (sf_src _ _ _ _ SF i w Hw eq_refl) as [a [A1 [A2 _]]]. apply turns_rot in HT.
  destruct (sf_all _ _ _ _ SF (smul D a g)) as (k & w2 & W1 & W2 & W3); [apply HG; auto|].
  assert (E : wDft w2 = wDft w').
  { apply (box_unique dims).
    - unfold dims. rewrite <- BM. apply (gb_box _ GB). eapply nth_error_In. apply W1.
    - unfold dims. rewrite <- BM. apply (gb_box _ GB). eapply nth_error_In. apply Hw'.
    - eapply cong_trans; [apply cong_sym; exact W3|]. rewrite <- rot_mul. eapply cong_trans; [|exact HT]. apply (rot_cong dims group of_mesh); auto. }
  destruct (nodup_waves _ _ _ _ _ GB W1 Hw' E) as [_ <-]. auto.
Qed.
Lemma orbit_transitive : forall i w j w', wAt b i w -> wAt b j w' -> wStar w' = wStar w -> exists g, In g group /\ turns dims g (wDft w) (wDft w').
Proof.
  intros i w j w' Hw Hw' HS. destruct of_good as [GB BM]. destruct (gb_wave _ GB _ _ Hw) as [s [Hs _]]. destruct (star_facts _ s Hs) as (root & y & SF).
  destruct (sf_src _ _ _ _ SF i w Hw eq_refl) as [a [A1 [A2 _]]]. destruct (sf_src _ _ _ _ SF j w' Hw' HS) as [c [C1 [C2 _]]].
  destruct (group_between dims group HG HN HD a c A1 C1) as [g [G1 G2]]. exists g. split; auto. apply turns_rot.
  eapply cong_trans; [|exact C2]. rewrite <- G2, <- rot_mul. apply (rot_cong dims group of_mesh); auto. apply cong_sym. auto.
Qed.
Lemma orbit_coeff : forall i w j w' g s, wAt b i w -> wAt b j w' -> In g group -> turns dims g (wDft w) (wDft w') -> sAt b (wStar w) s -> sCancel s = false ->
  wCoeff w' = Cmult (wCoeff w) (turn (shiftPhase dims g (wDft w))).
Proof.
  intros i w j w' g s Hw Hw' Hg HT Hs HC. pose proof (orbit_closed _ _ _ _ _ Hw Hw' Hg HT) as ES. destruct (star_facts _ s Hs) as (root & y & SF).
  destruct (sf_src _ _ _ _ SF i w Hw eq_refl) as [a [A1 [A2 [A3 A4]]]]. destruct (sf_src _ _ _ _ SF j w' Hw' ES) as [c [C1 [C2 [C3 C4]]]].
  apply turns_rot in HT. assert (AG : In (smul D a g) group) by (apply HG; auto).
  assert (HC2 : cong dims (rot dims root c) (rot dims root (smul D a g))).
  { eapply cong_trans; [exact C2|]. apply cong_sym. rewrite <- rot_mul. eapply cong_trans; [|exact HT]. apply (rot_cong dims group of_mesh); auto. }
  pose proof (phase_unique _ _ _ _ _ _ SF HC C1 AG HC2) as [z1 P1]. pose proof (phase_mul dims a g root) as [z2 P2]. pose proof (phase_cong dims group of_mesh g _ _ Hg A2) as [z3 P3].
  rewrite (C3 HC), (A3 HC). rewrite <- Cmult_assoc, (Cmult_comm (RtoC _)), Cmult_assoc, <- turn_plus. f_equal. apply turn_mod.
  fold D in P2. exists (z1 + z2 - z3). rewrite P1, P2, P3, minus_IZR, plus_IZR. ring.
Qed.
Lemma coeff_norm : forall i w s, wAt b i w -> sAt b (wStar w) s -> sCancel s = false -> (Cmod (wCoeff w) = 1 / sqrt (IZR (sSize s)))%R.
Proof.
  intros i w s Hw Hs HC. destruct (star_facts _ s Hs) as (root & y & SF). destruct (sf_src _ _ _ _ SF i w Hw eq_refl) as [a [A1 [A2 [A3 A4]]]]. rewrite (A3 HC).
  rewrite Cmod_mult, Cmod_R. unfold snorm. rewrite (Rabs_pos_eq (1 / _)).
  2:{ destruct (star_source _ _ _ _ _ _ _ _ Hne Hm Hsz of_ne Hsort HI H _ s Hs) as (_ & _ & _ & _ & _ & _ & _ & _ & R6).
      apply Rlt_le, Rdiv_lt_0_compat; [lra|]. apply sqrt_lt_R0, IZR_lt. lia. }
  assert (M : (Cmod (turn (shiftPhase dims a root + y)) = 1)%R); [|rewrite M; ring].
  pose proof (Cmod_sq (turn (shiftPhase dims a root + y))) as S. rewrite turn_unit in S. pose proof (Cmod_ge_0 (turn (shiftPhase dims a root + y))). nra.
Qed.
Lemma orbit_cancel : forall is s, sAt b is s ->
  (sCancel s = true <-> exists i w g, wAt b i w /\ wStar w = is /\ In g group /\ turns dims g (wDft w) (wDft w) /\ turn (shiftPhase dims g (wDft w)) <> RtoC 1).
Proof.
  intros is s Hs. destruct of_good as [GB BM]. destruct (star_facts _ s Hs) as (root & y & SF). split.
  - intros HC. destruct (sf_bad _ _ _ _ SF HC) as (p & q & P1 & P2 & P3 & P4).
    destruct (between root p q (sf_len _ _ _ _ SF) P1 P2 P3) as [h [H1 [H2 H3]]].
    destruct (sf_all _ _ _ _ SF (identity D)) as (i & w & W1 & W2 & W3); [apply HG|]. unfold D in W3. rewrite rot_id in W3 by (apply (sf_len _ _ _ _ SF)).
    exists i, w, h. split; auto. split; auto. split; auto. split.
    + apply turns_rot. eapply cong_trans; [apply (rot_cong dims group of_mesh h (wDft w) root H1); apply cong_sym; exact W3|]. eapply cong_trans; eauto.
    + rewrite <- turn_0. intros X. apply turn_inj in X. apply P4. pose proof (phase_cong dims group of_mesh h _ _ H1 W3) as [z1 Z1]. destruct X as [z2 Z2], H3 as [z3 Z3].
      exists (z3 + z1 - z2). rewrite minus_IZR, plus_IZR. lra.
  - intros (i & w & g & W1 & W2 & G1 & G2 & G3). destruct (sCancel s) eqn:HC; auto. exfalso. apply G3. subst is.
    pose proof (orbit_coeff _ _ _ _ _ _ W1 W1 G1 G2 Hs HC) as E. pose proof (gb_coeff _ GB _ _ _ _ Hs W1 eq_refl HC) as NZ.
    assert (X : wCoeff w <> RtoC 0). { intros X. rewrite X, Cmod_0 in NZ. lra. }
    set (c := wCoeff w) in *. set (t := turn (shiftPhase dims g (wDft w))) in *.
    assert (Y : Cmult (Cinv c) c = Cmult (Cinv c) (Cmult c t)) by (rewrite <- E; reflexivity). rewrite Cmult_assoc, Cinv_l, Cmult_1_l in Y by auto. auto.
Qed.
Lemma cancelled_zero : forall i w s, wAt b i w -> sAt b (wStar w) s -> sCancel s = true -> wCoeff w = RtoC 0.
Proof.
  intros i w s Hw Hs HC. destruct (star_facts _ s Hs) as (root & y & SF). destruct (sf_src _ _ _ _ SF i w Hw eq_refl) as [a [A1 [A2 [A3 A4]]]]. auto.
Qed.
Lemma coeff_half : forall i w s, wAt b i w -> sAt b (wStar w) s -> sCancel s = false -> exists x, half N x /\ wCoeff w = Cmult (turn x) (RtoC (snorm s)).
Proof.
  intros i w s Hw Hs HC. destruct (star_facts _ s Hs) as (root & y & SF). destruct (sf_src _ _ _ _ SF i w Hw eq_refl) as [a [A1 [A2 [A3 A4]]]].
  exists (shiftPhase dims a root + y)%R. split; auto. apply half_plus; auto; [|apply (sf_half _ _ _ _ SF HC)]. apply whole_half; auto. apply (phase_frac dims group); auto. lia.
Qed.
End Facts.
