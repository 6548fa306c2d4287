(** C25: conversion between components of a symmetry-adapted basis and Fourier components.
    C59: the test for symmetry of a field. *)
From Coq Require Import ZArith Reals List Bool Lia Lra.
From Coquelicot Require Import Complex.
From Verif Require Import Base MeshSpec Mesh PropsMesh FieldIo FieldIoProofs Basis BasisSpec BasisProofs.
From Coq Require Import List.
Import ListNotations.
Local Open Scope Z_scope.
Local Open Scope list_scope.

(** Dimensions of the mesh of the transform of a real field *)
Definition halfDims (b : basis) : list Z := dftDims (dimensions (bMesh b)).
(** Fourier component stored for a wave *)
Definition stored (dm : mesh) (k : list C) (w : wave) : C := nth (Z.to_nat (rank dm (wDft w))) k (RtoC 0).

Lemma half_mesh : forall b, goodBasis b -> exists dm, setDimensions (halfDims b) = Ok dm.
Proof.
  intros b G. apply (proj1 (mesh_constructible _ (dftDims_ne _ (gb_ne b G)))). apply dftDims_positive.
  apply (proj1 (mesh_constructible _ (gb_ne b G))). eexists. apply (gb_mesh b G).
Qed.
Lemma half_size : forall b dm, goodBasis b -> setDimensions (halfDims b) = Ok dm -> 0 < size dm.
Proof.
  intros b dm G H. destruct (mesh_rank_position_bijection _ dm (dftDims_ne _ (gb_ne b G)) H) as [_ [S _]]. rewrite S.
  assert (P : positive (halfDims b)) by (apply (proj1 (mesh_constructible _ (dftDims_ne _ (gb_ne b G)))); eauto).
  unfold halfDims in *. clear S H. induction P; cbn [prodZ]; lia.
Qed.
Lemma layout_nb : forall b, goodBasis b -> 0 <= bNBasis b.
Proof. intros b G. apply (layout_le _ _ _ _ _ _ (gb_layout b G)). Qed.

(** Every stored Fourier component is the component of its star times the coefficient
    of the wave; those of cancelled stars vanish. *)
Theorem C25_fourier : forall b dm x out, goodBasis b -> setDimensions (halfDims b) = Ok dm ->
  Z.of_nat (length x) = bNBasis b -> Z.of_nat (length out) = size dm ->
  exists k, convertBasisToKGrid x out b (halfDims b) = Ok k /\ Z.of_nat (length k) = size dm /\
    forall i w s, wAt b i w -> sAt b (wStar w) s -> wImplicit w = false ->
      stored dm k w = Cmult (component x s) (wCoeff w).
Proof.
  intros b dm x out G HD HX HO. unfold convertBasisToKGrid. rewrite (gb_init b G). cbn [check bind]. rewrite HD. cbn [bind].
  destruct (Z.ltb_spec (Z.of_nat (length out)) (size dm)); [lia|].
  assert (SK : skipn (Z.to_nat (size dm)) out = []) by (apply length_zero_iff_nil; rewrite skipn_length; lia).
  rewrite SK, app_nil_r.
  destruct (putStars_spec b G dm HD x HX 0 0 0 (bStars b) (gb_layout b G) [] (Z.to_nat (bNStar b)) (repeat (RtoC 0) (Z.to_nat (size dm)))) as [k [P1 [P2 [_ P4]]]]; auto; try lia.
  { rewrite (gb_nstar b G). lia. }
  { rewrite repeat_length. lia. }
  { intros. unfold kval. apply nth_repeat. }
  exists k. split; auto. split; [rewrite P2, repeat_length; lia|]. intros i w s Hw Hs HI. apply (P4 i); auto. apply Hw.
Qed.
Print Assumptions C25_fourier.

(** From Fourier components of this form the components x are recovered. *)
Lemma back : forall b dm x k out, goodBasis b -> setDimensions (halfDims b) = Ok dm ->
  Z.of_nat (length x) = bNBasis b -> Z.of_nat (length k) = size dm -> Z.of_nat (length out) = bNBasis b ->
  (forall i w s, wAt b i w -> sAt b (wStar w) s -> wImplicit w = false -> sCancel s = false ->
     stored dm k w = Cmult (component x s) (wCoeff w)) ->
  convertKGridToBasis k out b (halfDims b) = Ok x.
Proof.
  intros b dm x k out G HD HX HK HO HV. unfold convertKGridToBasis. rewrite (gb_init b G). cbn [check bind]. rewrite HD. cbn [bind].
  destruct (Z.ltb_spec (Z.of_nat (length out)) (bNBasis b)); [lia|].
  assert (SK : skipn (Z.to_nat (bNBasis b)) out = []) by (apply length_zero_iff_nil; rewrite skipn_length; lia).
  rewrite SK, app_nil_r. pose proof (layout_nb b G) as NB.
  assert (HV' : forall i w s, wAt b i w -> wImplicit w = false -> sAt b (wStar w) s -> sCancel s = false ->
    kval dm k w = Cmult (component x s) (wCoeff w)) by (intros i w s Hw HI Hs HCs; apply (HV i w s); auto).
  destruct (getStars_spec b G dm HD k ltac:(lia) x HV' 0 0 0 (bStars b) (gb_layout b G) [] (Z.to_nat (bNStar b)) (repeat 0%R (Z.to_nat (bNBasis b)))) as [x' [P1 [P2 [P3 _]]]]; auto; try lia.
  { rewrite (gb_nstar b G). lia. }
  { rewrite repeat_length. lia. }
  rewrite P1. f_equal. apply (nth_ext _ _ 0%R 0%R); rewrite P2, repeat_length; [lia|].
  intros n Hn. specialize (P3 (Z.of_nat n) ltac:(lia)). rewrite Nat2Z.id in P3. exact P3.
Qed.

(** Components survive the conversion to Fourier components and back, whatever the
    arrays contained before. *)
Theorem C25_roundtrip : forall b x out out', goodBasis b -> Z.of_nat (length x) = bNBasis b ->
  (forall dm, setDimensions (halfDims b) = Ok dm -> Z.of_nat (length out) = size dm) -> Z.of_nat (length out') = bNBasis b ->
  exists k, convertBasisToKGrid x out b (halfDims b) = Ok k /\ convertKGridToBasis k out' b (halfDims b) = Ok x.
Proof.
  intros b x out out' G HX HO HO'. destruct (half_mesh b G) as [dm HD].
  destruct (C25_fourier b dm x out G HD HX (HO dm HD)) as [k [K1 [K2 K3]]]. exists k. split; auto.
  apply (back b dm); auto. intros. eapply K3; eauto.
Qed.
Print Assumptions C25_roundtrip.

(** ** Symmetric fields *)
(** The Fourier component of every wave of a real field. *)
Definition full (b : basis) (dm : mesh) (k : list C) (w : wave) (z : C) : Prop :=
  if wImplicit w then exists w', wAt b (wInv w) w' /\ z = Cconj (stored dm k w') else z = stored dm k w.
(** The field is a combination of the functions of the stars. *)
Definition symmetric (b : basis) (dm : mesh) (k : list C) (q : Z -> C) : Prop :=
  forall i w s z, wAt b i w -> sAt b (wStar w) s -> full b dm k w z ->
    z = if sCancel s then RtoC 0 else Cmult (q (wStar w)) (wCoeff w).
(** The components of a real field belong to a real function. *)
Definition real (b : basis) (dm : mesh) (k : list C) : Prop :=
  forall i w w', wAt b i w -> wAt b (wInv w) w' -> wImplicit w = false -> wImplicit w' = false ->
    stored dm k w' = Cconj (stored dm k w).
(** The functions of the basis are real, or conjugate for two open stars. *)
Definition conjugate (b : basis) : Prop :=
  forall i w w', wAt b i w -> wAt b (wInv w) w' -> wCoeff w' = Cconj (wCoeff w).

Lemma Cconj_mult : forall a c, Cconj (Cmult a c) = Cmult (Cconj a) (Cconj c).
Proof. intros [a1 a2] [c1 c2]. unfold Cconj, Cmult; cbn. f_equal; ring. Qed.
Lemma Cconj_conj : forall a, Cconj (Cconj a) = a.
Proof. intros [a1 a2]. unfold Cconj; cbn. f_equal. ring. Qed.
Lemma Cmult_cancel : forall a c d : C, d <> RtoC 0 -> Cmult a d = Cmult c d -> a = c.
Proof. intros a c d H E. rewrite <- (Cdiv_mult a d H), <- (Cdiv_mult c d H), E. reflexivity. Qed.

Section Sym.
Variable b : basis.
Hypothesis G : goodBasis b.
Hypothesis HC : conjugate b.
Variable dm : mesh.
Hypothesis HD : setDimensions (halfDims b) = Ok dm.
Variable k : list C.
Hypothesis HK : Z.of_nat (length k) = size dm.
Variable q : Z -> C.
Hypothesis HS : symmetric b dm k q.
Hypothesis HR : real b dm k.

(** q of the partner is the conjugate. *)
Lemma q_conj : forall is s, sAt b is s -> sCancel s = false ->
  (forall s', sAt b (is + sFlag s) s' -> sCancel s' = false) -> sBegin s < sEnd s -> q (is + sFlag s) = Cconj (q is).
Proof.
  intros is s Hs HCs HC' HL.
  destruct (gb_star b G is s (sBegin s) Hs ltac:(lia)) as [w [Hw Hst]].
  destruct (gb_inv b G _ _ Hw) as [w' [Hw' [Hinv [_ NB]]]].
  pose proof (gb_partner b G is s _ _ _ Hs Hw Hst Hw') as Hst'.
  destruct (gb_wave b G _ _ Hw') as [s' [Hs' _]]. rewrite Hst' in Hs'. pose proof (HC' s' Hs') as HCs'.
  pose proof (HC _ _ _ Hw Hw') as CJ.
  assert (NE : wCoeff w' <> RtoC 0) by (eapply (coeff_ne b G); eauto).
  assert (Hww : wAt b (wInv w') w) by (rewrite Hinv; auto).
  assert (X : forall z z', full b dm k w z -> full b dm k w' z' -> z' = Cconj z -> q (is + sFlag s) = Cconj (q is)).
  { intros z z' F F' E. pose proof (HS _ _ s z Hw ltac:(rewrite Hst; auto) F) as V. pose proof (HS _ _ s' z' Hw' ltac:(rewrite Hst'; auto) F') as V'.
    rewrite HCs in V. rewrite HCs' in V'. rewrite Hst in V. rewrite Hst' in V'. apply (Cmult_cancel _ _ (wCoeff w') NE).
    rewrite <- V', E, V, Cconj_mult, CJ. reflexivity. }
  destruct (wImplicit w) eqn:EI; destruct (wImplicit w') eqn:EI'.
  - destruct NB; congruence.
  - apply (X (Cconj (stored dm k w')) (stored dm k w')); unfold full; rewrite ?EI, ?EI'; eauto. symmetry. apply Cconj_conj.
  - apply (X (stored dm k w) (Cconj (stored dm k w))); unfold full; rewrite ?EI, ?EI'; eauto.
  - apply (X (stored dm k w) (stored dm k w')); unfold full; rewrite ?EI, ?EI'; eauto.
Qed.

(** The coefficients of a symmetric field *)
Lemma coefficients : forall is iw ib l, layout (size (bMesh b)) (bNBasis b) is iw ib l -> forall done pre,
  bStars b = done ++ l -> Z.of_nat (length done) = is -> Z.of_nat (length pre) = ib ->
  exists xs, Z.of_nat (length xs) = bNBasis b - ib /\
    forall j s, is <= j -> sAt b j s -> sCancel s = false -> component (pre ++ xs) s = q j.
Proof.
  induction 1 as [is|is iw ib s r F St B E EW SZ BI L IH|is iw ib s1 s2 r F1 F2 St1 St2 C B1 E1 B2 SZ1 SZ2 SZ3 E2 BI1 BI2 L IH];
  intros done pre HB HDn HP.
  - exists []. split; [cbn; lia|]. intros j s Hj [_ Hs]. rewrite HB, app_nil_r in Hs.
    assert (Z.to_nat j < length done)%nat by (apply nth_error_Some; congruence). lia.
  - pose proof (layout_at b done _ HB s r eq_refl) as Hs. rewrite HDn in Hs.
    assert (HB' : bStars b = (done ++ [s]) ++ r) by (rewrite <- app_assoc; exact HB).
    assert (HD' : Z.of_nat (length (done ++ [s])) = is + 1) by (rewrite app_length; cbn [length]; lia).
    destruct (sCancel s) eqn:EC.
    + destruct (IH (done ++ [s]) pre HB' HD' HP) as [xs [X1 X2]]. exists xs. split; auto.
      intros j s' Hj Hs' HC'. destruct (Z.eq_dec j is) as [->|N]; [rewrite (sAt_fun _ _ _ _ Hs' Hs) in HC'; congruence|]. apply X2; auto. lia.
    + destruct (IH (done ++ [s]) (pre ++ [fst (q is)]) HB' HD') as [xs [X1 X2]]; [rewrite app_length; cbn [length]; lia|].
      rewrite <- app_assoc in X2. cbn [app] in X2.
      exists (fst (q is) :: xs). split; [cbn [length]; lia|].
      intros j s' Hj Hs' HC'. destruct (Z.eq_dec j is) as [->|N]; [|apply X2; auto; lia].
      rewrite (sAt_fun _ _ _ _ Hs' Hs). unfold component. rewrite EC, F, BI. cbn [Z.eqb].
      rewrite app_nth2 by lia. replace (Z.to_nat ib - length pre)%nat with 0%nat by lia. cbn [nth].
      pose proof (q_conj is s Hs EC) as QC. rewrite F, Z.add_0_r in QC.
      assert (QQ : q is = Cconj (q is)). { apply QC; [|lia]. intros s'' Hs''. rewrite (sAt_fun _ _ _ _ Hs'' Hs). auto. }
      destruct (q is) as [u v]. unfold Cconj in QQ. cbn in QQ |- *. injection QQ as QQ. f_equal. lra.
  - pose proof (layout_at b done _ HB s1 _ eq_refl) as Hs1. rewrite HDn in Hs1.
    assert (HB1 : bStars b = (done ++ [s1]) ++ s2 :: r) by (rewrite <- app_assoc; exact HB).
    assert (HD1 : Z.of_nat (length (done ++ [s1])) = is + 1) by (rewrite app_length; cbn [length]; lia).
    pose proof (layout_at b _ _ HB1 s2 _ eq_refl) as Hs2. rewrite HD1 in Hs2.
    assert (HB' : bStars b = (done ++ [s1; s2]) ++ r) by (rewrite <- app_assoc; exact HB).
    assert (HD' : Z.of_nat (length (done ++ [s1; s2])) = is + 2) by (rewrite app_length; cbn [length]; lia).
    destruct (sCancel s1) eqn:EC.
    + destruct (IH (done ++ [s1; s2]) pre HB' HD' HP) as [xs [X1 X2]]. exists xs. split; auto.
      intros j s' Hj Hs' HC'. destruct (Z.eq_dec j is) as [->|N]; [rewrite (sAt_fun _ _ _ _ Hs' Hs1) in HC'; congruence|].
      destruct (Z.eq_dec j (is + 1)) as [->|N']; [rewrite (sAt_fun _ _ _ _ Hs' Hs2) in HC'; congruence|]. apply X2; auto. lia.
    + destruct (IH (done ++ [s1; s2]) (pre ++ [(sqrt 2 * fst (q is))%R; (- (sqrt 2 * snd (q is)))%R]) HB' HD') as [xs [X1 X2]]; [rewrite app_length; cbn [length]; lia|].
      rewrite <- app_assoc in X2. cbn [app] in X2.
      exists ((sqrt 2 * fst (q is))%R :: (- (sqrt 2 * snd (q is)))%R :: xs). split; [cbn [length]; lia|].
      assert (S2 : (sqrt 2 <> 0)%R) by (pose proof Rlt_sqrt2_0; lra).
      intros j s' Hj Hs' HC'. destruct (Z.eq_dec j is) as [->|N]; [|destruct (Z.eq_dec j (is + 1)) as [->|N']; [|apply X2; auto; lia]].
      * rewrite (sAt_fun _ _ _ _ Hs' Hs1). unfold component. rewrite EC, F1, BI1. cbn [Z.eqb Pos.eqb].
        rewrite !app_nth2 by lia. replace (Z.to_nat ib - length pre)%nat with 0%nat by lia. replace (Z.to_nat (ib + 1) - length pre)%nat with 1%nat by lia. cbn [nth].
        destruct (q is) as [u v]. unfold Cdiv, Cmult, Cinv, RtoC. cbn. f_equal; field; repeat split; auto; intros H0; nra.
      * rewrite (sAt_fun _ _ _ _ Hs' Hs2). unfold component. rewrite C, F2, BI2. cbn [Z.eqb Pos.eqb]. replace (ib + 1 - 1) with ib by lia.
        rewrite !app_nth2 by lia. replace (Z.to_nat ib - length pre)%nat with 0%nat by lia. replace (Z.to_nat (ib + 1) - length pre)%nat with 1%nat by lia. cbn [nth].
        pose proof (q_conj is s1 Hs1 EC) as QC. rewrite F1 in QC. rewrite QC; [|intros s'' Hs''; rewrite (sAt_fun _ _ _ _ Hs'' Hs2); congruence|lia].
        destruct (q is) as [u v]. unfold Cdiv, Cmult, Cinv, RtoC, Cconj. cbn. f_equal; field; repeat split; auto; intros H0; nra.
Qed.
End Sym.

(** Every symmetric real field has components, and is recovered from them. *)
Theorem C25_inverse : forall b dm k q out out', goodBasis b -> conjugate b -> setDimensions (halfDims b) = Ok dm ->
  Z.of_nat (length k) = size dm -> symmetric b dm k q -> real b dm k ->
  Z.of_nat (length out) = bNBasis b -> Z.of_nat (length out') = size dm ->
  exists x k', convertKGridToBasis k out b (halfDims b) = Ok x /\ convertBasisToKGrid x out' b (halfDims b) = Ok k' /\
    forall i w, wAt b i w -> wImplicit w = false -> stored dm k' w = stored dm k w.
Proof.
  intros b dm k q out out' G HC HD HK HS HR HO HO'.
  destruct (coefficients b G HC dm k q HS HR 0 0 0 (bStars b) (gb_layout b G) [] [] eq_refl eq_refl eq_refl) as [x [X1 X2]]. cbn [app] in X2. rewrite Z.sub_0_r in X1.
  destruct (C25_fourier b dm x out' G HD X1 HO') as [k' [K1 [K2 K3]]]. exists x, k'.
  assert (V : forall i w s, wAt b i w -> sAt b (wStar w) s -> wImplicit w = false -> stored dm k w = Cmult (component x s) (wCoeff w)).
  { intros i w s Hw Hs HI. rewrite (HS i w s (stored dm k w) Hw Hs ltac:(unfold full; rewrite HI; reflexivity)).
    destruct (sCancel s) eqn:EC.
    - unfold component. rewrite EC. ring.
    - rewrite (X2 (wStar w) s) by (auto; apply Hs). reflexivity. }
  split; [|split; auto].
  - apply (back b dm); auto. intros. eapply V; eauto.
  - intros i w Hw HI. destruct (gb_wave b G _ _ Hw) as [s [Hs _]]. rewrite (K3 i w s), (V i w s); auto.
Qed.
Print Assumptions C25_inverse.

(** ** The test for symmetry *)
Section HasSym.
Variable b : basis.
Hypothesis G : goodBasis b.
Variable dm : mesh.
Hypothesis HD : setDimensions (halfDims b) = Ok dm.
Variable k : list C.
Hypothesis HK : Z.of_nat (length k) = size dm.

Lemma stored_at : forall i w, wAt b i w -> wImplicit w = false -> at1 k (rank dm (wDft w)) = Ok (stored dm k w).
Proof.
  intros i w Hw HI. exact (explicit_at b G dm HD k ltac:(lia) i w Hw HI).
Qed.
Lemma wave_at : forall i w, wAt b i w -> at1 (bWaves b) i = Ok w.
Proof. intros i w [H1 H2]. apply at1_spec. split; auto. Qed.

Lemma cancelledError_spec : forall l e, (forall iw, In iw l -> exists w, wAt b iw w) -> (0 <= e)%R ->
  exists e', cancelledError b dm k l e = Ok e' /\ (e <= e')%R /\
    (forall iw w, In iw l -> wAt b iw w -> wImplicit w = false -> (Cmod (stored dm k w) <= e')%R) /\
    ((forall iw w, In iw l -> wAt b iw w -> wImplicit w = false -> stored dm k w = RtoC 0) -> e' = e).
Proof.
  induction l as [|i l IH]; intros e HL HE; cbn [cancelledError].
  - exists e. repeat split; auto; try lra. intros ? ? [].
  - destruct (HL i (or_introl eq_refl)) as [w Hw]. rewrite (wave_at i w Hw). cbn [bind].
    destruct (wImplicit w) eqn:EI.
    + cbn [bind]. destruct (IH e) as [e' [P1 [P2 [P3 P4]]]]; auto. { intros; apply HL; right; auto. }
      exists e'. repeat split; auto.
      * intros iw w' [->|Hin] Hw' HI'; [rewrite (wAt_fun _ _ _ _ Hw' Hw) in HI'; congruence|eapply P3; eauto].
      * intros Z0. apply P4. intros. eapply Z0; eauto. right; auto.
    + rewrite (stored_at i w Hw EI). cbn [bind].
      destruct (IH (if Rlt_dec e (Cmod (stored dm k w)) then Cmod (stored dm k w) else e)) as [e' [P1 [P2 [P3 P4]]]].
      { intros; apply HL; right; auto. } { destruct (Rlt_dec _ _); lra. }
      exists e'. repeat split; auto.
      * destruct (Rlt_dec _ _); lra.
      * intros iw w' [->|Hin] Hw' HI'; [rewrite (wAt_fun _ _ _ _ Hw' Hw); destruct (Rlt_dec _ _); lra|eapply P3; eauto].
      * intros Z0. rewrite P4 by (intros; eapply Z0; eauto; right; auto).
        rewrite (Z0 i w (or_introl eq_refl) Hw EI), Cmod_0. destruct (Rlt_dec e 0); lra.
Qed.

Definition ratio (w : wave) : C := Cdiv (stored dm k w) (wCoeff w).
Lemma uncancelledError_spec : forall l root e, (forall iw, In iw l -> exists w, wAt b iw w) -> (0 <= e)%R ->
  exists e', uncancelledError b dm k l root e = Ok e' /\ (e <= e')%R /\
    (exists q0, (forall q, root = Some q -> q0 = q) /\
       forall iw w, In iw l -> wAt b iw w -> wImplicit w = false -> (Cmod (Cminus (ratio w) q0) <= e')%R) /\
    (forall q0, (forall q, root = Some q -> q0 = q) ->
       (forall iw w, In iw l -> wAt b iw w -> wImplicit w = false -> ratio w = q0) -> e' = e).
Proof.
  induction l as [|i l IH]; intros root e HL HE; cbn [uncancelledError].
  - exists e. repeat split; auto; try lra.
    destruct root as [q|]; [exists q|exists (RtoC 0)]; split; try (intros ? ? []); congruence.
  - destruct (HL i (or_introl eq_refl)) as [w Hw]. rewrite (wave_at i w Hw). cbn [bind].
    assert (HL' : forall iw, In iw l -> exists w, wAt b iw w) by (intros; apply HL; right; auto).
    destruct (wImplicit w) eqn:EI.
    + destruct (IH root e HL' HE) as [e' [P1 [P2 [[q0 [P3 P3']] P4]]]].
      exists e'. repeat split; auto.
      * exists q0. split; auto. intros iw w' [->|Hin] Hw' HI'; [rewrite (wAt_fun _ _ _ _ Hw' Hw) in HI'; congruence|eapply P3'; eauto].
      * intros q1 Q1 Q2. apply (P4 q1 Q1). intros. eapply Q2; eauto. right; auto.
    + rewrite (stored_at i w Hw EI). cbn [bind]. fold (ratio w). destruct root as [q|].
      * destruct (IH (Some q) (if Rlt_dec e (Cmod (Cminus (ratio w) q)) then Cmod (Cminus (ratio w) q) else e) HL') as [e' [P1 [P2 [[q0 [P3 P3']] P4]]]].
        { destruct (Rlt_dec _ _); lra. }
        exists e'. repeat split; auto.
        -- destruct (Rlt_dec _ _); lra.
        -- exists q0. split; auto. intros iw w' [->|Hin] Hw' HI'; [|eapply P3'; eauto].
           rewrite (wAt_fun _ _ _ _ Hw' Hw), (P3 q eq_refl). destruct (Rlt_dec _ _); lra.
        -- intros q1 Q1 Q2. rewrite (P4 q1 Q1) by (intros; eapply Q2; eauto; right; auto).
           rewrite (Q2 i w (or_introl eq_refl) Hw EI), (Q1 q eq_refl).
           replace (Cminus q q) with (RtoC 0) by ring. rewrite Cmod_0. destruct (Rlt_dec e 0); lra.
      * destruct (IH (Some (ratio w)) e HL' HE) as [e' [P1 [P2 [[q0 [P3 P3']] P4]]]].
        exists e'. repeat split; auto.
        -- exists q0. split; [congruence|]. intros iw w' [->|Hin] Hw' HI'; [|eapply P3'; eauto].
           rewrite (wAt_fun _ _ _ _ Hw' Hw), (P3 _ eq_refl). replace (Cminus (ratio w) (ratio w)) with (RtoC 0) by ring. rewrite Cmod_0. lra.
        -- intros q1 Q1 Q2. apply (P4 q1).
           ++ intros q E. injection E as <-. symmetry. apply (Q2 i w); auto. left; auto.
           ++ intros. eapply Q2; eauto. right; auto.
Qed.

Lemma star_waves : forall is s, sAt b is s -> forall iw, In iw (range (sBegin s) (sEnd s)) -> exists w, wAt b iw w /\ wStar w = is.
Proof. intros is s Hs iw Hin. apply range_in in Hin. apply (gb_star b G is s iw Hs Hin). Qed.

Lemma symmetryErrors_spec : forall l done ec eu, bStars b = done ++ l -> (0 <= ec)%R -> (0 <= eu)%R ->
  exists ec' eu', symmetryErrors b dm k l ec eu = Ok (ec', eu') /\ (ec <= ec')%R /\ (eu <= eu')%R /\
    (forall is s, Z.of_nat (length done) <= is -> sAt b is s -> sCancel s = true ->
       forall iw w, sBegin s <= iw < sEnd s -> wAt b iw w -> wImplicit w = false -> (Cmod (stored dm k w) <= ec')%R) /\
    (forall is s, Z.of_nat (length done) <= is -> sAt b is s -> sCancel s = false ->
       exists q0, forall iw w, sBegin s <= iw < sEnd s -> wAt b iw w -> wImplicit w = false -> (Cmod (Cminus (ratio w) q0) <= eu')%R) /\
    (forall q, symmetric b dm k q -> ec' = ec /\ eu' = eu).
Proof.
  induction l as [|s l IH]; intros done ec eu HB HC HU; cbn [symmetryErrors].
  - exists ec, eu. repeat split; auto; try lra; intros is s Hl [_ Hs]; rewrite HB, app_nil_r in Hs;
    assert (Z.to_nat is < length done)%nat by (apply nth_error_Some; congruence); lia.
  - pose proof (layout_at b done _ HB s l eq_refl) as Hs.
    assert (HB' : bStars b = (done ++ [s]) ++ l) by (rewrite <- app_assoc; exact HB).
    assert (HL : Z.of_nat (length (done ++ [s])) = Z.of_nat (length done) + 1) by (rewrite app_length; cbn [length]; lia).
    assert (W : forall iw, In iw (range (sBegin s) (sEnd s)) -> exists w, wAt b iw w).
    { intros iw Hin. destruct (star_waves _ _ Hs iw Hin) as [w [Hw _]]. eauto. }
    destruct (sCancel s) eqn:EC.
    + destruct (cancelledError_spec (range (sBegin s) (sEnd s)) ec W HC) as [e1 [A1 [A2 [A3 A4]]]]. rewrite A1. cbn [bind].
      destruct (IH (done ++ [s]) e1 eu HB' ltac:(lra) HU) as [ec' [eu' [P1 [P2 [P3 [P4 [P5 P6]]]]]]].
      rewrite HL in P4, P5. exists ec', eu'. split; auto. split; [lra|]. split; [lra|]. split; [|split].
      * intros is s' Hl Hs' HC' iw w Hi Hw HI. destruct (Z.eq_dec is (Z.of_nat (length done))) as [->|N]; [|eapply (P4 is); eauto; lia].
        rewrite (sAt_fun _ _ _ _ Hs' Hs) in *. specialize (A3 iw w ltac:(apply range_in; auto) Hw HI). lra.
      * intros is s' Hl Hs' HC'. destruct (Z.eq_dec is (Z.of_nat (length done))) as [->|N]; [|apply (P5 is); auto; lia].
        rewrite (sAt_fun _ _ _ _ Hs' Hs) in HC'. congruence.
      * intros q HS. destruct (P6 q HS) as [-> ->]. split; auto. apply A4. intros iw w Hin Hw HI.
        destruct (star_waves _ _ Hs iw Hin) as [w' [Hw' St]]. rewrite (wAt_fun _ _ _ _ Hw' Hw) in St.
        rewrite (HS iw w s (stored dm k w) Hw ltac:(rewrite St; auto) ltac:(unfold full; rewrite HI; auto)), EC. reflexivity.
    + destruct (uncancelledError_spec (range (sBegin s) (sEnd s)) None eu W HU) as [e1 [A1 [A2 [[q0 [_ A3]] A4]]]]. rewrite A1. cbn [bind].
      destruct (IH (done ++ [s]) ec e1 HB' HC ltac:(lra)) as [ec' [eu' [P1 [P2 [P3 [P4 [P5 P6]]]]]]].
      rewrite HL in P4, P5. exists ec', eu'. split; auto. split; [lra|]. split; [lra|]. split; [|split].
      * intros is s' Hl Hs' HC'. destruct (Z.eq_dec is (Z.of_nat (length done))) as [->|N]; [|apply (P4 is); auto; lia].
        rewrite (sAt_fun _ _ _ _ Hs' Hs) in HC'. congruence.
      * intros is s' Hl Hs' HC'. destruct (Z.eq_dec is (Z.of_nat (length done))) as [->|N]; [|apply (P5 is); auto; lia].
        exists q0. rewrite (sAt_fun _ _ _ _ Hs' Hs) in *. intros iw w Hi Hw HI. specialize (A3 iw w ltac:(apply range_in; auto) Hw HI). lra.
      * intros q HS. destruct (P6 q HS) as [-> ->]. split; auto. apply (A4 (q (Z.of_nat (length done)))); [congruence|]. intros iw w Hin Hw HI.
        destruct (star_waves _ _ Hs iw Hin) as [w' [Hw' St]]. rewrite (wAt_fun _ _ _ _ Hw' Hw) in St.
        unfold ratio. rewrite (HS iw w s (stored dm k w) Hw ltac:(rewrite St; auto) ltac:(unfold full; rewrite HI; auto)), EC, St.
        apply Cdiv_mult. eapply (coeff_ne b G); eauto.
Qed.
End HasSym.

(** A symmetric field passes the test, for every tolerance. *)
Theorem C59_complete : forall b dm k q eps, goodBasis b -> setDimensions (halfDims b) = Ok dm ->
  Z.of_nat (length k) = size dm -> symmetric b dm k q -> (0 < eps)%R -> hasSymmetry k b (halfDims b) eps = Ok true.
Proof.
  intros b dm k q eps G HD HK HS HE. unfold hasSymmetry. rewrite (gb_init b G). cbn [check bind]. rewrite HD. cbn [bind].
  destruct (symmetryErrors_spec b G dm HD k HK (bStars b) [] 0 0 eq_refl (Rle_refl 0) (Rle_refl 0)) as [ec [eu [P1 [_ [_ [_ [_ P]]]]]]].
  rewrite P1. cbn [bind fst snd]. destruct (P q HS) as [-> ->]. unfold ltb. destruct (Rlt_dec 0 eps); [reflexivity|lra].
Qed.
Print Assumptions C59_complete.

(** What the test ensures: stored components of cancelled stars are small; within a
    star the quotients of stored components and coefficients are close to each other. *)
Theorem C59_stored : forall b dm k eps, goodBasis b -> setDimensions (halfDims b) = Ok dm ->
  Z.of_nat (length k) = size dm -> hasSymmetry k b (halfDims b) eps = Ok true ->
  exists q, forall i w s, wAt b i w -> sAt b (wStar w) s -> wImplicit w = false ->
    if sCancel s then (Cmod (stored dm k w) < eps)%R
    else (Cmod (Cminus (stored dm k w) (Cmult (q (wStar w)) (wCoeff w))) < eps * Cmod (wCoeff w))%R.
Proof.
  intros b dm k eps G HD HK H. unfold hasSymmetry in H. rewrite (gb_init b G) in H. cbn [check bind] in H. rewrite HD in H. cbn [bind] in H.
  destruct (symmetryErrors_spec b G dm HD k HK (bStars b) [] 0 0 eq_refl (Rle_refl 0) (Rle_refl 0)) as [ec [eu [P1 [_ [_ [P2 [P3 _]]]]]]].
  rewrite P1 in H. cbn [bind fst snd] in H. injection H as H. apply andb_prop in H. destruct H as [H1 H2].
  unfold ltb in H1, H2. destruct (Rlt_dec ec eps) as [L1|]; [|discriminate]. destruct (Rlt_dec eu eps) as [L2|]; [|discriminate].
  cbn [length Z.of_nat] in P2, P3.
  assert (Q : forall is : nat, exists q0, forall s, sAt b (Z.of_nat is) s -> sCancel s = false -> forall iw w, sBegin s <= iw < sEnd s -> wAt b iw w -> wImplicit w = false ->
    (Cmod (Cminus (ratio dm k w) q0) <= eu)%R).
  { intros is. destruct (nth_error (bStars b) is) as [s|] eqn:E.
    - assert (Hs : sAt b (Z.of_nat is) s) by (split; [lia|rewrite Nat2Z.id; auto]).
      destruct (sCancel s) eqn:EC.
      + exists (RtoC 0). intros s' Hs' HC'. rewrite (sAt_fun _ _ _ _ Hs' Hs) in HC'. congruence.
      + destruct (P3 (Z.of_nat is) s ltac:(lia) Hs EC) as [q0 P]. exists q0. intros s' Hs' _. rewrite (sAt_fun _ _ _ _ Hs' Hs). exact P.
    - exists (RtoC 0). intros s [_ Hs]. rewrite Nat2Z.id in Hs. congruence. }
  assert (Q' : exists q : nat -> C, forall is s, sAt b (Z.of_nat is) s -> sCancel s = false -> forall iw w, sBegin s <= iw < sEnd s -> wAt b iw w -> wImplicit w = false ->
    (Cmod (Cminus (ratio dm k w) (q is)) <= eu)%R).
  { assert (QN : forall n, exists q : nat -> C, forall is, (is < n)%nat -> forall s, sAt b (Z.of_nat is) s -> sCancel s = false -> forall iw w, sBegin s <= iw < sEnd s -> wAt b iw w -> wImplicit w = false ->
      (Cmod (Cminus (ratio dm k w) (q is)) <= eu)%R).
    { induction n as [|n [q IH]]; [exists (fun _ => RtoC 0); lia|]. destruct (Q n) as [q0 Q0].
      exists (fun i => if Nat.eqb i n then q0 else q i). intros is Hi. destruct (Nat.eqb_spec is n) as [->|]; [exact Q0|apply IH; lia]. }
    destruct (QN (length (bStars b))) as [q QQ]. exists q. intros is s Hs. apply QQ; auto.
    destruct Hs as [_ Hs]. rewrite Nat2Z.id in Hs. apply nth_error_Some. congruence. }
  destruct Q' as [q QQ]. exists (fun i => q (Z.to_nat i)). intros i w s Hw Hs HI.
  destruct (gb_wave b G _ _ Hw) as [s' [Hs' Hr]]. rewrite (sAt_fun _ _ _ _ Hs' Hs) in Hr.
  pose proof (proj1 Hs) as Hge.
  destruct (sCancel s) eqn:EC.
  - pose proof (P2 _ s Hge Hs EC i w Hr Hw HI). lra.
  - specialize (QQ (Z.to_nat (wStar w)) s ltac:(rewrite Z2Nat.id by lia; auto) EC i w Hr Hw HI).
    assert (NE : wCoeff w <> RtoC 0) by (apply (coeff_ne b G (wStar w) s i w); auto).
    replace (Cminus (stored dm k w) (Cmult (q (Z.to_nat (wStar w))) (wCoeff w))) with (Cmult (Cminus (ratio dm k w) (q (Z.to_nat (wStar w)))) (wCoeff w)).
    + rewrite Cmod_mult. apply Rmult_lt_compat_r; [apply Cmod_gt_0; auto|lra].
    + unfold ratio. field. auto.
Qed.
Print Assumptions C59_stored.

(** ** Examples, one-dimensional *)
Definition w1 (c : R) (g bz is inv : Z) (imp : bool) : wave := mkWave (RtoC c) [g] [bz] is inv imp (IZR (bz * bz)).
Definition mesh1 (n : Z) : mesh := mkMesh [n] [1] n.
(** No symmetry, six points: two closed stars and two pairs of open stars *)
Definition ex6 : basis := mkBasis (mesh1 6)
  [w1 1 0 0 0 0 false; w1 1 1 1 1 2 false; w1 1 5 (-1) 2 1 true; w1 1 2 2 3 4 false; w1 1 4 (-2) 4 3 true; w1 1 3 3 5 5 false]
  [mkStar 1 0 1 0 0 0 [0] false; mkStar 1 1 2 1 1 1 [1] false; mkStar 1 2 3 2 2 (-1) [-1] false;
   mkStar 1 3 4 3 3 1 [2] false; mkStar 1 4 5 4 4 (-1) [-2] false; mkStar 1 5 6 5 5 0 [3] false]
  [0; 1; 3; 5; 4; 2] [0; 1; 2; 3; 4; 5] 6 6 6 6 true.
(** Inversion, three points: the waves 1 and -1 form a closed star *)
Definition ex3 : basis := mkBasis (mesh1 3)
  [w1 1 0 0 0 0 false; w1 (1 / sqrt 2) 1 1 1 2 false; w1 (1 / sqrt 2) 2 (-1) 1 1 true]
  [mkStar 1 0 1 0 0 0 [0] false; mkStar 2 1 3 1 1 0 [1] false]
  [0; 1; 2] [0; 1] 3 3 2 2 true.
(** Translation by half a period, four points: the open stars 1 and -1 are cancelled *)
Definition ex4 : basis := mkBasis (mesh1 4)
  [w1 1 0 0 0 0 false; w1 0 1 1 1 2 false; w1 0 3 (-1) 2 1 true; w1 1 2 2 3 3 false]
  [mkStar 1 0 1 0 0 0 [0] false; mkStar 1 1 2 1 (-1) 1 [1] true; mkStar 1 2 3 2 (-1) (-1) [-1] true; mkStar 1 3 4 3 1 0 [2] false]
  [0; 1; 3; 2] [0; 3] 4 2 4 2 true.

Lemma nth_cases : forall (A : Type) (P : A -> nat -> Prop) l, (forall n x, nth_error l n = Some x -> P x n) <->
  (fix go l n := match l with [] => True | x :: r => P x n /\ go r (S n) end) l 0%nat.
Proof.
  intros A P l.
  enough (H : forall k, (forall n x, nth_error l n = Some x -> P x (k + n)%nat) <-> (fix go l n := match l with [] => True | x :: r => P x n /\ go r (S n) end) l k) by exact (H 0%nat).
  induction l as [|y l IH]; intros k.
  - split; auto. intros _ n x E. destruct n; discriminate.
  - split.
    + intros H. split; [specialize (H 0%nat y eq_refl); rewrite Nat.add_0_r in H; auto|].
      apply IH. intros n x E. specialize (H (S n) x E). replace (S k + n)%nat with (k + S n)%nat by lia. auto.
    + intros [H1 H2] n x E. destruct n; [injection E as ->; rewrite Nat.add_0_r; auto|].
      rewrite <- IH in H2. specialize (H2 n x E). replace (k + S n)%nat with (S k + n)%nat by lia. auto.
Qed.
Lemma wAt_cases : forall b (P : Z -> wave -> Prop), (forall n w, nth_error (bWaves b) n = Some w -> P (Z.of_nat n) w) -> forall i w, wAt b i w -> P i w.
Proof. intros b P H i w [H1 H2]. specialize (H _ _ H2). rewrite Z2Nat.id in H by lia. auto. Qed.
Lemma sAt_cases : forall b (P : Z -> star -> Prop), (forall n w, nth_error (bStars b) n = Some w -> P (Z.of_nat n) w) -> forall i w, sAt b i w -> P i w.
Proof. intros b P H i w [H1 H2]. specialize (H _ _ H2). rewrite Z2Nat.id in H by lia. auto. Qed.
Ltac each_wave := match goal with |- forall i w, wAt ?b i w -> @?P i w => apply (wAt_cases b P); apply (proj2 (nth_cases _ (fun w n => P (Z.of_nat n) w) _)); cbn; repeat split; cbn end.
Ltac each_star := match goal with |- forall i w, sAt ?b i w -> @?P i w => apply (sAt_cases b P); apply (proj2 (nth_cases _ (fun w n => P (Z.of_nat n) w) _)); cbn; repeat split; cbn end.
Ltac here i := exists i; repeat split; cbn; auto; try lia; try (left; reflexivity); try (right; reflexivity).

Lemma two_facts : (1 / 10^8 < 1)%R /\ (1 / 10^8 < 1 / sqrt 2)%R.
Proof.
  assert (S : (sqrt 2 < 2)%R) by (rewrite <- (sqrt_square 2) at 2 by lra; apply sqrt_lt_1; lra).
  pose proof Rlt_sqrt2_0. split; [lra|]. apply Rmult_lt_reg_r with (sqrt 2); auto.
  unfold Rdiv. rewrite (Rmult_assoc 1 (/ sqrt 2)), Rinv_l by lra. lra.
Qed.
Local Arguments Cmod : simpl never.
Local Arguments RtoC : simpl never.
Lemma Cmod_pos : forall r, (0 <= r)%R -> Cmod (RtoC r) = r.
Proof. intros r H. rewrite Cmod_R. apply Rabs_pos_eq. auto. Qed.

Ltac g_layout := cbn; repeat match goal with
    | |- layout _ _ _ _ _ [] => apply lay_nil
    | |- layout _ _ _ _ _ (mkStar _ _ _ _ _ 0 _ _ :: _) => apply lay_closed; cbn; try reflexivity; try lia
    | |- layout _ _ _ _ _ (mkStar _ _ _ _ _ 1 _ _ :: _) => apply lay_pair; cbn; try reflexivity; try lia
    end.
Ltac g_box := cbn; intros w H; repeat destruct H as [<-|H]; try contradiction; (apply Forall2_cons; [lia|apply Forall2_nil]).
Ltac g_nodup := cbn; repeat apply NoDup_cons; try apply NoDup_nil; cbn; intuition discriminate.
Ltac g_imp := cbn; intros w H; repeat destruct H as [<-|H]; try contradiction; cbn; split; (discriminate || reflexivity || auto).
Ltac g_star := intros is s iw Hs; revert is s Hs iw; each_star; intros iw H; cbn in H.
Ltac one i := match goal with |- exists w, wAt ?b _ w /\ _ => let w := eval cbn in (nth i (bWaves b) (w1 0 0 0 0 0 false)) in exists w | |- exists s, sAt ?b _ s /\ _ => let s := eval cbn in (nth i (bStars b) (mkStar 0 0 0 0 0 0 [] false)) in exists s end; repeat split; cbn; auto; try lia.
Ltac g_wave := each_wave; match goal with |- exists s, sAt _ ?i s /\ _ => let n := eval cbv in (Z.to_nat i) in one n end.
Ltac g_inv := each_wave; match goal with |- exists s, wAt _ ?i s /\ _ => let n := eval cbv in (Z.to_nat i) in one n end.
Ltac g_partner := intros is s i w w' Hs; revert is s Hs i w w'; each_star; intros i w w' Hw; revert i w Hw w'; each_wave; try discriminate; intros w' E [_ H']; cbn in H'; try discriminate E; injection H' as <-; reflexivity.
Ltac g_coeff := intros is s i w Hs; revert is s Hs i w; each_star; intros i w Hw; revert i w Hw; each_wave; intros E0 E1; try discriminate; rewrite Cmod_pos; try lra; apply Rlt_le; apply Rdiv_lt_0_compat; lra.
Lemma star_ex : forall b is s iw, sAt b is s -> sBegin s <= iw < sEnd s ->
  forallb (fun i => match nth_error (bWaves b) (Z.to_nat i) with Some w => wStar w =? is | None => false end && (0 <=? i)) (range (sBegin s) (sEnd s)) = true ->
  exists w, wAt b iw w /\ wStar w = is.
Proof.
  intros b is s iw Hs H F. rewrite forallb_forall in F. specialize (F iw (proj2 (range_in _ _ _) H)). apply andb_prop in F. destruct F as [F1 F2].
  destruct (nth_error (bWaves b) (Z.to_nat iw)) as [w|] eqn:E; [|discriminate]. exists w. split; [split; auto; lia|lia].
Qed.
Ltac g_stars := intros is s iw Hs H; apply (star_ex _ is s iw Hs H); clear H iw; revert is s Hs; each_star; reflexivity.

Lemma ex6_good : goodBasis ex6.
Proof.
  pose proof two_facts as [T1 T2]; pose proof Rlt_sqrt2_0 as T3; constructor; try reflexivity; try discriminate.
  g_layout. g_box. g_nodup. g_stars. g_wave. g_imp. g_inv. g_partner. g_coeff.
Qed.
Lemma ex3_good : goodBasis ex3.
Proof.
  pose proof two_facts as [T1 T2]; pose proof Rlt_sqrt2_0 as T3; constructor; try reflexivity; try discriminate.
  g_layout. g_box. g_nodup. g_stars. g_wave. g_imp. g_inv. g_partner. g_coeff.
Qed.
Lemma ex4_good : goodBasis ex4.
Proof.
  pose proof two_facts as [T1 T2]; pose proof Rlt_sqrt2_0 as T3; constructor; try reflexivity; try discriminate.
  g_layout. g_box. g_nodup. g_stars. g_wave. g_imp. g_inv. g_partner. g_coeff.
Qed.
Lemma ex_conjugate : conjugate ex6 /\ conjugate ex3 /\ conjugate ex4.
Proof.
  assert (E : forall r, RtoC r = Cconj (RtoC r)) by (intros; unfold Cconj, RtoC; cbn; f_equal; ring).
  repeat split; intros i w w' Hw; revert i w Hw w'; each_wave; intros w' [_ H]; cbn in H; injection H as <-; cbn; apply E.
Qed.
(** The theorems apply to the examples *)
Example ex6_roundtrip : exists k, convertBasisToKGrid [1; 2; 3; 4; 5; 6]%R (repeat (RtoC 7) 4) ex6 [4] = Ok k /\
  convertKGridToBasis k (repeat 8%R 6) ex6 [4] = Ok [1; 2; 3; 4; 5; 6]%R.
Proof. apply (C25_roundtrip ex6 _ (repeat (RtoC 7) 4) _ ex6_good); auto. intros dm H. cbn in H. injection H as <-. reflexivity. Qed.
Example ex4_roundtrip : exists k, convertBasisToKGrid [1; 2]%R (repeat (RtoC 7) 3) ex4 [3] = Ok k /\
  convertKGridToBasis k (repeat 8%R 2) ex4 [3] = Ok [1; 2]%R.
Proof. apply (C25_roundtrip ex4 _ (repeat (RtoC 7) 3) _ ex4_good); auto. intros dm H. cbn in H. injection H as <-. reflexivity. Qed.
(** 2 cos x has the components 0 and sqrt 2 *)
Example ex3_symmetric : symmetric ex3 (mesh1 2) [RtoC 0; RtoC 1] (fun is => if is =? 0 then RtoC 0 else RtoC (sqrt 2)).
Proof.
  pose proof Rlt_sqrt2_0 as T3.
  assert (S2 : RtoC 1 = Cmult (RtoC (sqrt 2)) (RtoC (1 / sqrt 2))) by (rewrite <- RtoC_mult; f_equal; field; lra).
  intros i w s z Hw. revert i w Hw s z. each_wave; intros s z [_ Hs]; cbn in Hs; injection Hs as <-; cbn.
  - intros ->. cbn. ring.
  - intros ->. exact S2.
  - intros [w' [[_ Hw'] ->]]. cbn in Hw'. injection Hw' as <-. rewrite <- S2. change (Cconj (RtoC 1) = RtoC 1). unfold Cconj, RtoC; cbn. f_equal. ring.
Qed.

(** The test passes fields that are not symmetric: of a star and its inverse it sees only
    the stored half.  Here the group contains the inversion and the field is -2 sin x, odd;
    it passes for every tolerance, and the conversion to the basis returns zero. *)
Theorem C59_refuted : exists b dm k, goodBasis b /\ conjugate b /\ setDimensions (halfDims b) = Ok dm /\
  Z.of_nat (length k) = size dm /\ real b dm k /\
  (forall eps, (0 < eps)%R -> hasSymmetry k b (halfDims b) eps = Ok true) /\
  ~ (exists q, symmetric b dm k q) /\
  convertKGridToBasis k (repeat 0%R (Z.to_nat (bNBasis b))) b (halfDims b) = Ok (repeat 0%R (Z.to_nat (bNBasis b))) /\
  exists i w, wAt b i w /\ wImplicit w = false /\ stored dm k w <> RtoC 0.
Proof.
  pose proof Rlt_sqrt2_0 as T3.
  exists ex3, (mesh1 2), [RtoC 0; Ci]. split; [apply ex3_good|]. split; [apply ex_conjugate|]. split; [reflexivity|]. split; [reflexivity|]. split; [|split; [|split; [|split]]].
  - intros i w w' Hw. revert i w Hw w'. each_wave; intros w' [_ Hw']; cbn in Hw'; injection Hw' as <-; cbn; try discriminate.
    intros _ _. change (RtoC 0 = Cconj (RtoC 0)). unfold Cconj, RtoC; cbn. f_equal. ring.
  - intros eps He. unfold ex3, w1. cbv -[Rlt_dec Rlt Cdiv Cminus Cmod RtoC Ci sqrt Rinv Rdiv IZR]. destruct (Rlt_dec 0 eps); [reflexivity|lra].
  - intros [q HS].
    assert (H1 := HS 1 _ (nth 1 (bStars ex3) (mkStar 0 0 0 0 0 0 [] false)) Ci (conj (Zle_bool_imp_le 0 1 eq_refl) eq_refl) (conj (Zle_bool_imp_le 0 1 eq_refl) eq_refl) eq_refl).
    assert (H2 := HS 2 _ (nth 1 (bStars ex3) (mkStar 0 0 0 0 0 0 [] false)) (Cconj Ci) (conj (Zle_bool_imp_le 0 2 eq_refl) eq_refl) (conj (Zle_bool_imp_le 0 1 eq_refl) eq_refl)
      (ex_intro _ _ (conj (conj (Zle_bool_imp_le 0 1 eq_refl) eq_refl) eq_refl))).
    cbn in H1, H2. rewrite <- H1 in H2. unfold Cconj, Ci in H2; cbn in H2. injection H2 as H2. lra.
  - unfold ex3, w1. cbv -[Rlt_dec Rlt Cdiv Cminus Cmod RtoC Ci sqrt Rinv Rdiv IZR]. f_equal. f_equal; [|f_equal]; unfold Cdiv, Cmult, Cinv, RtoC, Ci; cbn; field; try lra; repeat split; try lra; intros H0; nra.
  - exists 1, (nth 1 (bWaves ex3) (w1 0 0 0 0 0 false)). repeat split; try (cbn; lia). unfold stored. cbn. intros H. injection H as H. lra.
Qed.
Print Assumptions C59_refuted.
