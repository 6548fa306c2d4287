(** The coefficients of the waves of a star keep their ratios. *)
From Coq Require Import ZArith QArith Qcanon Qreals Reals Lra Lia List Bool Sorting.Permutation.
From Coquelicot Require Import Complex.
From Verif Require Import Base RSum MeshSpec Mesh MeshProofs PropsMesh Fft FftProofs FieldIo FieldIoProofs Symmetry SymmetryProofs SymmetryAlg PropsSymmetry Basis BasisSpec BasisProofs BasisValid MakeBasis MakeBasisProofs OrbitSpec OrbitPhase OrbitStars.
From Coq Require Import List.
Import ListNotations.
Local Open Scope Z_scope.
Local Open Scope list_scope.

Definition sameW (w w' : wave) : Prop := wDft w' = wDft w /\ wBz w' = wBz w.
Lemma sameW_refl : forall w, sameW w w. Proof. split; auto. Qed.
Lemma sameW_trans : forall a b c, sameW a b -> sameW b c -> sameW a c. Proof. unfold sameW. intros. intuition congruence. Qed.
Lemma sameW_inv : forall w w', w' = withInv w (wInv w') -> sameW w w' /\ wCoeff w' = wCoeff w.
Proof. intros w w' E. rewrite E. repeat split. Qed.
(** Coefficients that occur in a star, and the factor that all of them get *)
Definition coeffs (ws : list wave) (s : star) (c : C) : Prop := exists i w, inR s i /\ wv ws i = Some w /\ c = wCoeff w.
Definition factorOf (P : C -> Prop) (f : C) : Prop := exists c0, P c0 /\
  (f = Cinv c0 \/ exists c1, P c1 /\ f = Cmult (Cinv c0) (Cinv (phasor (Cmult c1 (Cinv c0))))).
Definition kept (ws ws' : list wave) : Prop := forall i w', wv ws' i = Some w' -> exists w, wv ws i = Some w /\ sameW w w'.
Lemma kept_trans : forall a b c, kept a b -> kept b c -> kept a c.
Proof.
  intros a b c H1 H2 i w Hw. destruct (H2 i w Hw) as [w1 [A1 A2]]. destruct (H1 i w1 A1) as [w0 [B1 B2]]. exists w0. split; auto. eapply sameW_trans; eauto.
Qed.
Lemma wv_some : forall A (ws ws' : list A) i w, length ws' = length ws -> wv ws' i = Some w -> exists w0, wv ws i = Some w0.
Proof.
  intros A ws ws' i w HL H. apply wv_range in H. unfold wv. destruct (Z.ltb_spec i 0); [lia|]. destruct (nth_error ws (Z.to_nat i)) eqn:E; [eauto|].
  apply nth_error_None in E. lia.
Qed.
Lemma assignAll_kept : forall m e f js ws ws', assignAll m e f js ws = Ok ws' -> forall i w', wv ws' i = Some w' -> exists w, wv ws i = Some w /\ sameW w w' /\ wCoeff w' = wCoeff w.
Proof.
  intros m e f js ws ws' H i w' Hw'. destruct (assignAll_ok m e f (fun _ => True) js ws ws' H) as [A1 A2]; auto.
  destruct (wv_some _ _ _ _ _ A1 Hw') as [w Hw]. exists w. split; auto. destruct (A2 i w Hw) as [w2 [B1 [B2 _]]]. rewrite Hw' in B1. injection B1 as <-. apply sameW_inv. auto.
Qed.
Lemma setPair_inv : forall ws j k ws' i w w', setPair ws j k = Ok ws' -> wv ws i = Some w -> wv ws' i = Some w' -> wInv w' = wInv w \/ wInv w' = j \/ wInv w' = k.
Proof.
  intros ws j k ws' i w w' H Hw Hw'. unfold setPair in H. inv_bind H. apply modWave_ok in E, H. destruct E as [E1 [_ E2]], H as [H1 [_ H2]].
  rewrite H2, E2, Hw in Hw'. destruct (i =? k), (i =? j); cbn [option_map] in Hw'; injection Hw' as <-; cbn [withInv wInv]; auto.
Qed.
Lemma assignInv_inv : forall m ws j k l ws' (T : Z -> Prop), assignInv m ws j k l = Ok ws' -> T j -> T k -> (forall x, In x l -> T x) ->
  forall i w w', wv ws i = Some w -> wv ws' i = Some w' -> wInv w' = wInv w \/ T (wInv w').
Proof.
  intros m ws j k l ws' T H Tj Tk Tl i w w' Hw Hw'. unfold assignInv in H. inv_bind H. destruct (wInv a <? 0); [|injection H as <-; left; congruence].
  inv_bind H. destruct (eqbL _ _).
  - destruct (setPair_inv _ _ _ _ _ _ _ H Hw Hw') as [?|[->| ->]]; auto.
  - inv_bind H. destruct a1 as [k'|]; [|discriminate]. apply findDft_in in E1. destruct (setPair_inv _ _ _ _ _ _ _ H Hw Hw') as [?|[->| ->]]; auto.
Qed.
Lemma assignAll_inv : forall m e f (T : Z -> Prop) js ws ws', assignAll m e f js ws = Ok ws' -> (forall j, In j js -> T j /\ T (e j) /\ forall x, In x (f j) -> T x) ->
  forall i w w', wv ws i = Some w -> wv ws' i = Some w' -> wInv w' = wInv w \/ T (wInv w').
Proof.
  induction js as [|j js IH]; intros ws ws' H HT i w w' Hw Hw'; cbn [assignAll] in H.
  - injection H as <-. left. congruence.
  - inv_bind H. destruct (HT j (or_introl eq_refl)) as [T1 [T2 T3]]. assert (L := proj1 (assignInv_ok _ _ _ _ _ _ E T T2 T3)).
    destruct (wv_some _ _ _ _ _ (eq_sym L) Hw) as [w1 Hw1].
    destruct (IH _ _ H (fun j0 Hj => HT j0 (or_intror Hj)) i w1 w' Hw1 Hw') as [E1|E1]; auto. rewrite E1. eapply assignInv_inv; eauto.
Qed.

Lemma closedStar_factor : forall m ws s ws' s', closedStar m ws s = Ok (ws', s') -> sBegin s < sEnd s ->
  (forall i w, inR s i -> wv ws i = Some w -> wInv w = -1) ->
  kept ws ws' /\
  (sCancel s = false -> exists f, factorOf (coeffs ws s) f /\
     forall i w w', inR s i -> wv ws i = Some w -> wv ws' i = Some w' -> wCoeff w' = Cmult (wCoeff w) f) /\
  (sCancel s = true -> forall i w', inR s i -> wv ws' i = Some w' -> wCoeff w' = RtoC 0).
Proof.
  intros m ws s ws' s' H HL HU. unfold closedStar in H. inv_bind H. rename a into ws1.
  pose proof (assignAll_kept _ _ _ _ _ _ E) as K1. assert (L1 := assignAll_len _ _ _ _ _ _ E).
  assert (ROOT : forall w, wv ws1 (sBegin s) = Some w -> inR s (wInv w)).
  { intros w Hw. rewrite (range_cons (sBegin s) (sEnd s) HL) in E. cbn [assignAll] in E. inv_bind E. rename a into wsa.
    destruct (wv_some _ _ _ _ _ L1 Hw) as [w0 Hw0].
    assert (Q1 : inR s (sEnd s - 1 - (sBegin s - sBegin s))) by (unfold inR; lia).
    assert (Q2 : forall x, In x (range (sBegin s) (sEnd s)) -> inR s x) by (intros x Hx; apply range_in in Hx; exact Hx).
    destruct (assignInv_ok _ _ _ _ _ _ E0 (inR s) Q1 Q2) as [B1 B2].
    destruct (B2 _ _ Hw0) as [wa [D1 [_ [D2 _]]]]. specialize (D2 eq_refl ltac:(rewrite (HU _ _ (conj (Z.le_refl _) HL) Hw0); lia)).
    destruct (assignAll_inv _ _ _ (inR s) _ _ _ E) with (i := sBegin s) (w := wa) (w' := w) as [X|X]; auto.
    - intros j Hj. apply range_in in Hj. split; [unfold inR; lia|]. split; [unfold inR; lia|]. intros x Hx. apply range_in in Hx. unfold inR; lia.
    - rewrite X. exact D2. }
  clear E. inv_bind H. apply at1_wv in E. rename a into root.
  assert (RI : inR s (sBegin s)) by (unfold inR; lia). pose proof (ROOT _ E) as PR.
  cbn [withBz sCancel sBegin sEnd] in H.
  assert (MK : forall f wsa wsb, modWaves wsa (range (sBegin s) (sEnd s)) (withCoeff f) = Ok wsb -> kept wsa wsb).
  { intros f wsa wsb HM. apply (modWaves_in s) in HM. destruct HM as [M1 [M2 M3]]. intros i w' Hw'.
    destruct (wv_some _ _ _ _ _ M1 Hw') as [w Hw]. exists w. split; auto. destruct (inR_dec s i) as [_ ID].
    destruct ((sBegin s <=? i) && (i <? sEnd s)) eqn:EB.
    - rewrite M2, Hw in Hw' by (apply inR_dec; auto). injection Hw' as <-. split; reflexivity.
    - rewrite M3, Hw in Hw' by (intros X; apply ID in X; congruence). injection Hw' as <-. apply sameW_refl. }
  assert (K1' : kept ws ws1). { intros i w' Hw'. destruct (K1 i w' Hw') as [w [A1 [A2 _]]]. eauto. }
  destruct (sCancel s) eqn:EC.
  - inv_bind H. injection H as <- <-. split; [|split; [discriminate|]]. { eapply kept_trans; [exact K1'|]. eapply MK; eauto. }
    intros _ i w' Hi Hw'. apply (modWaves_in s) in E0. destruct E0 as [_ [M2 _]]. rewrite M2 in Hw' by auto. destruct (wv ws1 i); [|discriminate]. injection Hw' as <-. reflexivity.
  - inv_bind H. rename a into ws2. pose proof (kept_trans _ _ _ K1' (MK _ _ _ E0)) as K2. apply (modWaves_in s) in E0. destruct E0 as [E1 [E2 E3]].
    destruct (K1 _ _ E) as [root0 [R1 [_ R2]]].
    assert (P0 : coeffs ws s (wCoeff root)) by (exists (sBegin s), root0; auto).
    assert (V2 : forall i w w', inR s i -> wv ws i = Some w -> wv ws2 i = Some w' -> wCoeff w' = Cmult (wCoeff w) (Cinv (wCoeff root))).
    { intros i w w' Hi Hw Hw'. rewrite E2 in Hw' by auto. destruct (wv ws1 i) as [w1|] eqn:Ew1; [|discriminate]. injection Hw' as <-. cbn [withCoeff wCoeff].
      destruct (K1 _ _ Ew1) as [w0 [A1 [_ A2]]]. rewrite Hw in A1. injection A1 as <-. rewrite A2. reflexivity. }
    assert (F2 : exists f, factorOf (coeffs ws s) f /\ forall i w w', inR s i -> wv ws i = Some w -> wv ws2 i = Some w' -> wCoeff w' = Cmult (wCoeff w) f).
    { exists (Cinv (wCoeff root)). split; auto. exists (wCoeff root). auto. }
    inv_bind H. inv_check H. inv_check H. destruct (wInv root =? sBegin s); [injection H as <- <-; split; [auto|split; [auto|discriminate]]|].
    inv_bind H. apply at1_wv in E6. inv_check H. destruct (Rlt_dec _ _); [|injection H as <- <-; split; [auto|split; [auto|discriminate]]].
    inv_bind H. injection H as <- <-. split; [eapply kept_trans; [exact K2|eapply MK; eauto]|]. split; [|discriminate].
    intros _. destruct (wv_some _ ws _ _ _ ltac:(rewrite E1; exact L1) E6) as [part0 Hp0]. pose proof (V2 _ _ _ PR Hp0 E6) as VP.
    exists (Cmult (Cinv (wCoeff root)) (Cinv (phasor (Cmult (wCoeff part0) (Cinv (wCoeff root)))))). split.
    + exists (wCoeff root). split; auto. right. exists (wCoeff part0). split; auto. exists (wInv root), part0. auto.
    + intros i w w' Hi Hw Hw'. apply (modWaves_in s) in E8. destruct E8 as [G1 [G2 G3]]. rewrite G2 in Hw' by auto. destruct (wv ws2 i) as [w2|] eqn:Ew2; [|discriminate].
      injection Hw' as <-. cbn [withCoeff wCoeff]. rewrite (V2 _ _ _ Hi Hw Ew2), VP. unfold Cdiv. rewrite Cmult_assoc. reflexivity.
Qed.

Lemma openStars_factor : forall m ws s1 s2 ws' s1' s2', openStars m ws s1 s2 = Ok (ws', s1', s2') ->
  sBegin s1 < sEnd s1 -> sBegin s2 = sEnd s1 -> sEnd s2 - sBegin s2 = sEnd s1 - sBegin s1 ->
  (forall i w, inR s1 i \/ inR s2 i -> wv ws i = Some w -> wInv w = -1) ->
  kept ws ws' /\
  (sCancel s1 = false -> forall s, s = s1 \/ s = s2 -> exists f, factorOf (coeffs ws s) f /\
     forall i w w', inR s i -> wv ws i = Some w -> wv ws' i = Some w' -> wCoeff w' = Cmult (wCoeff w) f) /\
  (sCancel s1 = true -> forall i w', inR s1 i \/ inR s2 i -> wv ws' i = Some w' -> wCoeff w' = RtoC 0) /\ sCancel s1 = sCancel s2.
Proof.
  intros m ws s1 s2 ws' s1' s2' H HL H21 HS HU. unfold openStars in H. inv_check H. inv_check H. apply eqb_prop in E0. inv_bind H.
  assert (DIS : forall i, inR s1 i -> ~ inR s2 i) by (unfold inR; intros; lia). rename a into ws1.
  pose proof (assignAll_kept _ _ _ _ _ _ E1) as K1. assert (L1 := assignAll_len _ _ _ _ _ _ E1).
  assert (QQ : forall j, In j (range (sBegin s1) (sEnd s1)) -> inR s2 (sEnd s2 - 1 - (j - sBegin s1)) /\ (forall x, In x (range (sBegin s2) (sEnd s2)) -> inR s2 x)).
  { intros j Hj. apply range_in in Hj. split; [unfold inR; lia|]. intros x Hx. apply range_in in Hx. exact Hx. }
  assert (ROOT : forall w, wv ws1 (sBegin s1) = Some w -> inR s2 (wInv w)).
  { rewrite (range_cons (sBegin s1) (sEnd s1) HL) in E1. cbn [assignAll] in E1. inv_bind E1. rename a into wsa.
    destruct (QQ (sBegin s1) ltac:(apply range_in; lia)) as [Q1 Q2].
    destruct (assignInv_ok _ _ _ _ _ _ E2 (inR s2) Q1 Q2) as [B1 B2].
    destruct (assignAll_ok m _ _ (inR s2) _ _ _ E1) as [C1 C2].
    { intros j Hj. apply QQ. apply range_in in Hj. apply range_in. lia. }
    intros w Hw. destruct (wv_some _ _ _ _ _ L1 Hw) as [w0 Ew0].
    destruct (B2 _ _ Ew0) as [wa [D1 [_ [D2 _]]]]. destruct (C2 _ _ D1) as [wb [F1 [_ F2]]]. rewrite Hw in F1. injection F1 as <-.
    rewrite F2; [apply D2; auto; rewrite (HU _ w0 (or_introl (conj (Z.le_refl _) HL)) Ew0); lia| |apply DIS; unfold inR; lia].
    rewrite range_in. lia. }
  clear E1. inv_bind H. inv_check H. clear E1. inv_bind H. inv_bind H. apply at1_wv in E1, E3. rename a0 into root, a1 into part.
  cbn [withBz sCancel sBegin sEnd] in H.
  assert (RI : inR s1 (sBegin s1)) by (unfold inR; lia). pose proof (ROOT _ E1) as PR.
  assert (MK : forall s f wsa wsb, modWaves wsa (range (sBegin s) (sEnd s)) (withCoeff f) = Ok wsb -> kept wsa wsb).
  { intros s f wsa wsb HM. apply (modWaves_in s) in HM. destruct HM as [M1 [M2 M3]]. intros i w' Hw'.
    destruct (wv_some _ _ _ _ _ M1 Hw') as [w Hw]. exists w. split; auto. destruct (inR_dec s i) as [_ ID].
    destruct ((sBegin s <=? i) && (i <? sEnd s)) eqn:EB.
    - rewrite M2, Hw in Hw' by (apply inR_dec; auto). injection Hw' as <-. split; reflexivity.
    - rewrite M3, Hw in Hw' by (intros X; apply ID in X; congruence). injection Hw' as <-. apply sameW_refl. }
  assert (K1' : kept ws ws1). { intros i w' Hw'. destruct (K1 i w' Hw') as [w [A1 [A2 _]]]. eauto. }
  destruct (sCancel s1) eqn:EC.
  - inv_bind H. inv_bind H. injection H as <- _ _. split; [|split; [discriminate|split; [|congruence]]].
    { eapply kept_trans; [exact K1'|]. eapply kept_trans; [eapply (MK s1); eauto|eapply (MK s2); eauto]. }
    apply (modWaves_in s1) in E4. apply (modWaves_in s2) in E5. destruct E4 as [_ [F2 _]], E5 as [_ [G2 G3]]. intros _ i w' [Hi|Hi] Hw'.
    + rewrite G3, F2 in Hw' by auto. destruct (wv ws1 i); [|discriminate]. injection Hw' as <-. reflexivity.
    + rewrite G2 in Hw' by auto. match type of Hw' with option_map _ ?o = _ => destruct o; [|discriminate] end. injection Hw' as <-. reflexivity.
  - inv_bind H. inv_bind H. inv_bind H. injection H as <- _ _. split.
    { eapply kept_trans; [exact K1'|]. eapply kept_trans; [eapply (MK s1); eauto|eapply (MK s2); eauto]. }
    apply (modWaves_in s1) in E4. apply (modWaves_in s2) in E6. apply at1_wv in E5.
    destruct E4 as [F1 [F2 F3]], E6 as [G1 [G2 G3]]. destruct (K1 _ _ E1) as [root0 [R1 [_ R2]]].
    assert (N1 : ~ inR s1 (wInv root)) by (intros X; apply (DIS _ X PR)). rewrite F3 in E5 by auto. destruct (K1 _ _ E5) as [part0 [P1 [_ P2]]].
    split; [|split; [discriminate|congruence]]. intros _ s [->| ->].
    + exists (Cinv (wCoeff root)). split; [exists (wCoeff root); split; auto; exists (sBegin s1), root0; auto|].
      intros i w w' Hi Hw Hw'. rewrite G3, F2 in Hw' by auto. destruct (wv ws1 i) as [w1|] eqn:Ew1; [|discriminate]. injection Hw' as <-. cbn [withCoeff wCoeff].
      destruct (K1 _ _ Ew1) as [w0 [A1 [_ A2]]]. rewrite Hw in A1. injection A1 as <-. rewrite A2. reflexivity.
    + exists (Cinv (wCoeff a1)). split; [exists (wCoeff a1); split; auto; exists (wInv root), part0; auto|].
      intros i w w' Hi Hw Hw'. rewrite G2 in Hw' by auto. assert (NI : ~ inR s1 i) by (intros X; apply (DIS _ X Hi)). rewrite F3 in Hw' by auto.
      destruct (wv ws1 i) as [w1|] eqn:Ew1; [|discriminate]. injection Hw' as <-. cbn [withCoeff wCoeff].
      destruct (K1 _ _ Ew1) as [w0 [A1 [_ A2]]]. rewrite Hw in A1. injection A1 as <-. rewrite A2. reflexivity.
Qed.

Lemma factor_ext : forall ws ws' s s' f, (forall i, inR s i -> wv ws' i = wv ws i) -> (forall i, inR s i <-> inR s' i) -> factorOf (coeffs ws s) f -> factorOf (coeffs ws' s') f.
Proof.
  intros ws ws' s s' f H HR [c0 [P0 F]]. assert (G : forall c, coeffs ws s c -> coeffs ws' s' c).
  { intros c (i & w & A & B & E). exists i, w. split; [apply HR; auto|]. rewrite H; auto. }
  exists c0. split; auto. destruct F as [F|(c1 & P1 & F)]; auto. right. exists c1. auto.
Qed.
Lemma doStars_factor : forall m iw l, pairs iw l -> forall ws ahead ws' l', doStars m ws ahead l = Ok (ws', l') ->
  (forall i w, iw <= i -> wv ws i = Some w -> unitary w /\ wInv w = -1) ->
  kept ws ws' /\
  (forall s, In s l -> sCancel s = false -> exists f, factorOf (coeffs ws s) f /\
     forall i w w', inR s i -> wv ws i = Some w -> wv ws' i = Some w' -> wCoeff w' = Cmult (wCoeff w) f) /\
  (forall s, In s l -> sCancel s = true -> forall i w', inR s i -> wv ws' i = Some w' -> wCoeff w' = RtoC 0).
Proof.
  intros m. induction 1 as [iw|iw s r F B L S P IH|iw s1 s2 r F1 F2 B1 L B2 S1 S2 S3 P IH]; intros ws ahead ws' l' H HU.
  - cbn [doStars] in H. injection H as <- <-. split; [|split; intros s []]. intros i w Hw. exists w. split; auto. apply sameW_refl.
  - pose proof H as HALL. cbn [doStars] in H. set (s0 := match ahead with Some v => withBz s v | None => s end) in H.
    assert (SS : sameStar s s0) by (unfold s0; destruct ahead; repeat split).
    destruct SS as [SS1 [SS2 [SS3 [SS4 SS5]]]]. rewrite SS4, F in H. cbn [Z.eqb] in H. inv_bind H. destruct a as [ws1 s1]. cbn [fst snd] in H.
    inv_bind H. destruct a as [ws2 l2]. cbn [fst snd] in H. injection H as <- <-.
    assert (IR : forall i, inR s0 i <-> inR s i) by (intros; unfold inR; rewrite SS2, SS3; tauto).
    assert (U0 : forall i w, inR s0 i -> wv ws i = Some w -> unitary w /\ wInv w = -1).
    { intros i w Hi Hw. apply IR in Hi. apply HU with (i := i); auto. unfold inR in Hi. lia. }
    destruct (closedStar_ok _ _ _ _ _ E) as [A1 [A2 [A3 A4]]]; [rewrite SS2, SS3; lia|intros i w Hi Hw; apply (U0 i w); auto|].
    destruct (closedStar_factor _ _ _ _ _ E) as [C1 [C2 C3]]; [rewrite SS2, SS3; lia|intros i w Hi Hw; apply (U0 i w); auto|].
    assert (HU1 : forall i w, sEnd s <= i -> wv ws1 i = Some w -> unitary w /\ wInv w = -1).
    { intros i w Hi Hw. apply HU with (i := i); [lia|]. rewrite <- A3; auto. rewrite IR. unfold inR. lia. }
    destruct (IH _ _ _ _ E0 HU1) as [D1 [D2 D4]]. destruct (doStars_ok _ _ _ P _ _ _ _ E0 HU1) as [_ [_ [D3 _]]].
    split; [eapply kept_trans; eauto|]. split.
    2:{ intros s' [<-|Hin] HC i w' Hi Hw'; [|apply (D4 s' Hin HC i w' Hi Hw')]. rewrite D3 in Hw' by (unfold inR in Hi; lia). apply (C3 ltac:(congruence) i w'); auto. apply IR. auto. }
    intros s' [<-|Hin] HC.
    + destruct (C2 ltac:(congruence)) as [f [G1 G2]]. exists f. split; [apply (factor_ext ws ws s0 s); auto|].
      intros i w w' Hi Hw Hw'. rewrite D3 in Hw' by (unfold inR in Hi; lia). apply (G2 i w w'); auto. apply IR. auto.
    + destruct (D2 s' Hin HC) as [f [G1 G2]]. pose proof (pairs_after _ _ P s' Hin) as [PA _].
      assert (EQ : forall i, inR s' i -> wv ws1 i = wv ws i). { intros i Hi. apply A3. rewrite IR. unfold inR in *. lia. }
      exists f. split; [apply (factor_ext ws1 ws s' s'); [intros; symmetry; apply EQ; auto|tauto|auto]|].
      intros i w w' Hi Hw Hw'. apply (G2 i w w'); auto. rewrite EQ; auto.
  - cbn [doStars] in H. set (s0 := match ahead with Some v => withBz s1 v | None => s1 end) in H.
    assert (SS : sameStar s1 s0) by (unfold s0; destruct ahead; repeat split).
    destruct SS as [SS1 [SS2 [SS3 [SS4 SS5]]]]. rewrite SS4, F1 in H. cbn [Z.eqb Pos.eqb] in H. inv_bind H. destruct a as [[ws1 s1'] s2']. cbn [fst snd] in H.
    cbn [withBz sFlag] in H. rewrite F2 in H. cbn [Z.eqb Pos.eqb] in H. inv_bind H. inv_bind E0. destruct a0 as [ws2 l2]. injection E0 as <-. cbn [fst snd] in H. injection H as <- <-.
    assert (IR : forall i, inR s0 i <-> inR s1 i) by (intros; unfold inR; rewrite SS2, SS3; tauto).
    assert (U0 : forall i w, inR s0 i \/ inR s2 i -> wv ws i = Some w -> unitary w /\ wInv w = -1).
    { intros i w Hi Hw. rewrite IR in Hi. apply HU with (i := i); auto. unfold inR in Hi. lia. }
    destruct (openStars_ok _ _ _ _ _ _ _ E) as [A1 [A2 [A3 [A4 [A5 A6]]]]]; [rewrite SS2, SS3; lia|congruence|rewrite SS2, SS3; lia|exact U0|].
    destruct (openStars_factor _ _ _ _ _ _ _ E) as [C1 [C2 [C3 C4]]]; [rewrite SS2, SS3; lia|congruence|rewrite SS2, SS3; lia|intros i w Hi Hw; apply (U0 i w); auto|].
    assert (HU1 : forall i w, sEnd s2 <= i -> wv ws1 i = Some w -> unitary w /\ wInv w = -1).
    { intros i w Hi Hw. apply HU with (i := i); [lia|]. rewrite <- A5; auto; rewrite ?IR; unfold inR; lia. }
    destruct (IH _ _ _ _ E1 HU1) as [D1 [D2 D4]]. destruct (doStars_ok _ _ _ P _ _ _ _ E1 HU1) as [_ [_ [D3 _]]].
    split; [eapply kept_trans; eauto|]. split.
    2:{ intros s' Hin HC i w' Hi Hw'. destruct Hin as [<-|[<-|Hin]]; [| |apply (D4 s' Hin HC i w' Hi Hw')]; rewrite D3 in Hw' by (unfold inR in Hi; lia);
        apply (C3 ltac:(congruence) i w'); auto. left. apply IR. auto. }
    intros s' Hin HC. destruct Hin as [<-|[<-|Hin]].
    + destruct (C2 ltac:(congruence) s0 (or_introl eq_refl)) as [f [G1 G2]]. exists f. split; [apply (factor_ext ws ws s0 s1); auto|].
      intros i w w' Hi Hw Hw'. rewrite D3 in Hw' by (unfold inR in Hi; lia). apply (G2 i w w'); auto. apply IR. auto.
    + destruct (C2 ltac:(congruence) s2 (or_intror eq_refl)) as [f [G1 G2]]. exists f. split; auto.
      intros i w w' Hi Hw Hw'. rewrite D3 in Hw' by (unfold inR in Hi; lia). apply (G2 i w w'); auto.
    + destruct (D2 s' Hin HC) as [f [G1 G2]]. pose proof (pairs_after _ _ P s' Hin) as [PA _].
      assert (EQ : forall i, inR s' i -> wv ws1 i = wv ws i). { intros i Hi. apply A5; rewrite ?IR; unfold inR in *; lia. }
      exists f. split; [apply (factor_ext ws1 ws s' s'); [intros; symmetry; apply EQ; auto|tauto|auto]|].
      intros i w w' Hi Hw Hw'. apply (G2 i w w'); auto. rewrite EQ; auto.
Qed.

Lemma normStars_kept : forall l i ws ws', normStars ws i l = Ok ws' -> kept ws ws'.
Proof.
  induction l as [|s l IH]; intros i ws ws' H; cbn [normStars] in H.
  - injection H as <-. intros j w Hw. exists w. split; auto. apply sameW_refl.
  - inv_bind H. apply (modWaves_in s) in E. destruct E as [M1 [M2 M3]]. eapply kept_trans; [|eapply IH; eauto]. intros j w' Hw'.
    destruct (wv_some _ _ _ _ _ M1 Hw') as [w Hw]. exists w. split; auto. destruct (inR_dec s j) as [_ ID].
    destruct ((sBegin s <=? j) && (j <? sEnd s)) eqn:EB.
    + rewrite M2, Hw in Hw' by (apply inR_dec; auto). injection Hw' as <-. split; reflexivity.
    + rewrite M3, Hw in Hw' by (intros X; apply ID in X; congruence). injection Hw' as <-. apply sameW_refl.
Qed.
(** Position in a concatenation *)
Lemma wv_mid : forall A (a b c : list A) i x, wv (a ++ b ++ c) i = Some x -> Z.of_nat (length a) <= i < Z.of_nat (length a) + Z.of_nat (length b) -> In x b.
Proof.
  intros A a b c i x H R. unfold wv in H. destruct (Z.ltb_spec i 0); [lia|]. rewrite nth_error_app2, nth_error_app1 in H by lia. eapply nth_error_In; eauto.
Qed.
Lemma mid_wv : forall A (a b c : list A) x, In x b -> exists i, wv (a ++ b ++ c) i = Some x /\ Z.of_nat (length a) <= i < Z.of_nat (length a) + Z.of_nat (length b).
Proof.
  intros A a b c x H. apply In_nth_error in H. destruct H as [k Hk]. assert (K : (k < length b)%nat) by (apply nth_error_Some; congruence).
  exists (Z.of_nat (length a + k)). split; [|lia]. unfold wv. destruct (Z.ltb_spec (Z.of_nat (length a + k)) 0); [lia|]. rewrite Nat2Z.id, nth_error_app2, nth_error_app1 by lia.
  replace (length a + k - length a)%nat with k by lia. exact Hk.
Qed.
Lemma wv_wAt : forall b i w, wv (bWaves b) i = Some w <-> wAt b i w.
Proof. intros b i w. unfold wv, wAt. destruct (Z.ltb_spec i 0); split; intros H0; try discriminate; [lia|tauto|tauto]. Qed.

Definition fromStar (s : star) (f : C) (w : wave) (t : twave) : Prop :=
  wDft w = tDft t /\ wBz w = tBz t /\ (sCancel s = false -> wCoeff w = tidy (Cmult (Cmult (coeffOf (tPhase t)) f) (RtoC (snorm s)))) /\
  (sCancel s = true -> wCoeff w = RtoC 0).
Lemma star_source : forall ksqOf smin sortNorm m group fuel junk b,
  dimensions m <> [] -> setDimensions (dimensions m) = Ok m -> size m < 2^31 -> group <> [] ->
  (forall l, Permutation (sortNorm l) l) -> images b smin ->
  makeBasis ksqOf smin sortNorm m group fuel junk = Ok b ->
  forall is s, sAt b is s -> exists root st f,
    goodRoot m root /\ starOf ksqOf smin m root group [] false = Ok (st, sCancel s) /\
    (forall i w, wAt b i w -> wStar w = is -> exists t, In t st /\ fromStar s f w t) /\
    (forall t, In t st -> exists i w, wAt b i w /\ wStar w = is /\ fromStar s f w t) /\
    (sCancel s = false -> factorOf (fun c => exists t, In t st /\ c = coeffOf (tPhase t)) f) /\ 0 < sSize s <= 2^31.
Proof.
  intros ksqOf smin sortNorm m group fuel junk b Hne Hm Hsz HG Hsort HI H is s Hs.
  destruct (makeBasis_good _ _ _ _ _ _ _ _ Hne Hm Hsz HG Hsort H) as [GB [BM _]].
  assert (HP : positive (dimensions m)) by (apply (proj1 (mesh_constructible _ Hne)); eauto).
  unfold images in HI. rewrite BM in HI.
  unfold makeBasis in H. inv_bind H. clear a E. inv_bind H. rename a into tw. rename E into Etw.
  pose proof (waves_good ksqOf smin m HP HI sortNorm tw Hsort Hne Hm Etw) as TG.
  destruct tw as [|w0 r0]; [discriminate|]. inv_bind H. destruct a as [[ss ws] [nb nbw]].
  assert (PL : Forall (placed ksqOf smin m group waveOf ws 0) ss).
  { eapply doBlocks_inv; [|exact E]. apply lists_good; inversion TG; auto. }
  apply doBlocks_ok in E; auto. destruct E as [_ [_ A3]].
  inv_bind H. destruct a as [ws1 ss1]. pose proof (doStars_shape _ _ _ _ _ _ E) as [B1 B2]. inv_bind H. rename a into ws2. pose proof (normStars_len _ _ _ _ E0) as B3.
  inv_bind H. rename a into ws3. pose proof (mapM_ok _ _ _ _ _ E1) as [B4 B5]. inv_bind H. rename a into ids. inv_bind H. destruct a as [ss2 sids].
  pose proof (numberStars_ok _ _ _ _ _ _ E3) as [N1 [N2 N3]]. inv_bind H. inv_check H. subst a. injection H as <-.
  pose proof (Forall2_trans_same _ _ _ B2 N1) as SAME.
  pose proof (gb_layout _ GB) as LAY. cbn [bStars bMesh bNBasis] in LAY.
  pose proof (pairs_of_layout _ _ _ _ _ _ LAY _ SAME) as PA.
  assert (HU : forall i w, 0 <= i -> wv ws i = Some w -> unitary w /\ wInv w = -1).
  { intros i w _ Hw. rewrite Forall_forall in A3. apply A3. unfold wv in Hw. destruct (i <? 0); [discriminate|]. eapply nth_error_In; eauto. }
  destruct (doStars_factor _ _ _ PA _ _ _ _ E HU) as [D1 [D2 D3]].
  pose proof (chain_same _ _ _ B2 (pairs_chain _ _ PA)) as CH.
  destruct (normStars_ok _ _ CH _ _ _ E0) as [_ [_ M3]]. pose proof (normStars_kept _ _ _ _ E0) as M4.
  assert (Hin : In s ss2) by (eapply nth_error_In; apply Hs).
  destruct (Forall2_in_r _ _ N1 _ Hin) as [s1 [I1 [J1 [J2 [J3 [J4 J5]]]]]]. destruct (Forall2_in_r _ _ B2 _ I1) as [s0 [I0 [K1 [K2 [K3 [K4 K5]]]]]].
  rewrite Forall_forall in PL. destruct (PL s0 I0) as (root & st & a & c & P1 & P2 & P3 & P4 & P5).
  assert (SN : snorm s1 = snorm s) by (unfold snorm; rewrite J1; reflexivity).
  assert (LS : length (map waveOf (sortBz st)) = length st) by (rewrite map_length; apply Permutation_length, sortBz_perm).
  assert (RG : forall i, inR s0 i <-> Z.of_nat (length a) <= i < Z.of_nat (length a) + Z.of_nat (length (map waveOf (sortBz st)))) by (intros i; unfold inR; rewrite LS; lia).
  assert (SRC : forall i w, inR s0 i -> wv ws i = Some w -> exists t, In t st /\ w = waveOf t).
  { intros i w Hi Hw. rewrite P3 in Hw. apply RG in Hi. apply wv_mid in Hw; auto. apply in_map_iff in Hw. destruct Hw as [t [T1 T2]]. exists t.
    split; auto. eapply Permutation_in; [apply sortBz_perm|exact T2]. }
  assert (FAC : exists f, (sCancel s = false -> factorOf (coeffs ws s0) f /\
     forall i w w', inR s0 i -> wv ws i = Some w -> wv ws1 i = Some w' -> wCoeff w' = Cmult (wCoeff w) f)).
  { destruct (sCancel s) eqn:EC; [exists (RtoC 0); discriminate|]. destruct (D2 s0 I0 ltac:(congruence)) as [f Hf]. exists f. auto. }
  destruct FAC as [f FAC].
  assert (BACK : forall i w, inR s0 i -> wv ws3 i = Some w -> exists w0, wv ws i = Some w0 /\ wDft w = wDft w0 /\ wBz w = wBz w0 /\
     (sCancel s = false -> wCoeff w = tidy (Cmult (Cmult (wCoeff w0) f) (RtoC (snorm s)))) /\ (sCancel s = true -> wCoeff w = RtoC 0)).
  { intros i w Hi Hw. destruct (B5 _ _ Hw) as [x [X1 X2]]. unfold finishWave in X2. inv_check X2. injection X2 as <-. cbn [wDft wBz wCoeff].
    destruct (M4 _ _ X1) as [y [Y1 [Y2 Y3]]]. destruct (M3 s1 i x I1) as [y' [Y4 Y5]]; auto. { unfold inR in *. lia. }
    rewrite Y1 in Y4. injection Y4 as <-. destruct (D1 _ _ Y1) as [z [Z1 [Z2 Z3]]]. exists z. split; auto. split; [congruence|]. split; [congruence|]. split.
    2:{ intros HC. rewrite Y5, (D3 s0 I0 ltac:(congruence) i y Hi Y1). rewrite Cmult_0_l. unfold tidy, RtoC. cbn [fst snd]. destruct (Rlt_dec _ _); cbn [fst snd]; destruct (Rlt_dec _ _); reflexivity. }
    intros HC. destruct (FAC HC) as [_ F2]. rewrite Y5, (F2 i z y Hi Z1 Y1), SN. reflexivity. }
  assert (IS : forall i, inR s0 i <-> sBegin s <= i < sEnd s) by (intros i; unfold inR; lia).
  exists root, st, f. split; auto. split; [rewrite P2; congruence|]. split; [|split; [|split]].
  - intros i w Hw Hst. destruct (gb_wave _ GB i w Hw) as [s' [S1 S2]]. rewrite Hst in S1. rewrite (sAt_fun _ _ _ _ S1 Hs) in S2.
    apply wv_wAt in Hw. cbn [bWaves] in Hw. apply IS in S2. destruct (BACK i w S2 Hw) as [w' [W1 [W2 [W3 [W4 W5]]]]]. destruct (SRC i w' S2 W1) as [t [T1 ->]].
    exists t. split; auto. split; auto.
  - intros t Ht. destruct (mid_wv _ a (map waveOf (sortBz st)) c (waveOf t)) as [i [V1 V2]].
    { apply in_map. eapply Permutation_in; [apply Permutation_sym, sortBz_perm|exact Ht]. }
    rewrite <- P3 in V1. apply RG in V2. destruct (gb_star _ GB is s i Hs) as [w [W1 W2]]; [apply IS; auto|]. exists i, w. split; auto. split; auto.
    apply wv_wAt in W1. cbn [bWaves] in W1. destruct (BACK i w V2 W1) as [w' [X1 [X2 [X3 [X4 X5]]]]]. rewrite V1 in X1. injection X1 as <-. split; auto.
  - intros HC. destruct (FAC HC) as [[c0 [F1 F2]] _].
    assert (G : forall x, coeffs ws s0 x -> exists t, In t st /\ x = coeffOf (tPhase t)).
    { intros x (i & w & G1 & G2 & ->). destruct (SRC i w G1 G2) as [t [T1 ->]]. exists t. auto. }
    exists c0. split; [apply G; auto|]. destruct F2 as [F2|(c1 & F2 & F3)]; auto. right. exists c1. auto.
  - pose proof (pairs_after _ _ PA s0 I0) as [Q1 Q2].
    destruct (gb_star _ GB is s (sEnd s - 1) Hs ltac:(lia)) as [w [Hw _]]. apply wAt_range in Hw. rewrite (gb_nwave _ GB), BM in Hw.
    assert (S0 : sSize s0 = sEnd s0 - sBegin s0).
    { clear -PA I0. induction PA as [|iw s r F B L S P IH|iw s1 s2 r F1 F2 B1 L B2 S1 S2 S3 P IH]; [destruct I0|destruct I0 as [<-|I0]; auto|].
      destruct I0 as [<-|[<-|I0]]; auto. }
    lia.
Qed.
