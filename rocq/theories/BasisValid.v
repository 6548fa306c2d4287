(** A basis that passes isValid and whose stars are numbered in order is a good basis. *)
From Coq Require Import ZArith Reals List Bool Lia Lra FinFun.
From Coquelicot Require Import Complex.
From Verif Require Import Base MeshSpec Mesh MeshProofs PropsMesh FieldIo FieldIoProofs Basis BasisSpec BasisProofs.
From Coq Require Import List.
Import ListNotations.
Local Open Scope Z_scope.
Local Open Scope list_scope.

Lemma bind_ok : forall A B (e : outcome A) (f : A -> outcome B) r, bind e f = Ok r -> exists a, e = Ok a /\ f a = Ok r.
Proof. intros A B [a| | |] f r H; cbn in H; try discriminate. eauto. Qed.
Lemma test_ok : forall (c : bool) f, (if c then f else Ok false) = Ok true -> c = true /\ f = Ok true.
Proof. intros [] f H; auto. discriminate. Qed.
Lemma check_ok : forall A (c : bool) (f : outcome A) r, (check c ;; f) = Ok r -> c = true /\ f = Ok r.
Proof. intros A [] f r H; cbn in H; auto. discriminate. Qed.
Ltac inv_bind H := let a := fresh "a" in let E := fresh "E" in apply bind_ok in H; destruct H as [a [E H]].
Ltac inv_test H := let E := fresh "E" in apply test_ok in H; destruct H as [E H].
Ltac inv_check H := let E := fresh "E" in apply check_ok in H; destruct H as [E H].

Lemma loopB_true : forall A (f : A -> outcome bool) l, loopB f l = Ok true <-> (forall x, In x l -> f x = Ok true).
Proof.
  induction l as [|x l IH]; cbn [loopB].
  - split; auto. intros _ y [].
  - destruct (f x) as [[]| | |] eqn:E; cbn [bind]; split; intros H; try discriminate.
    + intros y [<-|Hy]; auto. apply (proj1 IH H y Hy).
    + apply IH. intros y Hy. apply H. right; auto.
    + specialize (H x (or_introl eq_refl)). congruence.
    + specialize (H x (or_introl eq_refl)). congruence.
    + specialize (H x (or_introl eq_refl)). congruence.
    + specialize (H x (or_introl eq_refl)). congruence.
Qed.
Lemma eqbL_eq : forall a c, eqbL a c = true <-> a = c.
Proof.
  induction a as [|x a IH]; intros [|y c]; cbn [eqbL]; split; intros H; try discriminate; auto.
  - apply andb_prop in H. destruct H as [H1 H2]. apply Z.eqb_eq in H1. apply IH in H2. congruence.
  - injection H as -> ->. rewrite Z.eqb_refl. apply (proj2 (IH c) eq_refl).
Qed.
Lemma at1_wAt : forall b i w, at1 (bWaves b) i = Ok w -> wAt b i w.
Proof. intros b i w H. apply at1_spec in H. exact H. Qed.
Lemma at1_sAt : forall b i s, at1 (bStars b) i = Ok s -> sAt b i s.
Proof. intros b i w H. apply at1_spec in H. exact H. Qed.

(** mShift and negation *)
Lemma shift_neg_shift : forall dims v, positive dims -> length (fst (shift dims v)) = length dims ->
  fst (shift dims (vNeg v)) = fst (shift dims (vNeg (fst (shift dims v)))).
Proof.
  intros dims v HP. revert v. induction HP as [|d ds Hd _ IH]; intros v HL; destruct v as [|p v]; auto.
  cbn [shift] in *. destruct (Mesh.shift1 d p) as [p' sp] eqn:E1. destruct (shift ds v) as [v' sv] eqn:E2.
  cbn [fst vNeg map shift]. cbn [fst length] in HL. specialize (IH v). rewrite E2 in IH. cbn [fst] in IH.
  destruct (Mesh.shift1 d (- p)) as [a sa] eqn:E3. destruct (Mesh.shift1 d (- p')) as [c sc] eqn:E4.
  destruct (shift ds (map Z.opp v)) as [b1 b2] eqn:E5. destruct (shift ds (map Z.opp v')) as [c1 c2] eqn:E6.
  cbn [fst]. unfold vNeg in IH. rewrite E5, E6 in IH. cbn [fst] in IH. f_equal; [|apply IH; lia].
  apply mesh_shift_coordinate in E1; auto. apply mesh_shift_coordinate in E3; auto. apply mesh_shift_coordinate in E4; auto.
  assert (a - c = d * (sc - sa - sp)) by lia.
  assert (sc - sa - sp = 0) by nia. nia.
Qed.
Lemma shift_box : forall dims v, positive dims -> length (fst (shift dims v)) = length dims -> in_box dims (fst (shift dims v)).
Proof.
  intros dims v HP. revert v. induction HP as [|d ds Hd _ IH]; intros v HL.
  - destruct v; constructor.
  - destruct v as [|p v]; cbn [shift] in *; [discriminate|].
    destruct (Mesh.shift1 d p) as [p' sp] eqn:E1. specialize (IH v). destruct (shift ds v) as [v' sv]. cbn [fst length] in *.
    apply mesh_shift_coordinate in E1; auto. constructor; [tauto|apply IH; lia].
Qed.

Lemma map_NoDup_in : forall A B (f : A -> B) l, (forall x y, In x l -> In y l -> f x = f y -> x = y) -> NoDup l -> NoDup (map f l).
Proof.
  intros A B f l. induction l as [|a l IH]; intros HI HN; cbn [map]; constructor; inversion HN; subst.
  - intros H. apply in_map_iff in H. destruct H as [y [E Hy]]. apply HI in E; [|right; auto|left; auto]. subst. contradiction.
  - apply IH; auto. intros x y Hx Hy. apply HI; right; auto.
Qed.
Fixpoint countB (l : list star) : Z := match l with [] => 0 | s :: r => (if sCancel s then 0 else 1) + countB r end.
Lemma countB_app : forall a c, countB (a ++ c) = countB a + countB c.
Proof. induction a; intros; cbn [app countB]; auto. rewrite IHa. lia. Qed.

(** isValid does not look at isInitialized_. *)
Definition setInit (b : basis) (i : bool) : basis :=
  mkBasis (bMesh b) (bWaves b) (bStars b) (bWaveIds b) (bStarIds b) (bNWave b) (bNBasisWave b) (bNStar b) (bNBasis b) i.
Lemma validPairs_init : forall fuel b i is, validPairs fuel (setInit b i) is = validPairs fuel b is.
Proof.
  induction fuel as [|fuel IH]; intros; cbn [validPairs]; auto.
  cbn [setInit bNStar bStars]. destruct (is <? bNStar b); auto. destruct (at1 (bStars b) is) as [a| | |]; auto. cbn [bind].
  destruct (sFlag a =? 0).
  - change (validInverse (setInit b i) is a) with (validInverse b is a). destruct (validInverse b is a) as [[]| | |]; cbn [bind]; auto.
  - destruct (sFlag a =? 1); auto. destruct (at1 (bStars b) (is + 1)) as [a0| | |]; auto. cbn [bind]. destruct (sFlag a0 =? -1); auto.
    destruct (sSize a0 =? sSize a); auto. destruct (Bool.eqb (sCancel a0) (sCancel a)); auto.
    change (validInverse (setInit b i) (is + 1) a) with (validInverse b (is + 1) a). destruct (validInverse b (is + 1) a) as [[]| | |]; cbn [bind]; auto.
Qed.
Lemma isValid_init : forall ksqOf smin b i, isValid ksqOf smin (setInit b i) = isValid ksqOf smin b.
Proof. intros. unfold isValid. rewrite validPairs_init. reflexivity. Qed.

Section Valid.
Variables (ksqOf : list Z -> R) (smin : list Z -> list Z) (b : basis).
Hypothesis HV : isValid ksqOf smin b = Ok true.
Hypothesis Hinit : bInit b = true.
Hypothesis Hne : dimensions (bMesh b) <> [].
Hypothesis Hmesh : setDimensions (dimensions (bMesh b)) = Ok (bMesh b).
Hypothesis Hnw : Z.of_nat (length (bWaves b)) = size (bMesh b).
Hypothesis Hns : bNStar b = Z.of_nat (length (bStars b)).
Hypothesis Hpos : forall s, In s (bStars b) -> 0 < sSize s.
(** stars are numbered in order *)
Hypothesis Hnum : forall done s r, bStars b = done ++ s :: r -> sBasis s = if sCancel s then -1 else countB done.
Hypothesis Hnb : bNBasis b = countB (bStars b).
Hypothesis Himp : forall w, In w (bWaves b) -> (wImplicit w = true <-> Z.quot (last (dimensions (bMesh b)) 0) 2 < last (wDft w) 0).
Hypothesis Hco : forall is s i w, sAt b is s -> wAt b i w -> wStar w = is -> sCancel s = false -> (1 / 10^8 < Cmod (wCoeff w))%R.

Let n := size (bMesh b).
Lemma v_positive : positive (dimensions (bMesh b)).
Proof. apply (proj1 (mesh_constructible _ Hne)). eexists. apply Hmesh. Qed.

Lemma v_parts : validIds b = Ok true /\ (forall iw, 0 <= iw < n -> validWave ksqOf b iw = Ok true) /\
  (forall is, 0 <= is < bNStar b -> validStar smin b is = Ok true) /\
  (exists s, sAt b (bNStar b - 1) s /\ sEnd s = n) /\ sumSizes (bStars b) = n /\ validPairs (Z.to_nat (bNStar b)) b 0 = Ok true.
Proof.
  pose proof HV as H. unfold isValid in H. inv_test H. apply Z.eqb_eq in E. inv_bind H. inv_test H. subst a. inv_bind H. inv_test H. subst a. inv_bind H. inv_test H. subst a.
  inv_bind H. inv_test H. inv_test H. inv_bind H. inv_test H. subst.
  split; auto. split; [|split; [|split; [|split]]]; auto.
  - intros iw Hi. apply (proj1 (loopB_true _ _ _) E1). apply range_in. rewrite E. exact Hi.
  - intros is Hi. apply (proj1 (loopB_true _ _ _) E2). apply range_in. exact Hi.
  - exists a. split; [apply at1_sAt; auto|]. apply Z.eqb_eq in E4. exact E4.
  - apply Z.eqb_eq in E5. exact E5.
Qed.
Lemma v_wave : forall iw w, wAt b iw w -> exists s w', mShift (bMesh b) (wBz w) = wDft w /\ sAt b (wStar w) s /\
  sBegin s <= iw < sEnd s /\ wAt b (wInv w) w' /\ wDft w' = mShift (bMesh b) (vNeg (wBz w)) /\ wInv w' = iw /\
  (wImplicit w = false \/ wImplicit w' = false).
Proof.
  intros iw w Hw. pose proof (wAt_range _ _ _ Hw) as R. destruct v_parts as [_ [H _]]. specialize (H iw ltac:(unfold n; lia)).
  unfold validWave in H. rewrite (wAt_at1 _ _ _ Hw) in H. cbn [bind] in H. inv_test H. inv_test H. inv_bind H. inv_test H. inv_test H. inv_test H. inv_bind H. inv_test H. inv_test H.
  apply eqbL_eq in E0, E6. apply Z.leb_le in E2, E4. apply Z.ltb_lt in E3. apply Z.eqb_eq in E7.
  exists a, a0. split; auto. split; [apply at1_sAt; auto|]. split; [lia|]. split; [apply at1_wAt; auto|]. split; auto. split; auto.
  injection H as H. destruct (wImplicit w), (wImplicit a0); auto; discriminate.
Qed.
Lemma v_star : forall is s, sAt b is s -> sSize s = sEnd s - sBegin s /\ sStar s = is /\
  (0 < is -> exists s0, sAt b (is - 1) s0 /\ sBegin s = sEnd s0) /\
  (forall iw, sBegin s <= iw < sEnd s -> exists w, wAt b iw w /\ wStar w = is).
Proof.
  intros is s Hs. assert (R : 0 <= is < bNStar b).
  { destruct Hs as [H1 H2]. assert (Z.to_nat is < length (bStars b))%nat by (apply nth_error_Some; congruence). lia. }
  destruct v_parts as [_ [_ [H _]]]. specialize (H is R). unfold validStar in H. rewrite (sAt_at1 _ _ _ Hs) in H. cbn [bind] in H.
  inv_test H. apply Z.eqb_eq in E. inv_bind H. inv_test H. subst a. inv_bind H. inv_test H. inv_bind H. inv_test H. inv_test H. subst. apply Z.eqb_eq in E5.
  split; auto. split; auto. split.
  - intros Hp. destruct (Z.ltb_spec 0 is); [|lia]. inv_bind E0. injection E0 as E0. apply Z.eqb_eq in E0. exists a. split; auto. apply at1_sAt; auto.
  - intros iw Hi. apply (proj1 (loopB_true _ _ _)) with (x := iw) in E3; [|apply range_in; auto]. inv_bind E3. injection E3 as E3. apply Z.eqb_eq in E3.
    exists a. split; auto. apply at1_wAt; auto.
Qed.
Lemma v_le : forall is s, sAt b is s -> sBegin s < sEnd s <= n.
Proof.
  intros is s Hs. destruct (v_star is s Hs) as [S1 [_ [_ S4]]]. assert (0 < sSize s) by (apply Hpos; eapply nth_error_In; apply Hs).
  split; [lia|]. destruct (S4 (sEnd s - 1) ltac:(lia)) as [w [Hw _]]. apply wAt_range in Hw. unfold n. lia.
Qed.

Definition startOf (l : list star) : Z := match l with [] => n | s :: _ => sBegin s end.
Lemma start_next : forall done s r, bStars b = done ++ s :: r -> startOf r = sEnd s.
Proof.
  intros done s r HB. pose proof (layout_at b done _ HB s r eq_refl) as Hs. destruct r as [|s' r]; cbn [startOf].
  - destruct v_parts as [_ [_ [_ [[s' [Hs' E]] _]]]]. rewrite Hns, HB, app_length in Hs'. cbn [length] in Hs'.
    replace (Z.of_nat (length done + 1) - 1) with (Z.of_nat (length done)) in Hs' by lia. rewrite (sAt_fun _ _ _ _ Hs Hs'). auto.
  - assert (HB' : bStars b = (done ++ [s]) ++ s' :: r) by (rewrite <- app_assoc; exact HB).
    pose proof (layout_at b _ _ HB' s' r eq_refl) as Hs'. rewrite app_length in Hs'. cbn [length] in Hs'.
    destruct (v_star _ _ Hs') as [_ [_ [S _]]]. destruct (S ltac:(lia)) as [s0 [Hs0 E]].
    replace (Z.of_nat (length done + 1) - 1) with (Z.of_nat (length done)) in Hs0 by lia. rewrite (sAt_fun _ _ _ _ Hs Hs0). auto.
Qed.
Lemma sum_start : forall l done, bStars b = done ++ l -> sumSizes l = n - startOf l.
Proof.
  induction l as [|s l IH]; intros done HB; cbn [sumSizes].
  - cbn [startOf]. lia.
  - rewrite (IH (done ++ [s])) by (rewrite <- app_assoc; exact HB). rewrite (start_next _ _ _ HB). cbn [startOf].
    pose proof (layout_at b done _ HB s l eq_refl) as Hs. destruct (v_star _ _ Hs) as [S1 _]. lia.
Qed.
Lemma start_zero : startOf (bStars b) = 0.
Proof. pose proof (sum_start (bStars b) [] eq_refl) as H. destruct v_parts as [_ [_ [_ [_ [S _]]]]]. lia. Qed.

(** Kinds of stars *)
Definition inverseIn (s : star) (is' : Z) : Prop := forall iw w w', sBegin s <= iw < sEnd s -> wAt b iw w -> wAt b (wInv w) w' -> wStar w' = is'.
Lemma v_inverse : forall is s, validInverse b is s = Ok true -> inverseIn s is.
Proof.
  intros is s H iw w w' Hi Hw Hw'. unfold validInverse in H. apply (proj1 (loopB_true _ _ _)) with (x := iw) in H; [|apply range_in; auto].
  rewrite (wAt_at1 _ _ _ Hw) in H. cbn [bind] in H. rewrite (wAt_at1 _ _ _ Hw') in H. cbn [bind] in H. inv_test H. apply Z.eqb_eq in E. auto.
Qed.
Definition kind (is : Z) (s : star) : Prop :=
  (sFlag s = 0 /\ inverseIn s is) \/
  (sFlag s = 1 /\ exists s1, sAt b (is + 1) s1 /\ sFlag s1 = -1 /\ sSize s1 = sSize s /\ sCancel s1 = sCancel s /\ inverseIn s (is + 1)) \/
  (sFlag s = -1 /\ exists s0, sAt b (is - 1) s0 /\ sFlag s0 = 1 /\ sSize s = sSize s0 /\ inverseIn s0 is).

Lemma v_layout : forall fuel is l done, validPairs fuel b is = Ok true -> bStars b = done ++ l -> Z.of_nat (length done) = is ->
  layout n (bNBasis b) is (startOf l) (countB done) l /\ (forall j s, is <= j -> sAt b j s -> kind j s).
Proof.
  induction fuel as [|fuel IH]; intros is l done H HB HD.
  - cbn [validPairs] in H. destruct (Z.ltb_spec is (bNStar b)) as [Hlt|Hlt]; [discriminate|]. rewrite Hns, HB, app_length in Hlt.
    destruct l; [|cbn [length] in Hlt; lia]. rewrite app_nil_r in HB. split.
    + cbn [startOf]. rewrite <- HB, <- Hnb. apply lay_nil.
    + intros j s Hj [_ Hs]. rewrite HB in Hs. assert (Z.to_nat j < length done)%nat by (apply nth_error_Some; congruence). lia.
  - cbn [validPairs] in H. destruct (Z.ltb_spec is (bNStar b)) as [Hlt|Hlt].
    + destruct l as [|s r]; [rewrite Hns, HB, app_nil_r in Hlt; lia|].
      pose proof (layout_at b done _ HB s r eq_refl) as Hs. rewrite HD in Hs. rewrite (sAt_at1 _ _ _ Hs) in H. cbn [bind] in H.
      assert (HB1 : bStars b = (done ++ [s]) ++ r) by (rewrite <- app_assoc; exact HB).
      assert (HD1 : Z.of_nat (length (done ++ [s])) = is + 1) by (rewrite app_length; cbn [length]; lia).
      destruct (v_star is s Hs) as [S1 [S2 _]]. pose proof (v_le is s Hs) as S3. pose proof (Hnum _ _ _ HB) as S4. pose proof (start_next _ _ _ HB) as S5.
      destruct (Z.eqb_spec (sFlag s) 0) as [F|F].
      * inv_bind H. inv_test H. subst a. apply v_inverse in E. destruct (IH _ _ _ H HB1 HD1) as [L K]. split.
        -- cbn [startOf]. apply lay_closed; auto; try lia. rewrite S5, countB_app in L. cbn [countB] in L.
           replace (countB done + ((if sCancel s then 0 else 1) + 0)) with (if sCancel s then countB done else countB done + 1) in L by (destruct (sCancel s); lia). exact L.
        -- intros j s' Hj Hs'. destruct (Z.eq_dec j is) as [->|Ne]; [|apply K; auto; lia]. rewrite (sAt_fun _ _ _ _ Hs' Hs). left. auto.
      * inv_test H. apply Z.eqb_eq in E. inv_bind H. inv_test H. inv_test H. inv_test H. inv_bind H. inv_test H. subst a0.
        apply Z.eqb_eq in E1, E2. apply eqb_prop in E3. apply at1_sAt in E0. apply v_inverse in E4.
        destruct r as [|s2 r]; [destruct E0 as [_ E0]; rewrite HB1, app_nil_r in E0; assert (Z.to_nat (is + 1) < length (done ++ [s]))%nat by (apply nth_error_Some; congruence); lia|].
        pose proof (layout_at b _ _ HB1 s2 r eq_refl) as Hs2. rewrite HD1 in Hs2. rewrite (sAt_fun _ _ _ _ E0 Hs2) in *.
        assert (HB2 : bStars b = (done ++ [s; s2]) ++ r) by (rewrite <- app_assoc; exact HB).
        assert (HD2 : Z.of_nat (length (done ++ [s; s2])) = is + 2) by (rewrite app_length; cbn [length]; lia).
        destruct (v_star _ s2 Hs2) as [Q1 [Q2 _]]. pose proof (v_le _ s2 Hs2) as Q3. pose proof (Hnum _ _ _ HB1) as Q4. pose proof (start_next _ _ _ HB1) as Q5. cbn [startOf] in S5.
        destruct (IH _ _ _ H HB2 HD2) as [L K]. split.
        -- rewrite Q5, countB_app in L. cbn [countB] in L. rewrite countB_app in Q4. cbn [countB] in Q4. rewrite E3 in L, Q4.
           replace (countB done + ((if sCancel s then 0 else 1) + ((if sCancel s then 0 else 1) + 0))) with (if sCancel s then countB done else countB done + 2) in L by (destruct (sCancel s); lia).
           cbn [startOf]. apply lay_pair; auto; try lia. rewrite Q4. destruct (sCancel s); lia.
        -- intros j s' Hj Hs'. destruct (Z.eq_dec j is) as [->|Ne].
           { rewrite (sAt_fun _ _ _ _ Hs' Hs). right; left. split; auto. exists s2. auto 6. }
           destruct (Z.eq_dec j (is + 1)) as [->|Ne']; [|apply K; auto; lia]. rewrite (sAt_fun _ _ _ _ Hs' Hs2). right; right. split; auto.
           exists s. replace (is + 1 - 1) with is by lia. auto 6.
    + rewrite Hns, HB, app_length in Hlt.
      destruct l; [|cbn [length] in Hlt; lia]. rewrite app_nil_r in HB. split.
      * cbn [startOf]. rewrite <- HB, <- Hnb. apply lay_nil.
      * intros j s Hj [_ Hs]. rewrite HB in Hs. assert (Z.to_nat j < length done)%nat by (apply nth_error_Some; congruence). lia.
Qed.
Lemma v_points : let pts := map (fun r => position (bMesh b) r) (zseq 0 (Z.to_nat n)) in
  NoDup pts /\ incl pts (map wDft (bWaves b)) /\ length pts = length (bWaves b) /\ (forall p, In p pts -> in_box (dimensions (bMesh b)) p).
Proof.
  intros pts. destruct (mesh_rank_position_bijection _ _ Hne Hmesh) as [_ [_ [_ B]]].
  assert (IN : forall r, In r (zseq 0 (Z.to_nat n)) -> 0 <= r < n).
  { intros r H. apply in_map_iff in H. destruct H as [i [<- H]]. apply in_seq in H. lia. }
  split; [|split; [|split]].
  - apply map_NoDup_in.
    + intros x y Hx Hy E. rewrite <- (proj2 (B x (IN x Hx))), <- (proj2 (B y (IN y Hy))), E. reflexivity.
    + unfold zseq. apply Injective_map_NoDup; [intros x y; lia|apply seq_NoDup].
  - destruct v_parts as [H _]. unfold validIds in H.
    rewrite (proj1 (mesh_iterator_visits_all_in_order _ _ (Z.to_nat (size (bMesh b))) Hne Hmesh) ltac:(lia)) in H. cbn [bind] in H.
    intros p Hp. apply (proj1 (loopB_true _ _ _)) with (x := p) in H.
    + inv_bind H. inv_bind H. injection H as H. apply eqbL_eq in H. subst p. apply in_map. eapply wAt_in. apply at1_wAt. eauto.
    + unfold pts in Hp. rewrite map_map. cbn [snd]. exact Hp.
  - unfold pts, zseq. rewrite !map_length, seq_length. unfold n. lia.
  - intros p Hp. apply in_map_iff in Hp. destruct Hp as [r [<- Hr]]. apply B. apply IN. auto.
Qed.
(** The second star of a pair *)
Lemma second_star : forall is s s0, sAt b is s -> sAt b (is - 1) s0 -> sSize s = sSize s0 -> inverseIn s0 is ->
  inverseIn s (is - 1).
Proof.
  intros is s s0 Hs Hs0 HS HI iw w w' Hi Hw Hw'.
  destruct (v_star is s Hs) as [S1 [_ [_ S2]]]. destruct (v_star _ s0 Hs0) as [T1 [_ [_ T2]]].
  pose (inv := fun i => match nth_error (bWaves b) (Z.to_nat i) with Some v => wInv v | None => -1 end).
  assert (INV : forall i v, wAt b i v -> inv i = wInv v) by (intros i v [_ H]; unfold inv; rewrite H; auto).
  assert (NR : forall lo hi, NoDup (range lo hi)).
  { intros lo hi. unfold range. apply Injective_map_NoDup; [intros x y; lia|apply seq_NoDup]. }
  assert (LR : forall lo hi, length (range lo hi) = Z.to_nat (hi - lo)) by (intros; unfold range; rewrite map_length, seq_length; auto).
  assert (I1 : forall i, In i (range (sBegin s0) (sEnd s0)) -> exists v v', wAt b i v /\ wStar v = is - 1 /\ wAt b (wInv v) v' /\ wInv v' = i /\ sBegin s <= wInv v < sEnd s).
  { intros i Hin. apply range_in in Hin. destruct (T2 i Hin) as [v [Hv V1]]. destruct (v_wave i v Hv) as [_ [v' [_ [_ [_ [V2 [_ [V3 _]]]]]]]].
    exists v, v'. split; auto. split; auto. split; auto. split; auto. destruct (v_wave _ v' V2) as [s' [_ [_ [V4 [V5 _]]]]]; rewrite (HI i v v' Hin Hv V2) in V4; rewrite (sAt_fun _ _ _ _ V4 Hs) in V5; lia. }
  assert (ND : NoDup (map inv (range (sBegin s0) (sEnd s0)))).
  { apply map_NoDup_in; [|apply NR]. intros x y Hx Hy E.
    destruct (I1 x Hx) as [v [v' [V1 [_ [V2 [V3 _]]]]]]. destruct (I1 y Hy) as [u [u' [U1 [_ [U2 [U3 _]]]]]].
    rewrite (INV _ _ V1), (INV _ _ U1) in E. rewrite E in V2. rewrite (wAt_fun _ _ _ _ V2 U2) in V3. congruence. }
  assert (INC : incl (range (sBegin s) (sEnd s)) (map inv (range (sBegin s0) (sEnd s0)))).
  { apply NoDup_length_incl; auto.
    - rewrite map_length, !LR. lia.
    - intros k Hk. apply in_map_iff in Hk. destruct Hk as [i [<- Hin]]. destruct (I1 i Hin) as [v [v' [V1 [_ [_ [_ V]]]]]]. rewrite (INV _ _ V1). apply range_in. auto. }
  specialize (INC iw (proj2 (range_in _ _ _) Hi)). apply in_map_iff in INC. destruct INC as [i [E Hin]].
  destruct (I1 i Hin) as [v [v' [V1 [V2 [V3 [V4 V5]]]]]]. rewrite (INV _ _ V1) in E. rewrite E in V3.
  rewrite (wAt_fun _ _ _ _ V3 Hw) in V4. rewrite V4 in Hw'. rewrite (wAt_fun _ _ _ _ Hw' V1). auto.
Qed.

Theorem valid_good : goodBasis b.
Proof.
  destruct (v_layout (Z.to_nat (bNStar b)) 0 (bStars b) [] ltac:(apply v_parts) eq_refl eq_refl) as [L K]. rewrite start_zero in L. cbn [countB] in L.
  destruct v_points as [P1 [P2 [P3 P4]]].
  assert (BOX : forall w, In w (bWaves b) -> in_box (dimensions (bMesh b)) (wDft w)).
  { intros w Hw. apply P4. assert (LE : (length (map wDft (bWaves b)) <= length (map (fun r => position (bMesh b) r) (zseq 0 (Z.to_nat n))))%nat) by (rewrite (map_length wDft); lia).
    apply (NoDup_length_incl P1 LE P2). apply in_map. auto. }
  constructor; auto.
  - apply (NoDup_incl_NoDup P1); [rewrite (map_length wDft); lia|auto].
  - intros is s iw Hs Hi. apply (v_star is s Hs). auto.
  - intros i w Hw. destruct (v_wave i w Hw) as [s [_ [_ [H1 [H2 _]]]]]. eauto.
  - intros i w Hw. destruct (v_wave i w Hw) as [s [w' [H0 [_ [_ [H1 [H2 [H3 H4]]]]]]]]. exists w'. repeat split; auto; try apply H1.
    rewrite H2. unfold mShift in *. rewrite <- H0. apply shift_neg_shift; [apply v_positive|].
    rewrite H0. pose proof (BOX w (wAt_in _ _ _ Hw)) as B. pose proof (in_box_length _ _ B); auto.
  - intros is s i w w' Hs Hw Hst Hw'.
    assert (Hi : sBegin s <= i < sEnd s).
    { destruct (v_wave i w Hw) as [s' [_ [_ [H1 [H2 _]]]]]. rewrite Hst in H1. rewrite (sAt_fun _ _ _ _ H1 Hs) in H2. auto. }
    destruct (K is s ltac:(apply Hs) Hs) as [[F I]|[[F [s1 [_ [_ [_ [_ I]]]]]]|[F [s0 [Hs0 [_ [Q I]]]]]]]; rewrite F.
    + rewrite Z.add_0_r. eapply I; eauto.
    + eapply I; eauto.
    + apply (second_star is s s0 Hs Hs0 Q I i w w' Hi Hw Hw').
Qed.

(** isValid also ensures that coefficients of opposite waves are conjugate, to 1e-8 *)
Lemma v_conj : forall fuel is, validPairs fuel b is = Ok true -> forall j s, is <= j -> sAt b j s -> sFlag s <> -1 ->
  exists js, validInverse b js s = Ok true.
Proof.
  induction fuel as [|fuel IH]; intros is H j s Hj Hs HF.
  - cbn [validPairs] in H. destruct (Z.ltb_spec is (bNStar b)) as [Hlt|Hlt]; [discriminate|]. exfalso.
    destruct Hs as [H1 H2]. assert (Z.to_nat j < length (bStars b))%nat by (apply nth_error_Some; congruence). lia.
  - cbn [validPairs] in H. destruct (Z.ltb_spec is (bNStar b)) as [Hlt|Hlt].
    2: { exfalso. destruct Hs as [H1 H2]. assert (Z.to_nat j < length (bStars b))%nat by (apply nth_error_Some; congruence). lia. }
    inv_bind H. apply at1_sAt in E. destruct (sFlag a =? 0).
    + inv_bind H. inv_test H. subst a0. destruct (Z.eq_dec j is) as [->|Nj]; [rewrite (sAt_fun _ _ _ _ Hs E); eauto|]. apply (IH _ H j); auto; lia.
    + inv_test H. inv_bind H. apply at1_sAt in E1. inv_test H. inv_test H. inv_test H. inv_bind H. inv_test H. subst. apply Z.eqb_eq in E2.
      destruct (Z.eq_dec j is) as [->|Nj]; [rewrite (sAt_fun _ _ _ _ Hs E); eauto|].
      destruct (Z.eq_dec j (is + 1)) as [->|Nj']; [rewrite (sAt_fun _ _ _ _ Hs E1) in HF; contradiction|]. apply (IH _ H j); auto; lia.
Qed.
Lemma Cmod_conj : forall c, Cmod (Cconj c) = Cmod c.
Proof. intros [x y]. unfold Cmod, Cconj. cbn [fst snd]. f_equal. ring. Qed.
Definition nearConjugate : Prop := forall is s i w w', sAt b is s -> sCancel s = false -> wAt b i w -> wStar w = is -> wAt b (wInv w) w' ->
  (Cmod (Cminus (Cconj (wCoeff w')) (wCoeff w)) <= 1 / 10^8)%R.
Theorem valid_conjugate : nearConjugate.
Proof.
  unfold nearConjugate.
  assert (VI : forall js s i w w', validInverse b js s = Ok true -> sCancel s = false -> sBegin s <= i < sEnd s -> wAt b i w -> wAt b (wInv w) w' ->
    (Cmod (Cminus (Cconj (wCoeff w')) (wCoeff w)) <= 1 / 10^8)%R).
  { intros js s i w w' H HC Hi Hw Hw'. unfold validInverse in H. apply (proj1 (loopB_true _ _ _)) with (x := i) in H; [|apply range_in; auto].
    rewrite (wAt_at1 _ _ _ Hw) in H. cbn [bind] in H. rewrite (wAt_at1 _ _ _ Hw') in H. cbn [bind] in H. inv_test H. rewrite HC in H. injection H as H.
    unfold leb in H. destruct (Rlt_dec _ _); [discriminate|lra]. }
  destruct (v_layout (Z.to_nat (bNStar b)) 0 (bStars b) [] ltac:(apply v_parts) eq_refl eq_refl) as [L K].
  intros is s i w w' Hs HC Hw Hst Hw'. assert (R0 : 0 <= is) by apply Hs.
  destruct (v_wave i w Hw) as [s' [w2 [_ [W1 [W2 [W3 [_ [W4 _]]]]]]]]. rewrite Hst in W1. rewrite (sAt_fun _ _ _ _ W1 Hs) in W2. rewrite (wAt_fun _ _ _ _ W3 Hw') in W4.
  assert (VP : validPairs (Z.to_nat (bNStar b)) b 0 = Ok true) by apply v_parts.
  destruct (Z.eq_dec (sFlag s) (-1)) as [EF|NF].
  - destruct (K is s R0 Hs) as [[F _]|[[F _]|[_ [s0 [Hs0 [F0 [Q I]]]]]]]; [congruence|congruence|].
    pose proof (second_star is s s0 Hs Hs0 Q I i w w' W2 Hw Hw') as ST.
    destruct (v_conj _ _ VP (is - 1) s0 ltac:(apply Hs0) Hs0 ltac:(lia)) as [js VJ].
    destruct (v_wave _ w' Hw') as [s1 [_ [_ [X1 [X2 _]]]]]. rewrite ST in X1. rewrite (sAt_fun _ _ _ _ X1 Hs0) in X2.
    assert (HC0 : sCancel s0 = false).
    { destruct (K (is - 1) s0 ltac:(apply Hs0) Hs0) as [[F _]|[[_ [s2 [Hs2 [_ [_ [HE _]]]]]]|[F _]]]; [congruence| |congruence].
      replace (is - 1 + 1) with is in Hs2 by lia. rewrite (sAt_fun _ _ _ _ Hs2 Hs) in HE. congruence. }
    assert (Hw2 : wAt b (wInv w') w) by (rewrite W4; exact Hw).
    pose proof (VI js s0 (wInv w) w' w VJ HC0 X2 Hw' Hw2) as P.
    replace (Cminus (Cconj (wCoeff w')) (wCoeff w)) with (Copp (Cconj (Cminus (Cconj (wCoeff w)) (wCoeff w')))).
    + rewrite Cmod_opp, Cmod_conj. exact P.
    + destruct (wCoeff w), (wCoeff w'). unfold Copp, Cconj, Cminus, Cplus, Copp; cbn. f_equal; ring.
  - destruct (v_conj _ _ VP is s R0 Hs NF) as [js VJ]. apply (VI js s i w w' VJ HC W2 Hw Hw').
Qed.
(** Waves are found through waveIds_ *)
Lemma v_id : forall p, in_box (dimensions (bMesh b)) p -> exists i w, waveId b p = Ok i /\ wAt b i w /\ wDft w = p.
Proof.
  intros p Hp. destruct (mesh_rank_position_bijection _ _ Hne Hmesh) as [_ [_ [B1 _]]]. destruct (B1 p Hp) as [B2 B3].
  destruct v_parts as [H _]. unfold validIds in H.
  rewrite (proj1 (mesh_iterator_visits_all_in_order _ _ (Z.to_nat (size (bMesh b))) Hne Hmesh) ltac:(lia)) in H. cbn [bind] in H.
  apply (proj1 (loopB_true _ _ _)) with (x := p) in H.
  - inv_bind H. inv_bind H. injection H as H. apply eqbL_eq in H. apply at1_wAt in E0. eauto.
  - rewrite map_map. cbn [snd]. apply in_map_iff. exists (rank (bMesh b) p). split; auto. unfold zseq. apply in_map_iff. exists (Z.to_nat (rank (bMesh b) p)). split; [lia|]. apply in_seq. lia.
Qed.
Lemma len_shift : forall dims v, length v = length dims -> length (fst (shift dims v)) = length dims.
Proof.
  induction dims as [|d dims IH]; intros [|x v] H; try discriminate; auto. cbn [shift]. destruct (Mesh.shift1 d x). specialize (IH v ltac:(cbn in H; lia)).
  destruct (shift dims v). cbn [fst length] in *. congruence.
Qed.
Theorem valid_indexed : indexed b.
Proof.
  intros u i w HL H Hw. destruct (v_id (mShift (bMesh b) u)) as [j [w' [H1 [H2 H3]]]].
  - apply shift_box; [apply v_positive|]. apply len_shift. auto.
  - rewrite H1 in H. injection H as ->. rewrite (wAt_fun _ _ _ _ Hw H2). auto.
Qed.
(** Every star that is not cancelled is found from its waveBz, if this is its own image. *)
Theorem valid_named : images b smin -> (forall w, In w (bWaves b) -> length (wBz w) = length (dimensions (bMesh b))) ->
  (forall s, In s (bStars b) -> sCancel s = false -> smin (sBz s) = sBz s) -> named b smin.
Proof.
  intros HI HW HS is s Hs HC. assert (R0 : 0 <= is) by apply Hs.
  destruct (v_layout (Z.to_nat (bNStar b)) 0 (bStars b) [] ltac:(apply v_parts) eq_refl eq_refl) as [_ K].
  assert (UN : forall j k w w', wAt b j w -> wAt b k w' -> wDft w = wDft w' -> j = k /\ w = w').
  { intros j k w w' Hj Hk E. destruct v_points as [P1 [P2 [P3 P4]]].
    assert (ND : NoDup (map wDft (bWaves b))) by (apply (NoDup_incl_NoDup P1); [rewrite (map_length wDft); lia|auto]).
    destruct Hj as [J1 J2], Hk as [K1 K2]. pose proof (proj1 (NoDup_nth_error (map wDft (bWaves b))) ND) as NE.
    assert (Z.to_nat j = Z.to_nat k). { apply NE. - rewrite map_length. apply nth_error_Some. congruence. - rewrite !nth_error_map, J2, K2. cbn. congruence. }
    split; [lia|congruence]. }
  assert (FIRST : forall js t, sAt b js t -> sFlag t <> -1 -> exists w, wAt b (sBegin t) w /\ wStar w = js /\ sBz t = wBz w).
  { intros js t Ht Hf. destruct (v_star js t Ht) as [_ [_ [_ S4]]]. pose proof (v_le js t Ht) as [LT _]. destruct (S4 (sBegin t) ltac:(lia)) as [w [W1 W2]].
    exists w. split; auto. split; auto. assert (R : 0 <= js < bNStar b).
    { destruct Ht as [H1 H2]. assert (Z.to_nat js < length (bStars b))%nat by (apply nth_error_Some; congruence). lia. }
    destruct v_parts as [_ [_ [H _]]]. specialize (H js R). unfold validStar in H. rewrite (sAt_at1 _ _ _ Ht) in H. cbn [bind] in H.
    inv_test H. inv_bind H. inv_test H. inv_bind H. inv_test H. destruct (Z.eqb_spec (sFlag t) (-1)); [contradiction|].
    rewrite (wAt_at1 _ _ _ W1) in E2. cbn [bind] in E2. injection E2 as E2. rewrite E3 in E2. apply eqbL_eq in E2. auto. }
  assert (SM : smin (sBz s) = sBz s) by (apply HS; auto; eapply nth_error_In; apply Hs).
  destruct (Z.eq_dec (sFlag s) (-1)) as [EF|NF].
  - destruct (K is s R0 Hs) as [[F _]|[[F _]|[_ [s0 [Hs0 [F0 [Q I]]]]]]]; [congruence|congruence|].
    destruct (FIRST _ s0 Hs0 ltac:(lia)) as [w0 [W1 [W2 W3]]].
    assert (BZ : sBz s = smin (vNeg (sBz s0))).
    { assert (R : 0 <= is < bNStar b). { destruct Hs as [H1 H2]. assert (Z.to_nat is < length (bStars b))%nat by (apply nth_error_Some; congruence). lia. }
      destruct v_parts as [_ [_ [H _]]]. specialize (H is R). unfold validStar in H. rewrite (sAt_at1 _ _ _ Hs) in H. cbn [bind] in H.
      inv_test H. inv_bind H. inv_test H. inv_bind H. inv_test H. destruct (Z.eqb_spec (sFlag s) (-1)); [|contradiction].
      rewrite (sAt_at1 _ _ _ Hs0) in E2. cbn [bind] in E2. injection E2 as E2. rewrite E3 in E2. apply eqbL_eq in E2. auto. }
    assert (LN : length (vNeg (sBz s0)) = length (dimensions (bMesh b))) by (unfold vNeg; rewrite map_length, W3; apply HW; eapply wAt_in; eauto).
    destruct (HI _ LN) as [L1 L2]. destruct (v_wave _ w0 W1) as [_ [w' [_ [_ [_ [V1 [V2 _]]]]]]].
    split; [congruence|]. split; auto.
    assert (EQ : mShift (bMesh b) (sBz s) = wDft w') by (rewrite BZ, L2, V2, W3; auto).
    pose proof (v_le _ _ Hs0) as [LT _].
    assert (ST : wStar w' = is) by (eapply (I (sBegin s0) w0 w'); eauto; lia).
    destruct (v_id (wDft w')) as [j [w2 [X1 [X2 X3]]]].
    { rewrite V2. apply shift_box; [apply v_positive|]. apply len_shift. rewrite <- W3. auto. }
    exists j, w2. rewrite EQ. split; auto. split; auto. destruct (UN _ _ _ _ X2 V1 X3). subst. auto.
  - destruct (FIRST _ s Hs NF) as [w [W1 [W2 W3]]]. split; [rewrite W3; apply HW; eapply wAt_in; eauto|]. split; auto.
    destruct (v_wave _ w W1) as [_ [_ [V0 _]]]. rewrite <- W3 in V0.
    destruct (v_id (wDft w)) as [j [w2 [X1 [X2 X3]]]].
    { rewrite <- V0. apply shift_box; [apply v_positive|]. apply len_shift. rewrite W3. apply HW; eapply wAt_in; eauto. }
    exists j, w2. rewrite V0. split; auto. split; auto. destruct (UN _ _ _ _ X2 W1 X3). subst. auto.
Qed.
End Valid.
