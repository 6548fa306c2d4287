From Coq Require Import ZArith Reals List Bool Lia Lra Permutation.
From Coquelicot Require Import Complex.
From Verif Require Import Base MeshSpec Mesh MeshProofs PropsMesh FieldIo FieldIoProofs Basis BasisSpec.
From Coq Require Import List.
Import ListNotations.
Local Open Scope Z_scope.
Local Open Scope list_scope.

Lemma at1_spec : forall E (l : list E) i x, at1 l i = Ok x <-> 0 <= i /\ nth_error l (Z.to_nat i) = Some x.
Proof.
  intros. unfold at1. destruct (Z.ltb_spec i 0).
  - split; [discriminate|lia].
  - destruct (nth_error l (Z.to_nat i)); split; try discriminate; try (intros [_ ?]; congruence); intros E0.
    inversion E0; auto.
Qed.
Lemma wAt_range : forall b i w, wAt b i w -> 0 <= i < Z.of_nat (length (bWaves b)).
Proof. intros b i w [H1 H2]. assert (Z.to_nat i < length (bWaves b))%nat by (apply nth_error_Some; congruence). lia. Qed.
Lemma wAt_in : forall b i w, wAt b i w -> In w (bWaves b).
Proof. intros b i w [H1 H2]. eapply nth_error_In; eauto. Qed.
Lemma wAt_exists : forall b i, 0 <= i < Z.of_nat (length (bWaves b)) -> exists w, wAt b i w.
Proof.
  intros b i H. destruct (nth_error (bWaves b) (Z.to_nat i)) as [w|] eqn:E.
  - exists w. split; [lia|auto].
  - apply nth_error_None in E. lia.
Qed.
Lemma wAt_fun : forall b i w w', wAt b i w -> wAt b i w' -> w = w'.
Proof. intros b i w w' [_ H] [_ H']. congruence. Qed.
Lemma sAt_fun : forall b i s s', sAt b i s -> sAt b i s' -> s = s'.
Proof. intros b i w w' [_ H] [_ H']. congruence. Qed.
Lemma wAt_at1 : forall b i w, wAt b i w -> at1 (bWaves b) i = Ok w.
Proof. intros b i w H. apply at1_spec. exact H. Qed.
Lemma sAt_at1 : forall b i s, sAt b i s -> at1 (bStars b) i = Ok s.
Proof. intros b i w H. apply at1_spec. exact H. Qed.

Lemma range_nil : forall lo hi, hi <= lo -> range lo hi = [].
Proof. intros. unfold range. replace (Z.to_nat (hi - lo)) with 0%nat by lia. reflexivity. Qed.
Lemma range_cons : forall lo hi, lo < hi -> range lo hi = lo :: range (lo + 1) hi.
Proof.
  intros. unfold range. replace (Z.to_nat (hi - lo)) with (S (Z.to_nat (hi - (lo + 1)))) by lia.
  cbn [seq map]. f_equal; [lia|]. rewrite <- seq_shift, map_map. apply map_ext. intros; lia.
Qed.
Lemma range_in : forall lo hi i, In i (range lo hi) <-> lo <= i < hi.
Proof.
  intros. unfold range. rewrite in_map_iff. split.
  - intros [k [<- H]]. apply in_seq in H. lia.
  - intros. exists (Z.to_nat (i - lo)). split; [lia|]. apply in_seq. lia.
Qed.
Lemma range_ind_up : forall hi (P : Z -> Prop), (forall lo, hi <= lo -> P lo) -> (forall lo, lo < hi -> P (lo + 1) -> P lo) -> forall lo, P lo.
Proof.
  intros hi P H0 H1 lo. remember (Z.to_nat (hi - lo)) as n eqn:E. revert lo E. induction n; intros lo E.
  - apply H0. lia.
  - apply H1; [lia|]. apply IHn. lia.
Qed.

(** ** Ranks of explicit waves in the half mesh *)
Lemma dftDims_last : forall dims, dims <> [] -> last (dftDims dims) 0 = Z.quot (last dims 0) 2 + 1 /\ length (dftDims dims) = length dims.
Proof.
  induction dims as [|d [|e dims] IH]; intros H; [congruence|auto|].
  destruct IH as [I1 I2]; [discriminate|]. cbn [dftDims] in *.
  split; [|cbn [length]; f_equal; exact I2].
  change (last (d :: e :: dims) 0) with (last (e :: dims) 0). rewrite <- I1.
  destruct (match dims with [] => [Z.quot e 2 + 1] | _ :: _ => e :: dftDims dims end) eqn:E; [discriminate I2|]. reflexivity.
Qed.
Lemma dftDims_ne : forall dims, dims <> [] -> dftDims dims <> [].
Proof. intros dims H E. pose proof (dftDims_last dims H) as [_ L]. rewrite E in L. destruct dims; [congruence|discriminate]. Qed.
Lemma dftDims_positive : forall dims, positive dims -> positive (dftDims dims).
Proof.
  unfold positive. induction dims as [|d [|e dims] IH]; intros H; [constructor| |].
  - inversion H; subst. constructor; [|constructor]. pose proof (Z.quot_pos d 2). lia.
  - inversion H; subst. specialize (IH H3). cbn [dftDims] in *. constructor; auto.
Qed.
Lemma dft_box : forall dims p, in_box dims p -> last p 0 <= Z.quot (last dims 0) 2 -> in_box (dftDims dims) p.
Proof.
  unfold in_box. induction dims as [|d [|e dims] IH]; intros p H HL; inversion H as [|? x ? p' Hx Hp]; subst; [constructor| |].
  - inversion Hp; subst. cbn [dftDims last] in *. constructor; [lia|constructor].
  - destruct p' as [|y p']; [inversion Hp|]. specialize (IH (y :: p') Hp).
    change (last (x :: y :: p') 0) with (last (y :: p') 0) in HL. change (last (d :: e :: dims) 0) with (last (e :: dims) 0) in HL.
    specialize (IH HL). cbn [dftDims] in *. constructor; auto.
Qed.

Section Good.
Variable b : basis.
Hypothesis G : goodBasis b.
Variable dm : mesh.
Hypothesis HDM : setDimensions (dftDims (dimensions (bMesh b))) = Ok dm.

Lemma dm_facts : (forall p, in_box (dftDims (dimensions (bMesh b))) p -> 0 <= rank dm p < size dm /\ position dm (rank dm p) = p).
Proof.
  destruct (mesh_rank_position_bijection _ dm (dftDims_ne _ (gb_ne b G)) HDM) as [_ [_ [A _]]]. exact A.
Qed.
Lemma explicit_rank : forall w, In w (bWaves b) -> wImplicit w = false -> 0 <= rank dm (wDft w) < size dm /\ position dm (rank dm (wDft w)) = wDft w.
Proof.
  intros w HW HI. apply dm_facts. apply dft_box; [apply (gb_box b G); auto|].
  pose proof (gb_implicit b G w HW) as [I1 I2]. apply Z.nlt_ge. intros H. specialize (I2 H). congruence.
Qed.
Lemma rank_inj : forall i j w w', wAt b i w -> wAt b j w' -> wImplicit w = false -> wImplicit w' = false ->
  rank dm (wDft w) = rank dm (wDft w') -> i = j.
Proof.
  intros i j w w' H H' E E' R.
  destruct (explicit_rank w (wAt_in _ _ _ H) E) as [_ P]. destruct (explicit_rank w' (wAt_in _ _ _ H') E') as [_ P'].
  assert (D : wDft w = wDft w') by congruence.
  pose proof (gb_nodup b G) as ND. rewrite NoDup_nth_error in ND.
  pose proof (wAt_range _ _ _ H). pose proof (wAt_range _ _ _ H'). destruct H as [K1 H2]. destruct H' as [K1' H2'].
  assert (Z.to_nat i = Z.to_nat j).
  { apply ND; [rewrite map_length; lia|]. rewrite (map_nth_error _ _ _ H2), (map_nth_error _ _ _ H2'). congruence. }
  lia.
Qed.

Definition kval (k : list C) (w : wave) : C := nth (Z.to_nat (rank dm (wDft w))) k (RtoC 0).

Lemma putWaves_spec : forall c hi lo out, 0 <= lo -> lo <= hi -> hi <= Z.of_nat (length (bWaves b)) -> size dm <= Z.of_nat (length out) ->
  exists out', putWaves b dm c (range lo hi) out = Ok out' /\ length out' = length out /\
    forall i w, wAt b i w -> wImplicit w = false ->
      kval out' w = if (lo <=? i) && (i <? hi) then Cmult c (wCoeff w) else kval out w.
Proof.
  intros c hi. apply (range_ind_up hi (fun lo => forall out, 0 <= lo -> lo <= hi -> hi <= Z.of_nat (length (bWaves b)) -> size dm <= Z.of_nat (length out) ->
  exists out', putWaves b dm c (range lo hi) out = Ok out' /\ length out' = length out /\
    forall i w, wAt b i w -> wImplicit w = false ->
      kval out' w = if (lo <=? i) && (i <? hi) then Cmult c (wCoeff w) else kval out w)).
  - intros lo H out H0 H1 H2 H3. rewrite range_nil by auto. exists out. split; auto. split; auto.
    intros i w Hw HI. destruct (Z.leb_spec lo i); destruct (Z.ltb_spec i hi); try reflexivity. lia.
  - intros lo H IH out H0 H1 H2 H3. rewrite range_cons by auto. cbn [putWaves].
    destruct (wAt_exists b lo ltac:(lia)) as [w0 Hw0]. rewrite (wAt_at1 _ _ _ Hw0). cbn [bind].
    destruct (wImplicit w0) eqn:EI.
    + cbn [bind]. destruct (IH out) as [out' [P1 [P2 P3]]]; try lia. exists out'. split; auto. split; auto.
      intros i w Hw HI. rewrite (P3 i w Hw HI).
      destruct (Z.leb_spec (lo + 1) i); destruct (Z.leb_spec lo i); try lia; try reflexivity.
      assert (i = lo) by lia. subst i. rewrite (wAt_fun _ _ _ _ Hw Hw0) in HI. congruence.
    + destruct (explicit_rank w0 (wAt_in _ _ _ Hw0) EI) as [R0 _].
      rewrite set1_ok by lia. cbn [bind].
      destruct (IH (update out (Z.to_nat (rank dm (wDft w0))) (Cmult c (wCoeff w0)))) as [out' [P1 [P2 P3]]]; rewrite ?update_length; try lia.
      exists out'. split; auto. rewrite update_length in P2. split; auto.
      intros i w Hw HI. rewrite (P3 i w Hw HI).
      destruct (Z.leb_spec (lo + 1) i); destruct (Z.leb_spec lo i); try lia; try reflexivity; cbn [andb]; try (destruct (Z.ltb_spec i hi); try lia).
      * reflexivity.
      * unfold kval. apply nth_update_other. intros E.
        pose proof (explicit_rank w (wAt_in _ _ _ Hw) HI) as [R1 _].
        assert (i = lo) by (eapply (rank_inj i lo w w0); eauto; lia). lia.
      * assert (i = lo) by lia. subst i. rewrite (wAt_fun _ _ _ _ Hw Hw0). unfold kval. apply nth_update_same. lia.
      * unfold kval. apply nth_update_other. intros E.
        pose proof (explicit_rank w (wAt_in _ _ _ Hw) HI) as [R1 _].
        assert (i = lo) by (eapply (rank_inj i lo w w0); eauto; lia). lia.
Qed.
End Good.

Lemma layout_le : forall nw nb is iw ib l, layout nw nb is iw ib l -> iw <= nw /\ ib <= nb.
Proof.
  induction 1; [lia| |].
  - destruct (sCancel s); lia.
  - destruct (sCancel s1); lia.
Qed.
Lemma layout_at : forall b done l, bStars b = done ++ l -> forall s r, l = s :: r -> sAt b (Z.of_nat (length done)) s.
Proof.
  intros b done l E s r ->. split; [lia|]. rewrite Nat2Z.id, E, nth_error_app2 by lia. rewrite Nat.sub_diag. reflexivity.
Qed.
Lemma sqrt2_ne : RtoC (sqrt 2) <> RtoC 0.
Proof. intros E. apply (f_equal fst) in E. cbn in E. pose proof Rlt_sqrt2_0. lra. Qed.

Lemma Cdiv_mult : forall a c : C, c <> RtoC 0 -> Cdiv (Cmult a c) c = a.
Proof. intros. field. auto. Qed.
Lemma Cdiv_mult2 : forall a c s : C, c <> RtoC 0 -> s <> RtoC 0 -> Cmult (Cdiv (Cmult (Cdiv a s) c) c) s = a.
Proof. intros. field. auto. Qed.

Section Conversions.
Variable b : basis.
Hypothesis G : goodBasis b.
Variable dm : mesh.
Hypothesis HDM : setDimensions (dftDims (dimensions (bMesh b))) = Ok dm.
Variable x : list R.
Hypothesis HX : Z.of_nat (length x) = bNBasis b.
Let nw := size (bMesh b).
Let kv := kval dm.

Lemma putStars_spec : forall is iw ib l, layout nw (bNBasis b) is iw ib l -> forall done fuel out,
  bStars b = done ++ l -> Z.of_nat (length done) = is -> (length l <= fuel)%nat -> size dm <= Z.of_nat (length out) ->
  0 <= iw -> 0 <= ib ->
  (forall i w, wAt b i w -> wImplicit w = false -> iw <= i -> kv out w = RtoC 0) ->
  exists out', putStars fuel b dm x is out = Ok out' /\ length out' = length out /\
    (forall i w, wAt b i w -> wImplicit w = false -> i < iw -> kv out' w = kv out w) /\
    (forall i w s, wAt b i w -> wImplicit w = false -> iw <= i -> sAt b (wStar w) s -> kv out' w = Cmult (component x s) (wCoeff w)).
Proof.
  assert (NS : bNStar b = Z.of_nat (length (bStars b))) by apply (gb_nstar b G).
  assert (NW : Z.of_nat (length (bWaves b)) = nw) by apply (gb_nwave b G).
  induction 1 as [is|is iw ib s r F St B E EW SZ BI L IH|is iw ib s1 s2 r F1 F2 St1 St2 C B1 E1 B2 SZ1 SZ2 SZ3 E2 BI1 BI2 L IH];
  intros done fuel out HB HD HF HO HW HI HZ.
  - exists out. assert (X : putStars fuel b dm x is out = Ok out).
    { destruct fuel; cbn [putStars]; rewrite NS, HB, app_nil_r; destruct (Z.ltb_spec is (Z.of_nat (length done))); try lia; reflexivity. }
    split; auto. split; auto. split; auto. intros i w s Hw _ Hi. pose proof (wAt_range _ _ _ Hw). lia.
  - destruct fuel as [|fuel]; [cbn [length] in HF; lia|].
    pose proof (layout_at b done _ HB s r eq_refl) as HS. rewrite HD in HS.
    pose proof (layout_le _ _ _ _ _ _ L) as [LE1 LE2].
    assert (HB' : bStars b = (done ++ [s]) ++ r) by (rewrite <- app_assoc; exact HB).
    assert (HD' : Z.of_nat (length (done ++ [s])) = is + 1) by (rewrite app_length; cbn [length]; lia).
    cbn [putStars]. rewrite NS, HB, app_length. cbn [length]. destruct (Z.ltb_spec is (Z.of_nat (length done + S (length r)))); [|lia].
    rewrite <- HB. rewrite (sAt_at1 _ _ _ HS). cbn [bind].
    destruct (sCancel s) eqn:EC.
    + destruct (IH (done ++ [s]) fuel out) as [out' [P1 [P2 [P3 P4]]]]; auto; try (cbn [length] in HF; lia).
      { intros i w Hw Hi Hle. apply (HZ i w); auto. lia. }
      exists out'. split; auto. split; auto. split; [intros; apply (P3 i); auto; lia|].
      intros i w s' Hw Hi Hle Hs'. destruct (Z.lt_ge_cases i (sEnd s)) as [LT|GE]; [|apply (P4 i); auto].
      rewrite (P3 i w Hw Hi LT). destruct (gb_star b G is s i HS ltac:(lia)) as [w' [Hw' Hst]].
      rewrite (wAt_fun _ _ _ _ Hw Hw') in *. rewrite Hst in Hs'. rewrite (sAt_fun _ _ _ _ Hs' HS).
      unfold component. rewrite EC. rewrite (HZ i w') by auto. ring.
    + rewrite F. cbn [Z.eqb]. rewrite BI. rewrite (at1_ok _ x ib 0%R) by lia. cbn [bind].
      destruct (putWaves_spec b G dm HDM (nth (Z.to_nat ib) x 0%R, 0%R) (sEnd s) (sBegin s) out) as [out1 [Q1 [Q2 Q3]]]; try lia.
      rewrite Q1. cbn [bind].
      destruct (IH (done ++ [s]) fuel out1) as [out' [P1 [P2 [P3 P4]]]]; auto; try (cbn [length] in HF; lia).
      { intros i w Hw Hi Hle. unfold kv. rewrite (Q3 i w Hw Hi). destruct (Z.ltb_spec i (sEnd s)); [lia|]. rewrite andb_false_r. apply (HZ i w); auto. lia. }
      exists out'. split; auto. split; [lia|]. split.
      * intros i w Hw Hi Hlt. rewrite (P3 i w Hw Hi) by lia. unfold kv. rewrite (Q3 i w Hw Hi). destruct (Z.leb_spec (sBegin s) i); [lia|]. reflexivity.
      * intros i w s' Hw Hi Hle Hs'. destruct (Z.lt_ge_cases i (sEnd s)) as [LT|GE]; [|apply (P4 i); auto].
        rewrite (P3 i w Hw Hi LT). unfold kv. rewrite (Q3 i w Hw Hi).
        destruct (Z.leb_spec (sBegin s) i); [|lia]. destruct (Z.ltb_spec i (sEnd s)); [|lia]. cbn [andb].
        destruct (gb_star b G is s i HS ltac:(lia)) as [w' [Hw' Hst]].
        rewrite (wAt_fun _ _ _ _ Hw Hw') in *. rewrite Hst in Hs'. rewrite (sAt_fun _ _ _ _ Hs' HS).
        unfold component. rewrite EC, F, BI. reflexivity.
  - destruct fuel as [|fuel]; [cbn [length] in HF; lia|].
    pose proof (layout_at b done _ HB s1 _ eq_refl) as HS. rewrite HD in HS.
    assert (HB1 : bStars b = (done ++ [s1]) ++ s2 :: r) by (rewrite <- app_assoc; exact HB).
    assert (HD1 : Z.of_nat (length (done ++ [s1])) = is + 1) by (rewrite app_length; cbn [length]; lia).
    pose proof (layout_at b _ _ HB1 s2 _ eq_refl) as HS2. rewrite HD1 in HS2.
    pose proof (layout_le _ _ _ _ _ _ L) as [LE1 LE2].
    assert (HB' : bStars b = (done ++ [s1; s2]) ++ r) by (rewrite <- app_assoc; exact HB).
    assert (HD' : Z.of_nat (length (done ++ [s1; s2])) = is + 2) by (rewrite app_length; cbn [length]; lia).
    assert (LL : Z.of_nat (length (bStars b)) = is + 2 + Z.of_nat (length r)) by (rewrite HB', app_length; lia).
    cbn [putStars]. rewrite NS. destruct (Z.ltb_spec is (Z.of_nat (length (bStars b)))); [|lia].
    rewrite (sAt_at1 _ _ _ HS). cbn [bind].
    assert (PART : forall i w s', wAt b i w -> sAt b (wStar w) s' -> iw <= i < sEnd s2 ->
      (i < sEnd s1 /\ s' = s1) \/ (sEnd s1 <= i /\ s' = s2)).
    { intros i w s' Hw Hs' Hi. destruct (Z.lt_ge_cases i (sEnd s1)) as [LT|GE]; [left|right]; split; auto.
      - destruct (gb_star b G is s1 i HS ltac:(lia)) as [w' [Hw' Hst]].
        rewrite (wAt_fun _ _ _ _ Hw Hw') in *. rewrite Hst in Hs'. apply (sAt_fun _ _ _ _ Hs' HS).
      - destruct (gb_star b G (is + 1) s2 i HS2 ltac:(lia)) as [w' [Hw' Hst]].
        rewrite (wAt_fun _ _ _ _ Hw Hw') in *. rewrite Hst in Hs'. apply (sAt_fun _ _ _ _ Hs' HS2). }
    destruct (sCancel s1) eqn:EC.
    + destruct fuel as [|fuel]; [cbn [length] in HF; lia|].
      cbn [putStars]. rewrite NS. destruct (Z.ltb_spec (is + 1) (Z.of_nat (length (bStars b)))); [|lia].
      rewrite (sAt_at1 _ _ _ HS2). cbn [bind]. rewrite C. replace (is + 1 + 1) with (is + 2) by lia.
      destruct (IH (done ++ [s1; s2]) fuel out) as [out' [P1 [P2 [P3 P4]]]]; auto; try (cbn [length] in HF; lia).
      { intros i w Hw Hi Hle. apply (HZ i w); auto. lia. }
      exists out'. split; auto. split; auto. split; [intros; apply (P3 i); auto; lia|].
      intros i w s' Hw Hi Hle Hs'. destruct (Z.lt_ge_cases i (sEnd s2)) as [LT|GE]; [|apply (P4 i); auto].
      rewrite (P3 i w Hw Hi LT). rewrite (HZ i w) by auto.
      destruct (PART i w s' Hw Hs' ltac:(lia)) as [[_ ->]|[_ ->]]; unfold component; rewrite ?EC, ?C; ring.
    + rewrite F1. cbn [Z.eqb]. rewrite BI1. rewrite (at1_ok _ x ib 0%R) by lia. cbn [bind].
      rewrite (at1_ok _ x (ib + 1) 0%R) by lia. cbn [bind].
      set (c1 := Cdiv _ _). 
      destruct (putWaves_spec b G dm HDM c1 (sEnd s1) (sBegin s1) out) as [out1 [Q1 [Q2 Q3]]]; try lia.
      rewrite Q1. cbn [bind]. rewrite (sAt_at1 _ _ _ HS2). cbn [bind]. rewrite F2. cbn [Z.eqb Pos.eqb check bind].
      set (c2 := Cdiv _ _).
      destruct (putWaves_spec b G dm HDM c2 (sEnd s2) (sBegin s2) out1) as [out2 [Q4 [Q5 Q6]]]; try lia.
      rewrite Q4. cbn [bind].
      destruct (IH (done ++ [s1; s2]) fuel out2) as [out' [P1 [P2 [P3 P4]]]]; auto; try (cbn [length] in HF; lia).
      { intros i w Hw Hi Hle. unfold kv. rewrite (Q6 i w Hw Hi), (Q3 i w Hw Hi).
        destruct (Z.ltb_spec i (sEnd s2)); [lia|]. destruct (Z.ltb_spec i (sEnd s1)); [lia|]. rewrite !andb_false_r. apply (HZ i w); auto. lia. }
      exists out'. split; auto. split; [lia|]. split.
      * intros i w Hw Hi Hlt. rewrite (P3 i w Hw Hi) by lia. unfold kv. rewrite (Q6 i w Hw Hi), (Q3 i w Hw Hi).
        destruct (Z.leb_spec (sBegin s1) i); [lia|]. destruct (Z.leb_spec (sBegin s2) i); [lia|]. reflexivity.
      * intros i w s' Hw Hi Hle Hs'. destruct (Z.lt_ge_cases i (sEnd s2)) as [LT|GE]; [|apply (P4 i); auto].
        rewrite (P3 i w Hw Hi LT). unfold kv. rewrite (Q6 i w Hw Hi), (Q3 i w Hw Hi).
        destruct (PART i w s' Hw Hs' ltac:(lia)) as [[LT1 ->]|[GE1 ->]]; unfold component.
        -- rewrite EC, F1, BI1. cbn [Z.eqb Pos.eqb]. destruct (Z.leb_spec (sBegin s2) i); [lia|]. cbn [andb].
           destruct (Z.leb_spec (sBegin s1) i); [|lia]. destruct (Z.ltb_spec i (sEnd s1)); [|lia]. reflexivity.
        -- rewrite C, F2, BI2. cbn [Z.eqb Pos.eqb]. destruct (Z.leb_spec (sBegin s2) i); [|lia].
           destruct (Z.ltb_spec i (sEnd s2)); [|lia]. cbn [andb]. replace (ib + 1 - 1) with ib by lia. reflexivity.
Qed.
End Conversions.

(** ** From Fourier components to basis components *)
Lemma explicitWave_spec : forall b lo hi fuel iw, 0 <= lo -> hi <= Z.of_nat (length (bWaves b)) -> 0 <= iw ->
  hi - lo < 2 * iw + 2 * Z.of_nat fuel ->
  (exists j w, lo + iw <= j < hi - iw /\ wAt b j w /\ wImplicit w = false) ->
  exists j w, explicitWave fuel b lo hi iw = Ok w /\ lo <= j < hi /\ wAt b j w /\ wImplicit w = false.
Proof.
  intros b lo hi. induction fuel as [|fuel IH]; intros iw Hlo Hhi Hiw HF [j [w [Hj [Hw HE]]]]; [lia|].
  cbn [explicitWave].
  destruct (wAt_exists b (lo + iw) ltac:(lia)) as [w1 H1]. rewrite (wAt_at1 _ _ _ H1). cbn [bind].
  destruct (wImplicit w1) eqn:E1; cbn [negb].
  2:{ exists (lo + iw), w1. repeat split; auto; try lia; apply H1. }
  destruct (Z.ltb_spec (lo + iw) (hi - 1 - iw)).
  2:{ assert (j = lo + iw) by lia. subst j. rewrite (wAt_fun _ _ _ _ Hw H1) in HE. congruence. }
  cbn [check bind]. destruct (wAt_exists b (hi - 1 - iw) ltac:(lia)) as [w2 H2]. rewrite (wAt_at1 _ _ _ H2). cbn [bind].
  destruct (wImplicit w2) eqn:E2; cbn [negb].
  2:{ exists (hi - 1 - iw), w2. repeat split; auto; try lia; apply H2. }
  apply IH; try lia. exists j, w. split; auto.
  assert (j <> lo + iw) by (intros ->; rewrite (wAt_fun _ _ _ _ Hw H1) in HE; congruence).
  assert (j <> hi - 1 - iw) by (intros ->; rewrite (wAt_fun _ _ _ _ Hw H2) in HE; congruence). lia.
Qed.

Section Back.
Variable b : basis.
Hypothesis G : goodBasis b.
Variable dm : mesh.
Hypothesis HDM : setDimensions (dftDims (dimensions (bMesh b))) = Ok dm.
Variable k : list C.
Hypothesis HK : size dm <= Z.of_nat (length k).
Let nw := size (bMesh b).

Lemma explicit_at : forall i w, wAt b i w -> wImplicit w = false -> at1 k (rank dm (wDft w)) = Ok (kval dm k w).
Proof.
  intros i w Hw HI. destruct (explicit_rank b G dm HDM w (wAt_in _ _ _ Hw) HI) as [R0 _].
  rewrite (at1_ok _ k _ (RtoC 0)) by lia. reflexivity.
Qed.
Lemma coeff_ne : forall is s i w, sAt b is s -> wAt b i w -> wStar w = is -> sCancel s = false -> wCoeff w <> RtoC 0.
Proof.
  intros is s i w Hs Hw Hst HC E. pose proof (gb_coeff b G is s i w Hs Hw Hst HC) as L. rewrite E, Cmod_0 in L. lra.
Qed.

(** If the components of all explicit waves belong to functions with coefficients x,
    then x is found. *)
Variable x : list R.
Hypothesis HX : Z.of_nat (length x) = bNBasis b.
Hypothesis HV : forall i w s, wAt b i w -> wImplicit w = false -> sAt b (wStar w) s -> sCancel s = false ->
  kval dm k w = Cmult (component x s) (wCoeff w).

Lemma getStars_spec : forall is iw ib l, layout nw (bNBasis b) is iw ib l -> forall done fuel out,
  bStars b = done ++ l -> Z.of_nat (length done) = is -> (length l <= fuel)%nat -> bNBasis b <= Z.of_nat (length out) ->
  0 <= iw -> 0 <= ib -> (forall i, 0 <= i < ib -> nth (Z.to_nat i) out 0%R = nth (Z.to_nat i) x 0%R) ->
  exists out', getStars fuel b dm k is out = Ok out' /\ length out' = length out /\
    (forall i, 0 <= i < bNBasis b -> nth (Z.to_nat i) out' 0%R = nth (Z.to_nat i) x 0%R) /\
    (forall i, bNBasis b <= i -> nth (Z.to_nat i) out' 0%R = nth (Z.to_nat i) out 0%R).
Proof.
  assert (NS : bNStar b = Z.of_nat (length (bStars b))) by apply (gb_nstar b G).
  assert (NW : Z.of_nat (length (bWaves b)) = nw) by apply (gb_nwave b G).
  induction 1 as [is|is iw ib s r F St B E EW SZ BI L IH|is iw ib s1 s2 r F1 F2 St1 St2 C B1 E1 B2 SZ1 SZ2 SZ3 E2 BI1 BI2 L IH];
  intros done fuel out HB HD HF HO HW HI HP.
  - exists out. split; [|split; [auto|split; auto]].
    destruct fuel; cbn [getStars]; rewrite NS, HB, app_nil_r; destruct (Z.ltb_spec is (Z.of_nat (length done))); try lia; reflexivity.
  - destruct fuel as [|fuel]; [cbn [length] in HF; lia|].
    pose proof (layout_at b done _ HB s r eq_refl) as HS. rewrite HD in HS.
    pose proof (layout_le _ _ _ _ _ _ L) as [LE1 LE2].
    assert (HB' : bStars b = (done ++ [s]) ++ r) by (rewrite <- app_assoc; exact HB).
    assert (HD' : Z.of_nat (length (done ++ [s])) = is + 1) by (rewrite app_length; cbn [length]; lia).
    assert (LL : Z.of_nat (length (bStars b)) = is + 1 + Z.of_nat (length r)) by (rewrite HB', app_length; lia).
    cbn [getStars]. rewrite NS. destruct (Z.ltb_spec is (Z.of_nat (length (bStars b)))); [|lia].
    rewrite (sAt_at1 _ _ _ HS). cbn [bind].
    destruct (sCancel s) eqn:EC.
    + destruct (IH (done ++ [s]) fuel out) as [out' [P1 [P2 [P3 P4]]]]; auto; try (cbn [length] in HF; lia).
      exists out'. auto.
    + rewrite F. cbn [Z.eqb].
      destruct (explicitWave_spec b (sBegin s) (sEnd s) (S (Z.to_nat (sEnd s - sBegin s))) 0) as [j [w [X1 [X2 [X3 X4]]]]]; try lia.
      { destruct (gb_star b G is s (sBegin s) HS ltac:(lia)) as [w0 [Hw0 Hst]].
        destruct (gb_inv b G _ _ Hw0) as [w' [Hw' [Hinv [_ [Q|Q]]]]]; [exists (sBegin s), w0; repeat split; auto; try lia; apply Hw0|].
        pose proof (gb_partner b G is s _ _ _ HS Hw0 Hst Hw') as HP'. rewrite F, Z.add_0_r in HP'.
        exists (wInv w0), w'. split; [|auto].
        destruct (gb_wave b G _ _ Hw') as [s' [Hs' RS]]. rewrite HP' in Hs'. rewrite (sAt_fun _ _ _ _ Hs' HS) in RS. lia. }
      rewrite X1. cbn [bind].
      destruct (gb_star b G is s j HS X2) as [w' [Hw' Hst]]. rewrite (wAt_fun _ _ _ _ Hw' X3) in Hst. clear w' Hw'.
      rewrite Hst, Z.eqb_refl. cbn [check bind]. rewrite (explicit_at j w X3 X4). cbn [bind].
      rewrite set1_ok by (rewrite BI; lia). cbn [bind]. rewrite BI.
      assert (VAL : fst (Cdiv (kval dm k w) (wCoeff w)) = nth (Z.to_nat ib) x 0%R).
      { rewrite (HV j w s) by (auto; rewrite Hst; auto). unfold component. rewrite EC, F, BI. cbn [Z.eqb].
        pose proof (coeff_ne is s j w HS X3 Hst EC) as NE.
        rewrite Cdiv_mult by auto. reflexivity. }
      destruct (IH (done ++ [s]) fuel (update out (Z.to_nat ib) (fst (Cdiv (kval dm k w) (wCoeff w))))) as [out' [P1 [P2 [P3 P4]]]]; auto; try lia.
      { cbn [length] in HF; lia. } { rewrite update_length; lia. }
      { intros i Hi. destruct (Z.eq_dec i ib) as [->|N].
        - rewrite nth_update_same by lia. exact VAL.
        - rewrite nth_update_other by lia. apply HP. lia. }
      exists out'. rewrite update_length in P2. split; auto. split; auto. split; auto.
      intros i Hi. rewrite P4 by auto. apply nth_update_other. lia.
  - destruct fuel as [|fuel]; [cbn [length] in HF; lia|].
    pose proof (layout_at b done _ HB s1 _ eq_refl) as HS. rewrite HD in HS.
    assert (HB1 : bStars b = (done ++ [s1]) ++ s2 :: r) by (rewrite <- app_assoc; exact HB).
    assert (HD1 : Z.of_nat (length (done ++ [s1])) = is + 1) by (rewrite app_length; cbn [length]; lia).
    pose proof (layout_at b _ _ HB1 s2 _ eq_refl) as HS2. rewrite HD1 in HS2.
    pose proof (layout_le _ _ _ _ _ _ L) as [LE1 LE2].
    assert (HB' : bStars b = (done ++ [s1; s2]) ++ r) by (rewrite <- app_assoc; exact HB).
    assert (HD' : Z.of_nat (length (done ++ [s1; s2])) = is + 2) by (rewrite app_length; cbn [length]; lia).
    assert (LL : Z.of_nat (length (bStars b)) = is + 2 + Z.of_nat (length r)) by (rewrite HB', app_length; lia).
    cbn [getStars]. rewrite NS. destruct (Z.ltb_spec is (Z.of_nat (length (bStars b)))); [|lia].
    rewrite (sAt_at1 _ _ _ HS). cbn [bind].
    destruct (sCancel s1) eqn:EC.
    + destruct fuel as [|fuel]; [cbn [length] in HF; lia|].
      cbn [getStars]. rewrite NS. destruct (Z.ltb_spec (is + 1) (Z.of_nat (length (bStars b)))); [|lia].
      rewrite (sAt_at1 _ _ _ HS2). cbn [bind]. rewrite C. replace (is + 1 + 1) with (is + 2) by lia.
      destruct (IH (done ++ [s1; s2]) fuel out) as [out' [P1 [P2 [P3 P4]]]]; auto; try (cbn [length] in HF; lia).
      exists out'. auto.
    + rewrite F1. cbn [Z.eqb].
      destruct (gb_star b G is s1 (sBegin s1) HS ltac:(lia)) as [w [Hw Hst]].
      rewrite (wAt_at1 _ _ _ Hw). cbn [bind]. rewrite Hst, Z.eqb_refl. cbn [check bind].
      destruct (gb_inv b G _ _ Hw) as [w' [Hw' [Hinv [_ NB]]]].
      pose proof (gb_partner b G is s1 _ _ _ HS Hw Hst Hw') as Hst'. rewrite F1 in Hst'.
      assert (FIN : forall ws fl, (ws = w /\ fl = 1) \/ (ws = w' /\ fl = -1) -> wImplicit ws = false ->
        exists out', (z <- at1 k (rank dm (wDft ws)) ;;
          check (abs8 (wCoeff ws)) ;;
          (let component := Cmult (Cdiv z (wCoeff ws)) sqrt2 in
          out <- set1 out (sBasis s1) (fst component) ;;
          out <- set1 out (sBasis s1 + 1) (if fl =? 1 then (- snd component)%R else snd component) ;;
          getStars fuel b dm k (is + 2) out)) = Ok out' /\ length out' = length out /\
        (forall i, 0 <= i < bNBasis b -> nth (Z.to_nat i) out' 0%R = nth (Z.to_nat i) x 0%R) /\
        (forall i, bNBasis b <= i -> nth (Z.to_nat i) out' 0%R = nth (Z.to_nat i) out 0%R)).
      { intros ws fl OR IM.
        assert (EX : exists iz, wAt b iz ws) by (destruct OR as [[-> _]|[-> _]]; eauto). destruct EX as [iz Hz].
        rewrite (explicit_at iz ws Hz IM). cbn [bind].
        assert (CN : (1 / 10 ^ 8 < Cmod (wCoeff ws))%R).
        { destruct OR as [[-> _]|[-> _]]; [apply (gb_coeff b G is s1 (sBegin s1) w)|apply (gb_coeff b G (is + 1) s2 (wInv w) w')]; auto. }
        assert (NE : wCoeff ws <> RtoC 0) by (intros E0; rewrite E0, Cmod_0 in CN; lra).
        unfold abs8. destruct (Rlt_dec (1 / 10 ^ 8) (Cmod (wCoeff ws))); [|contradiction]. cbn [check bind].
        set (cc := Cmult _ _).
        assert (VC : cc = (nth (Z.to_nat ib) x 0%R, if fl =? 1 then (- nth (Z.to_nat (ib + 1)) x 0)%R else nth (Z.to_nat (ib + 1)) x 0%R)).
        { unfold cc, sqrt2. pose proof sqrt2_ne as S2.
          destruct OR as [[-> ->]|[-> ->]]; cbn [Z.eqb Pos.eqb].
          - rewrite (HV _ w s1 Hw IM) by (auto; rewrite Hst; auto). unfold component. rewrite EC, F1, BI1. cbn [Z.eqb Pos.eqb]. apply Cdiv_mult2; auto.
          - rewrite (HV _ w' s2 Hw' IM) by (auto; try congruence; rewrite Hst'; auto). unfold component. rewrite C, F2, BI2. cbn [Z.eqb Pos.eqb].
            replace (ib + 1 - 1) with ib by lia. apply Cdiv_mult2; auto. }
        rewrite VC. cbn [fst snd]. rewrite BI1. rewrite set1_ok by lia. cbn [bind].
        rewrite set1_ok by (rewrite update_length; lia). cbn [bind].
        set (y := if fl =? 1 then _ else _).
        assert (VY : y = nth (Z.to_nat (ib + 1)) x 0%R) by (unfold y; destruct (fl =? 1); [apply Ropp_involutive|reflexivity]).
        rewrite VY. set (out2 := update _ _ _).
        destruct (IH (done ++ [s1; s2]) fuel out2) as [out' [P1 [P2 [P3 P4]]]]; auto; try lia.
        { cbn [length] in HF; lia. } { unfold out2. rewrite !update_length; lia. }
        { intros i Hi. unfold out2. destruct (Z.eq_dec i (ib + 1)) as [->|N].
          - rewrite nth_update_same by (rewrite update_length; lia). reflexivity.
          - rewrite nth_update_other by lia. destruct (Z.eq_dec i ib) as [->|N'].
            + rewrite nth_update_same by lia. reflexivity.
            + rewrite nth_update_other by lia. apply HP. lia. }
        exists out'. split; auto. split; [rewrite P2; unfold out2; rewrite !update_length; auto|]. split; auto.
        intros i Hi. rewrite P4 by auto. unfold out2. rewrite !nth_update_other by lia. reflexivity. }
      destruct (wImplicit w) eqn:EI.
      * rewrite (sAt_at1 _ _ _ HS2). cbn [bind]. rewrite F2. cbn [Z.eqb Pos.eqb check bind].
        rewrite (wAt_at1 _ _ _ Hw'). cbn [bind]. destruct NB as [NB|NB]; [congruence|]. rewrite NB. cbn [negb check bind].
        rewrite Hst', Z.eqb_refl. cbn [check bind fst snd]. apply (FIN w' (-1)); auto.
      * cbn [bind fst snd]. apply (FIN w 1); auto.
Qed.
End Back.
