(** The basis that makeBasis constructs: conversions of fields with it. *)
From Coq Require Import ZArith QArith Qcanon Qreals Reals Lra Lia List Bool Sorting.Permutation.
From Coquelicot Require Import Complex.
From Verif Require Import Base RSum Mesh PropsMesh FieldIo Symmetry Basis BasisSpec BasisProofs PropsBasis BasisValid MakeBasis MakeBasisProofs.
From Coq Require Import List.
Import ListNotations.
Local Open Scope Z_scope.
Local Open Scope list_scope.

(** ** An execution: one dimension, three grid points, trivial group: star {0} and the
    pair {1}, {-1} *)
Definition identity1 : symm := mkSymm [[1]] [0%Qc].
Definition ksq1 (v : list Z) : R := IZR (nth 0 v 0 * nth 0 v 0).
Definition smin3 (v : list Z) : list Z := [if nth 0 v 0 =? 2 then -1 else nth 0 v 0].
Lemma reduce0 : forall x, x = 0%R -> reduce x = 0%R.
Proof. intros x ->. rewrite (reduce_unique 0 0); lra. Qed.
Lemma star1 : forall d z, mShift (mesh1 3) [z] = [d] -> smin3 [z] = [z] ->
  starOf ksq1 smin3 (mesh1 3) (mkTw (ksq1 [z]) 0 [d] [z]) [identity1] [] false = Ok ([mkTw (ksq1 [z]) 0 [d] [z]], false).
Proof.
  intros d z H1 H2. cbn [starOf]. unfold rotated. cbn [tBz tSq tDft].
  replace (rotate (mesh1 3) [z] identity1) with [z] by (unfold rotate, mkVec; cbn; f_equal; lia).
  assert (Z0 : phaseOf (mesh1 3) [z] identity1 = 0%R).
  { unfold phaseOf. apply reduce0. cbn. unfold Q2R. cbn. ring. }
  rewrite Z0, H1, H2. cbn [tPhase]. rewrite Rmult_0_r, Rminus_diag_eq, Rabs_R0 by auto.
  destruct (Rlt_dec 0 (1 / 10 ^ 8)); [|lra]. cbn [check bind setFind find setInsert].
  unfold big. rewrite Rabs_R0. destruct (Rlt_dec (1 / 10 ^ 6) 0); [lra|]. rewrite andb_false_r. reflexivity.
Qed.
Lemma rootOne : fst (coeffOf 0) = 1%R /\ snd (coeffOf 0) = 0%R.
Proof.
  unfold coeffOf. rewrite Rmult_0_r, cos_0, sin_0. cbn [fst snd]. rewrite Rabs_R0. destruct (Rlt_dec 0 _) as [L|L]; [|exfalso; apply L; lra].
  cbn [fst snd]. rewrite Rabs_R1. destruct (Rlt_dec 1 _); cbn [fst snd]; split; lra.
Qed.
Lemma div11 : Cdiv (RtoC 1) (RtoC 1) = RtoC 1.
Proof. unfold Cdiv. rewrite Cinv_r; auto. intros H. injection H. lra. Qed.
Lemma near_refl : forall x t, (0 < t)%R -> near x x t = true.
Proof. intros x t H. unfold near. rewrite Rminus_diag_eq, Rabs_R0 by auto. destruct (Rlt_dec 0 t); [auto|lra]. Qed.
Lemma norm1 : forall c, Cmult c (RtoC (1 / sqrt 1)) = c.
Proof. intros c. rewrite sqrt_1. replace (1 / 1)%R with 1%R by lra. ring. Qed.
Lemma tidy1 : tidy (RtoC 1) = RtoC 1.
Proof.
  unfold tidy, RtoC. cbn [fst snd]. rewrite Rabs_R1. destruct (Rlt_dec 1 _); [lra|]. cbn [fst snd]. rewrite Rabs_R0. destruct (Rlt_dec 0 _); [reflexivity|lra].
Qed.
Definition built3 : basis := mkBasis (mesh1 3)
  [mkWave (RtoC 1) [0] [0] 0 0 false 0; mkWave (RtoC 1) [1] [1] 1 2 false 1; mkWave (RtoC 1) [2] [-1] 2 1 true 1]
  [mkStar 1 0 1 0 0 0 [0] false; mkStar 1 1 2 1 1 1 [1] false; mkStar 1 2 3 2 2 (-1) [-1] false] [0; 1; 2] [0; 1; 2] 3 3 3 3 true.
Lemma makeBasis_runs : makeBasis ksq1 smin3 (fun l => l) (mesh1 3) [identity1] 3 77 = Ok built3.
Proof.
  unfold makeBasis.
  replace (checkMeshDimensions _ _ _) with (Ok tt) by reflexivity. cbn [bind].
  replace (makeWaves _ _ _ _) with (Ok [mkTw 0 0 [0] [0]; mkTw 1 0 [1] [1]; mkTw 1 0 [2] [-1]]) by reflexivity. cbn [bind tSq lists].
  destruct (Rlt_dec (0 + 1 / 10 ^ 8) 1); [|lra]. destruct (Rlt_dec (1 + 1 / 10 ^ 8) 1); [lra|]. cbn [rev app].
  assert (C1 : coeffOf 0 = RtoC 1) by (destruct rootOne; destruct (coeffOf 0); cbn [fst snd] in *; subst; reflexivity).
  replace (doBlocks _ _ _ _ _ _ _ _ _) with (Ok ([mkStar 1 0 1 0 0 0 [0] false; mkStar 1 1 2 0 0 1 [0] false; mkStar 1 2 3 0 0 (-1) [0] false],
    [mkWave (RtoC 1) [0] [0] 0 (-1) false 0; mkWave (RtoC 1) [1] [1] 0 (-1) false 1; mkWave (RtoC 1) [2] [-1] 0 (-1) false 1], (3, 3))).
  2: {
    pose proof (star1 0 0 eq_refl eq_refl) as S0. pose proof (star1 1 1 eq_refl eq_refl) as S1. pose proof (star1 2 (-1) eq_refl eq_refl) as S2.
    change (ksq1 [0]) with 0%R in S0. change (ksq1 [1]) with 1%R in S1. change (ksq1 [-1]) with 1%R in S2.
    assert (O1 : oneStar ksq1 smin3 (mesh1 3) [identity1] 1 (mkBlock [mkTw 0 0 [0] [0]] (Some (mkTw 0 0 [0] [0])) 1 [] [] 0 0 0) (mkTw 0 0 [0] [0]) =
      Ok (mkBlock [] None 1 [mkTw 0 0 [0] [0]] [mkStar 1 0 1 0 0 0 [0] false] 1 1 1)).
    { unfold oneStar. rewrite S0. reflexivity. }
    assert (O2 : oneStar ksq1 smin3 (mesh1 3) [identity1] 2 (mkBlock [mkTw 1 0 [1] [1]; mkTw 1 0 [2] [-1]] (Some (mkTw 1 0 [1] [1])) 1 [] [] 1 1 1) (mkTw 1 0 [1] [1]) =
      Ok (mkBlock [mkTw 1 0 [2] [-1]] (Some (mkTw 1 0 [2] [-1])) (-1) [mkTw 1 0 [1] [1]] [mkStar 1 1 2 0 0 1 [0] false] 2 2 2)).
    { unfold oneStar. rewrite S1. reflexivity. }
    assert (O3 : oneStar ksq1 smin3 (mesh1 3) [identity1] 2 (mkBlock [mkTw 1 0 [2] [-1]] (Some (mkTw 1 0 [2] [-1])) (-1) [mkTw 1 0 [1] [1]] [mkStar 1 1 2 0 0 1 [0] false] 2 2 2) (mkTw 1 0 [2] [-1]) =
      Ok (mkBlock [] None 1 [mkTw 1 0 [1] [1]; mkTw 1 0 [2] [-1]] [mkStar 1 2 3 0 0 (-1) [0] false; mkStar 1 1 2 0 0 1 [0] false] 3 3 3)).
    { unfold oneStar. rewrite S2. reflexivity. }
    cbn [doBlocks]. unfold doBlock.
    change (fold_left (fun l w => setInsert w l) [mkTw 0 0 [0] [0]] []) with [mkTw 0 0 [0] [0]].
    change (fold_left (fun l w => setInsert w l) [mkTw 1 0 [1] [1]; mkTw 1 0 [2] [-1]] []) with [mkTw 1 0 [1] [1]; mkTw 1 0 [2] [-1]].
    cbn [starLoop kList kRoot hd_error length]. rewrite O1. cbn [bind starLoop kList kTemp kStars kBegin kBasis kBasisWave length Nat.eqb check rev app map].
    rewrite O2. cbn [bind starLoop kList kRoot]. rewrite O3. cbn [bind starLoop kList kTemp kStars kBegin kBasis kBasisWave length Nat.eqb check rev app map].
    unfold waveOf. cbn [tPhase tDft tBz tSq]. rewrite C1. reflexivity. }
  cbn [bind].
  replace (doStars _ _ _ _) with (Ok ([mkWave (RtoC 1) [0] [0] 0 0 false 0; mkWave (RtoC 1) [1] [1] 0 2 false 1; mkWave (RtoC 1) [2] [-1] 0 1 false 1],
    [mkStar 1 0 1 0 0 0 [0] false; mkStar 1 1 2 0 0 1 [1] false; mkStar 1 2 3 0 0 (-1) [-1] false])).
  2: {
    assert (CS : closedStar (mesh1 3) [mkWave (RtoC 1) [0] [0] 0 (-1) false 0; mkWave (RtoC 1) [1] [1] 0 (-1) false 1; mkWave (RtoC 1) [2] [-1] 0 (-1) false 1] (mkStar 1 0 1 0 0 0 [0] false) =
      Ok ([mkWave (RtoC 1) [0] [0] 0 0 false 0; mkWave (RtoC 1) [1] [1] 0 (-1) false 1; mkWave (RtoC 1) [2] [-1] 0 (-1) false 1], mkStar 1 0 1 0 0 0 [0] false)).
    { unfold closedStar. cbv -[Cdiv RtoC near IZR]. rewrite div11.
      change (let (x, _) := RtoC 1 in x) with 1%R. change (let (_, y) := RtoC 1 in y) with 0%R. rewrite !near_refl by lra. reflexivity. }
    assert (OS : openStars (mesh1 3) [mkWave (RtoC 1) [0] [0] 0 0 false 0; mkWave (RtoC 1) [1] [1] 0 (-1) false 1; mkWave (RtoC 1) [2] [-1] 0 (-1) false 1] (mkStar 1 1 2 0 0 1 [0] false) (mkStar 1 2 3 0 0 (-1) [0] false) =
      Ok ([mkWave (RtoC 1) [0] [0] 0 0 false 0; mkWave (RtoC 1) [1] [1] 0 2 false 1; mkWave (RtoC 1) [2] [-1] 0 1 false 1], mkStar 1 1 2 0 0 1 [1] false, mkStar 1 2 3 0 0 (-1) [-1] false)).
    { unfold openStars. cbv -[Cdiv RtoC near IZR]. rewrite !div11. reflexivity. }
    cbn [doStars sFlag Z.eqb]. rewrite CS. cbn [fst snd bind doStars sFlag Z.eqb Pos.eqb]. rewrite OS. reflexivity. }
  cbn [bind].
  replace (normStars _ _ _) with (Ok [mkWave (RtoC 1) [0] [0] 0 0 false 0; mkWave (RtoC 1) [1] [1] 1 2 false 1; mkWave (RtoC 1) [2] [-1] 2 1 false 1]).
  2: { cbn [normStars sBegin sEnd sSize]. cbv -[Cmult RtoC IZR sqrt Rdiv]. rewrite !norm1. reflexivity. }
  cbn [bind mapM]. unfold finishWave. cbn [wCoeff wDft wBz wStar wInv wSq]. rewrite !tidy1.
  assert (V : isValid ksq1 smin3 (setInit built3 false) = Ok true).
  { unfold isValid. cbv -[Rlt_dec Rabs Rminus Rdiv Rinv Rmult IZR Cmod RtoC pow].
    assert (K : forall x : R, x = 0%R -> ~ (1 / 10 ^ 8 < x)%R) by (intros; lra).
    assert (Z0 : forall x, Rabs (x - x) = 0%R) by (intros; rewrite Rminus_diag_eq by auto; apply Rabs_R0).
    rewrite !Z0. destruct (Rlt_dec (1 / 10 ^ 8) 0); [lra|].
    destruct (Rlt_dec (1 / 10 ^ 8) (Cmod _)) as [L|L]; [|reflexivity].
    exfalso. revert L. apply K. cbn. rewrite Rplus_opp_r. replace (- 0 + - 0)%R with 0%R by ring. apply Cmod_0. }
  match goal with |- context [ws <- ?e ;; _] => replace e with (Ok (bWaves built3)) by reflexivity end.
  change (bind (isValid ksq1 smin3 (setInit built3 false)) (fun valid => check valid ;; Ok built3) = Ok built3). rewrite V. reflexivity.
Qed.

(** What makeBasis constructs: every set of components of the right length is converted
    to Fourier components and back without change. *)
Theorem C25_makeBasis : forall ksqOf smin sortNorm m group fuel junk b,
  dimensions m <> [] -> setDimensions (dimensions m) = Ok m -> size m < 2^31 -> group <> [] -> (forall l, Permutation (sortNorm l) l) ->
  makeBasis ksqOf smin sortNorm m group fuel junk = Ok b ->
  nearConjugate b /\
  forall dm x out out', setDimensions (dftDims (dimensions m)) = Ok dm -> Z.of_nat (length x) = bNBasis b ->
    Z.of_nat (length out) = size dm -> Z.of_nat (length out') = bNBasis b ->
    exists k, convertBasisToKGrid x out b (dftDims (dimensions m)) = Ok k /\ convertKGridToBasis k out' b (dftDims (dimensions m)) = Ok x.
Proof.
  intros ksqOf smin sortNorm m group fuel junk b H1 H2 H3 H4 H5 HM. destruct (makeBasis_good _ _ _ _ _ _ _ _ H1 H2 H3 H4 H5 HM) as [G [EM [NC _]]].
  split; auto. intros dm x out out' HD HX HO HO'.
  assert (HH : halfDims b = dftDims (dimensions m)) by (unfold halfDims; rewrite EM; auto).
  rewrite <- HH. apply C25_roundtrip; auto. intros dm' HD'. rewrite HH, HD in HD'. injection HD' as <-. exact HO.
Qed.
Print Assumptions C25_makeBasis.
Example built3_roundtrip : exists k, convertBasisToKGrid [5; 7; 11]%R (repeat (RtoC 9) 2) built3 [2] = Ok k /\ convertKGridToBasis k [0; 0; 0]%R built3 [2] = Ok [5; 7; 11]%R.
Proof.
  destruct (C25_makeBasis ksq1 smin3 (fun l => l) (mesh1 3) [identity1] 3 77 built3) as [_ C]; try discriminate; try reflexivity; auto.
  { apply makeBasis_runs. }
  apply (C (mesh1 2)); reflexivity.
Qed.

(** ** Order of the waves of a star *)
(** a is before c in lexicographic order. *)
Definition lexBefore (a c : list Z) : Prop :=
  exists k, (k < length a)%nat /\ (forall i, (i < k)%nat -> nth i a 0 = nth i c 0) /\ nth k a 0 < nth k c 0.
Lemma lexBefore_trans : forall a c d, length a = length c -> lexBefore a c -> lexBefore c d -> lexBefore a d.
Proof.
  intros a c d HL (k & K1 & K2 & K3) (j & J1 & J2 & J3). destruct (Nat.lt_trichotomy k j) as [L|[L|L]].
  - exists k. split; [lia|]. split; [intros i Hi; rewrite K2, J2 by lia; auto|]. rewrite <- J2 by lia. exact K3.
  - subst j. exists k. split; [lia|]. split; [intros i Hi; rewrite K2, J2 by lia; auto|]. lia.
  - exists j. split; [lia|]. split; [intros i Hi; rewrite K2, J2 by lia; auto|]. rewrite K2 by lia. exact J3.
Qed.
Lemma vLt_total : forall a c, length a = length c -> vLt c a = false -> a <> c -> lexBefore a c.
Proof.
  induction a as [|x a IH]; intros [|y c] HL HF HN; try discriminate HL; [congruence|]. cbn [vLt] in HF.
  destruct (Z.gtb_spec y x) as [L|L].
  - exists 0%nat. split; [cbn [length]; lia|]. split; [intros i Hi; lia|]. cbn [nth]. lia.
  - destruct (Z.ltb_spec y x) as [L'|L']; [discriminate|]. assert (x = y) by lia. subst y.
    destruct (IH c) as (k & K1 & K2 & K3); auto. { congruence. }
    exists (S k). split; [cbn [length]; lia|]. split; [|exact K3]. intros [|i] Hi; auto. cbn [nth]. apply K2. lia.
Qed.
(** A basis that isValid accepts has the waves of every star in strictly descending
    order of their indices in the Brillouin zone. *)
Theorem C25_star_order : forall ksqOf smin b, isValid ksqOf smin b = Ok true -> bNStar b = Z.of_nat (length (bStars b)) ->
  (forall w, In w (bWaves b) -> length (wBz w) = length (dimensions (bMesh b))) ->
  forall is s i j w w', sAt b is s -> sBegin s <= i < j -> j < sEnd s -> wAt b i w -> wAt b j w' -> lexBefore (wBz w') (wBz w).
Proof.
  intros ksqOf smin b HV HN HL is s i j w w' Hs Hij Hj Hw Hw'.
  assert (R : 0 <= is < bNStar b).
  { destruct Hs as [H1 H2]. assert (Z.to_nat is < length (bStars b))%nat by (apply nth_error_Some; congruence). lia. }
  assert (LEN : forall k v, wAt b k v -> length (wBz v) = length (dimensions (bMesh b))) by (intros k v [_ Hv]; apply HL; eapply nth_error_In; eauto).
  assert (ADJ : forall k v v', sBegin s < k < sEnd s -> wAt b (k - 1) v -> wAt b k v' -> lexBefore (wBz v') (wBz v)).
  { intros k v v' Hk Hv Hv'. destruct (v_parts ksqOf smin b HV) as [_ [_ [H _]]]. specialize (H is R).
    unfold validStar in H. rewrite (sAt_at1 _ _ _ Hs) in H. cbn [bind] in H.
    inv_test H. inv_bind H. inv_test H. inv_bind H. inv_test H. inv_bind H. inv_test H. inv_test H. inv_bind H. inv_test H. inv_bind H. inv_test H. subst.
    apply (proj1 (loopB_true _ _ _)) with (x := k) in E9; [|apply range_in; lia].
    rewrite (wAt_at1 _ _ _ Hv'), (wAt_at1 _ _ _ Hv) in E9. cbn [bind] in E9. injection E9 as E9. apply andb_prop in E9. destruct E9 as [F1 F2].
    apply negb_true_iff in F1, F2. apply vLt_total; auto; [rewrite (LEN _ _ Hv), (LEN _ _ Hv'); auto|].
    intros X. apply eqbL_eq in X. congruence. }
  assert (G : forall n k v', k = i + 1 + Z.of_nat n -> k < sEnd s -> wAt b k v' -> lexBefore (wBz v') (wBz w)).
  { induction n as [|n IH]; intros k v' Hk Hke Hv'.
    - apply (ADJ k); [lia| |auto]. replace (k - 1) with i by lia. auto.
    - assert (P := wAt_range _ _ _ Hv'). destruct (nth_error (bWaves b) (Z.to_nat (k - 1))) as [v|] eqn:Ev.
      2:{ apply nth_error_None in Ev. lia. }
      assert (Hv : wAt b (k - 1) v) by (split; [destruct Hw; lia|auto]).
      apply lexBefore_trans with (c := wBz v); [rewrite (LEN _ _ Hv), (LEN _ _ Hv'); auto|apply (ADJ k); auto; lia|apply (IH (k - 1)); auto; lia]. }
  apply (G (Z.to_nat (j - i - 1)) j); auto. lia.
Qed.
Print Assumptions C25_star_order.
