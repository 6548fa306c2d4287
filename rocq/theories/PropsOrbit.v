(** C69: the stars of the basis that makeBasis constructs are the orbits of the waves under
    the space group, and the basis spans exactly the fields with the symmetry of the group. *)
From Coq Require Import ZArith QArith Qcanon Qreals Reals Lra Lia List Bool Sorting.Permutation.
From Coquelicot Require Import Complex.
From Verif Require Import Base RSum MeshSpec Mesh MeshProofs PropsMesh Fft FftProofs PropsFft FieldIo FieldIoProofs Symmetry SymmetryProofs SymmetryAlg PropsSymmetry Basis BasisSpec BasisProofs BasisValid PropsBasis MakeBasis MakeBasisProofs PropsMakeBasis OrbitSpec OrbitPhase OrbitStars OrbitCoeff OrbitExact OrbitFacts OrbitFourier OrbitConj OrbitSpan.
From Coq Require Import List.
Import ListNotations.
Local Open Scope Z_scope.
Local Open Scope list_scope.

(** makeBasis has constructed the basis b of a group with translations that are multiples
    of 1/N.  Not checked by the code: that the group is a group, N at most 500 (tolerances of
    1e-6 and 1e-8 separate different phases), and that the number of points of the first axis
    is divisible by the denominators of the translations (mesh_check_sound_refuted). *)
Record built (ksqOf : list Z -> R) (smin : list Z -> list Z) (sortNorm : list twave -> list twave) (m : mesh) (group : list symm) (fuel : nat) (junk N : Z) (b : basis) : Prop := mkBuilt {
  bu_mesh : setDimensions (dimensions m) = Ok m;
  bu_size : size m < 2^31;
  bu_dim : (1 <= length (dimensions m) <= 3)%nat;
  bu_group : space_group (length (dimensions m)) group;
  bu_normal : Forall (normal (length (dimensions m))) group;
  bu_sort : forall l, Permutation (sortNorm l) l;
  bu_images : forall u, length u = length (dimensions m) -> length (smin u) = length (dimensions m) /\ mShift m (smin u) = mShift m u;
  bu_frac : fractions (length (dimensions m)) group N;
  bu_N : 0 < N <= 500;
  bu_axis0 : forall s, In s group -> (Zpos (Qden (tr s 0%nat)) | nth 0 (dimensions m) 0);
  bu_make : makeBasis ksqOf smin sortNorm m group fuel junk = Ok b }.

Section C69.
Variables (ksqOf : list Z -> R) (smin : list Z -> list Z) (sortNorm : list twave -> list twave) (m : mesh) (group : list symm) (fuel : nat) (junk N : Z) (b : basis).
Hypothesis HB : built ksqOf smin sortNorm m group fuel junk N b.
Let dims := dimensions m.
Lemma bu_ne : dims <> [].
Proof. intros E. pose proof (bu_dim _ _ _ _ _ _ _ _ _ HB) as D. fold dims in D. rewrite E in D. cbn in D. lia. Qed.
Lemma bu_good : goodBasis b /\ bMesh b = m.
Proof.
  apply (of_good ksqOf smin sortNorm m group fuel junk b); try apply HB. apply bu_ne.
Qed.
Lemma bu_im : images b smin.
Proof. destruct bu_good as [_ E]. intros u. rewrite E. apply (bu_images _ _ _ _ _ _ _ _ _ HB). Qed.

Ltac from_facts lem := eapply (lem ksqOf smin sortNorm m group fuel junk b N); try apply HB; try apply bu_ne; try apply bu_im.
Lemma bu_admits : admits dims group.
Proof. eapply (of_mesh ksqOf smin sortNorm m group fuel junk b); apply HB. Qed.
Lemma bu_closed : forall i w j w' s, wAt b i w -> wAt b j w' -> In s group -> turns dims s (wDft w) (wDft w') -> wStar w' = wStar w.
Proof. from_facts orbit_closed. Qed.
Lemma bu_transitive : forall i w j w', wAt b i w -> wAt b j w' -> wStar w' = wStar w -> exists s, In s group /\ turns dims s (wDft w) (wDft w').
Proof. from_facts orbit_transitive. Qed.
Lemma bu_coeff : forall i w j w' s st, wAt b i w -> wAt b j w' -> In s group -> turns dims s (wDft w) (wDft w') -> sAt b (wStar w) st -> sCancel st = false ->
  wCoeff w' = Cmult (wCoeff w) (turn (shiftPhase dims s (wDft w))).
Proof. from_facts orbit_coeff. Qed.
Lemma bu_cancel : forall is s, sAt b is s -> (sCancel s = true <-> exists i w h, wAt b i w /\ wStar w = is /\ In h group /\ turns dims h (wDft w) (wDft w) /\ turn (shiftPhase dims h (wDft w)) <> RtoC 1).
Proof. from_facts orbit_cancel. Qed.
Lemma bu_zero : forall i w s, wAt b i w -> sAt b (wStar w) s -> sCancel s = true -> wCoeff w = RtoC 0.
Proof. from_facts cancelled_zero. Qed.
Lemma bu_norm : forall i w s, wAt b i w -> sAt b (wStar w) s -> sCancel s = false -> (Cmod (wCoeff w) = 1 / sqrt (IZR (sSize s)))%R.
Proof. from_facts coeff_norm. Qed.
Lemma bu_conjugate : conjugate b.
Proof. from_facts exact_conjugate. Qed.
End C69.

(** Two waves belong to the same star exactly if an operation of the group turns one into the
    other; every wave of the mesh belongs to a star. *)
Theorem C69_orbits : forall ksqOf smin sortNorm m group fuel junk N b, built ksqOf smin sortNorm m group fuel junk N b ->
  (forall p, in_box (dimensions m) p -> exists i w s, wAt b i w /\ wDft w = p /\ sAt b (wStar w) s /\ sBegin s <= i < sEnd s) /\
  forall i w j w', wAt b i w -> wAt b j w' -> (wStar w = wStar w' <-> exists s, In s group /\ turns (dimensions m) s (wDft w) (wDft w')).
Proof.
  intros ksqOf smin sortNorm m group fuel junk N b HB. destruct (bu_good _ _ _ _ _ _ _ _ _ HB) as [G E]. split.
  - intros p Hp. pose proof (bu_dim _ _ _ _ _ _ _ _ _ HB) as DI. rewrite <- E in Hp, DI. destruct (covered b G DI p Hp) as (i & w & Hw & EQ). destruct (gb_wave b G _ _ Hw) as [s [Hs R]]. exists i, w, s. auto.
  - intros i w j w' Hw Hw'. split.
    + intros S0. eapply (bu_transitive _ _ _ _ _ _ _ _ _ HB); eauto.
    + intros [s [H1 H2]]. symmetry. eapply (bu_closed _ _ _ _ _ _ _ _ _ HB i w j w' s); eauto.
Qed.
Print Assumptions C69_orbits.

(** A star is cancelled exactly if some operation fixes one of its waves but shifts its phase. *)
Theorem C69_cancelled : forall ksqOf smin sortNorm m group fuel junk N b, built ksqOf smin sortNorm m group fuel junk N b ->
  forall is s, sAt b is s -> (sCancel s = true <-> exists i w h, wAt b i w /\ wStar w = is /\ In h group /\
    turns (dimensions m) h (wDft w) (wDft w) /\ turn (shiftPhase (dimensions m) h (wDft w)) <> RtoC 1).
Proof. intros ksqOf smin sortNorm m group fuel junk N b HB. apply (bu_cancel _ _ _ _ _ _ _ _ _ HB). Qed.
Print Assumptions C69_cancelled.

(** Coefficients of a star: an operation of the group multiplies them by the phase of its
    translation; the norm of the basis function is 1; inverse waves have exactly conjugate
    coefficients; cancelled stars have coefficients 0. *)
Theorem C69_coefficients : forall ksqOf smin sortNorm m group fuel junk N b, built ksqOf smin sortNorm m group fuel junk N b ->
  (forall i w j w' h s, wAt b i w -> wAt b j w' -> In h group -> turns (dimensions m) h (wDft w) (wDft w') -> sAt b (wStar w) s ->
     wCoeff w' = Cmult (wCoeff w) (turn (shiftPhase (dimensions m) h (wDft w)))) /\
  (forall i w s, wAt b i w -> sAt b (wStar w) s -> Cmod (wCoeff w) = if sCancel s then 0%R else (1 / sqrt (IZR (sSize s)))%R) /\
  conjugate b.
Proof.
  intros ksqOf smin sortNorm m group fuel junk N b HB. split; [|split].
  - intros i w j w' h s Hw Hw' Hh HT Hs. destruct (sCancel s) eqn:EC; [|eapply (bu_coeff _ _ _ _ _ _ _ _ _ HB i w j w'); eauto].
    rewrite (bu_zero _ _ _ _ _ _ _ _ _ HB i w s Hw Hs EC). rewrite (bu_zero _ _ _ _ _ _ _ _ _ HB j w' s Hw'); auto; [ring|].
    rewrite (bu_closed _ _ _ _ _ _ _ _ _ HB i w j w' h); auto.
  - intros i w s Hw Hs. destruct (sCancel s) eqn:EC; [rewrite (bu_zero _ _ _ _ _ _ _ _ _ HB i w s Hw Hs EC); apply Cmod_0|apply (bu_norm _ _ _ _ _ _ _ _ _ HB i w s Hw Hs EC)].
  - apply (bu_conjugate _ _ _ _ _ _ _ _ _ HB).
Qed.
Print Assumptions C69_coefficients.

(** A field on the grid has the symmetry of the group exactly if its Fourier transform is
    that of a combination of the basis functions; the components are recovered. *)
Theorem C69_span : forall ksqOf smin sortNorm m group fuel junk N b, built ksqOf smin sortNorm m group fuel junk N b ->
  forall dm f, setDimensions (dftDims (dimensions m)) = Ok dm ->
  (invariant (dimensions m) group f <-> exists x, Z.of_nat (length x) = bNBasis b /\
    (forall out, Z.of_nat (length out) = size dm -> convertBasisToKGrid x out b (dftDims (dimensions m)) = Ok (kgrid (dimensions m) f)) /\
    (forall out, Z.of_nat (length out) = bNBasis b -> convertKGridToBasis (kgrid (dimensions m) f) out b (dftDims (dimensions m)) = Ok x)).
Proof.
  intros ksqOf smin sortNorm m group fuel junk N b HB dm f HD. destruct (bu_good _ _ _ _ _ _ _ _ _ HB) as [G E].
  pose proof (bu_admits _ _ _ _ _ _ _ _ _ HB) as A. pose proof (bu_closed _ _ _ _ _ _ _ _ _ HB) as CL. pose proof (bu_transitive _ _ _ _ _ _ _ _ _ HB) as TR.
  pose proof (bu_coeff _ _ _ _ _ _ _ _ _ HB) as CO. pose proof (bu_cancel _ _ _ _ _ _ _ _ _ HB) as CA. pose proof (bu_conjugate _ _ _ _ _ _ _ _ _ HB) as CJ.
  pose proof (bu_dim _ _ _ _ _ _ _ _ _ HB) as DI. pose proof (bu_group _ _ _ _ _ _ _ _ _ HB) as GR. pose proof (bu_normal _ _ _ _ _ _ _ _ _ HB) as NO. clear HB. subst m. split.
  - intros HF. apply (span_forward b group G A DI GR NO CJ TR CO (fun is s Hs => proj1 (CA is s Hs)) dm HD f HF).
  - intros [x [X1 [X2 _]]]. assert (P : 0 <= size dm) by (pose proof (half_size b dm G HD); lia).
    apply (span_backward b group G A DI GR NO CJ CL CO dm HD f x (repeat (RtoC 0) (Z.to_nat (size dm)))); auto; [rewrite repeat_length; lia|].
    apply X2. rewrite repeat_length. lia.
Qed.
Print Assumptions C69_span.

(** Every list of components is that of a field with the symmetry of the group: conversion to
    Fourier components and the inverse transform give that field. *)
Theorem C69_fields : forall ksqOf smin sortNorm m group fuel junk N b, built ksqOf smin sortNorm m group fuel junk N b ->
  forall dm x, setDimensions (dftDims (dimensions m)) = Ok dm -> Z.of_nat (length x) = bNBasis b ->
  exists f, invariant (dimensions m) group f /\ forall out, Z.of_nat (length out) = size dm ->
    exists k, convertBasisToKGrid x out b (dftDims (dimensions m)) = Ok k /\
      forall r, (r < nR (dimensions m))%nat -> fftInverse (dimensions m) (fun i => nth i k (RtoC 0)) r = f (gridPos (dimensions m) r).
Proof.
  intros ksqOf smin sortNorm m group fuel junk N b HB dm x HD HX. destruct (bu_good _ _ _ _ _ _ _ _ _ HB) as [G E].
  pose proof (bu_admits _ _ _ _ _ _ _ _ _ HB) as A. pose proof (bu_closed _ _ _ _ _ _ _ _ _ HB) as CL.
  pose proof (bu_coeff _ _ _ _ _ _ _ _ _ HB) as CO. pose proof (bu_conjugate _ _ _ _ _ _ _ _ _ HB) as CJ.
  pose proof (bu_dim _ _ _ _ _ _ _ _ _ HB) as DI. pose proof (bu_group _ _ _ _ _ _ _ _ _ HB) as GR. pose proof (bu_normal _ _ _ _ _ _ _ _ _ HB) as NO. clear HB. subst m.
  destruct (span_fields b group G A DI GR NO CJ CL CO dm HD x HX) as [f [F1 F2]]. exists f. split; auto. intros out HO. exists (kgrid (dimensions (bMesh b)) f). split; [apply F2; auto|].
  intros r Hr. rewrite <- (fft_inverse_forward (dimensions (bMesh b)) (fun r => f (gridPos (dimensions (bMesh b)) r)) r (gb_ne b G) (sp_pos b G) Hr) at 1.
  unfold fftInverse. apply rsum_ext. intros k Hk. unfold kgrid.
  rewrite (nth_indep _ _ (fftForward (dimensions (bMesh b)) (fun r => f (gridPos (dimensions (bMesh b)) r)) 0%nat)) by (rewrite map_length, seq_length; auto). rewrite map_nth, seq_nth by auto. reflexivity.
Qed.
Print Assumptions C69_fields.

(** ** An execution: one dimension, four grid points, group x, -x, x + 1/2, -x + 1/2: stars {0},
    {1, -1} (cancelled) and {2} *)
Definition half : Qc := Q2Qc (1 # 2).
Definition group4 : list symm := [identity1; mkSymm [[1]] [half]; mkSymm [[-1]] [0%Qc]; mkSymm [[-1]] [half]].
Definition smin4 (v : list Z) : list Z := [if nth 0 v 0 mod 4 =? 3 then -1 else nth 0 v 0 mod 4].
Definition sort4 (l : list twave) : list twave := match l with [p; q; r; s] => [p; q; s; r] | _ => l end.
Definition built4 : basis := mkBasis (mesh1 4)
  [mkWave (RtoC 1) [0] [0] 0 0 false 0; mkWave (RtoC 0) [1] [1] 1 2 false 1; mkWave (RtoC 0) [3] [-1] 1 1 true 1; mkWave (RtoC 1) [2] [2] 2 3 false 4]
  [mkStar 1 0 1 0 0 0 [0] false; mkStar 2 1 3 1 (-1) 0 [1] true; mkStar 1 3 4 2 1 0 [2] false] [0; 1; 3; 2] [0; 2] 4 2 3 2 true.
Lemma phase4 : forall z, phaseOf (mesh1 4) [z] identity1 = 0%R /\ phaseOf (mesh1 4) [z] (mkSymm [[-1]] [0%Qc]) = 0%R /\
  (forall a, phaseOf (mesh1 4) [z] (mkSymm a [half]) = reduce (IZR z / 2)).
Proof.
  intros z. unfold phaseOf. split; [|split].
  - apply reduce0. cbn. unfold Q2R. cbn. ring.
  - apply reduce0. cbn. unfold Q2R. cbn. ring.
  - intros a. f_equal. cbn. unfold Q2R. cbn. lra.
Qed.
Lemma big0 : forall x, x = 0%R -> big x = false.
Proof. intros x ->. unfold big. rewrite Rabs_R0. destruct (Rlt_dec _ 0); [lra|reflexivity]. Qed.
Lemma bigPI : big (2 * PI * (1 / 2)) = true.
Proof. unfold big. pose proof PI2_1. rewrite Rabs_pos_eq by lra. destruct (Rlt_dec _ _); [reflexivity|lra]. Qed.
Lemma same_sq : forall x y : R, x = y -> (if Rlt_dec (Rabs (x - y)) (1 / 10^8) then true else false) = true.
Proof. intros x y ->. rewrite Rminus_diag_eq, Rabs_R0 by auto. destruct (Rlt_dec _ _); [reflexivity|lra]. Qed.
Lemma ifsame : forall (A : Type) (c : bool) (x : A), (if c then x else x) = x. Proof. intros A [] x; reflexivity. Qed.
Lemma star4 : forall z d w1, mShift (mesh1 4) [z] = [d] -> smin4 [z] = [z] -> mShift (mesh1 4) [- z] = [d] -> reduce (IZR z / 2) = 0%R -> w1 = mkTw (ksq1 [z]) 0 [d] [z] ->
  starOf ksq1 smin4 (mesh1 4) w1 group4 [] false = Ok ([w1], false).
Proof.
  intros z d w1 H1 H2 H3 H4 ->. destruct (phase4 z) as [P1 [P2 P3]]. unfold group4. cbn [starOf]. unfold rotated. cbn [tBz tSq tDft tPhase]. rewrite P1, P2, !P3, H4.
  replace (rotate (mesh1 4) [z] identity1) with [z] by (unfold rotate, mkVec; cbn; f_equal; lia).
  replace (rotate (mesh1 4) [z] (mkSymm [[1]] [half])) with [z] by (unfold rotate, mkVec; cbn; f_equal; lia).
  replace (rotate (mesh1 4) [z] (mkSymm [[-1]] [0%Qc])) with [- z] by (unfold rotate, mkVec; cbn; f_equal; lia).
  replace (rotate (mesh1 4) [z] (mkSymm [[-1]] [half])) with [- z] by (unfold rotate, mkVec; cbn; f_equal; lia).
  assert (Q : ksq1 [- z] = ksq1 [z]) by (unfold ksq1; cbn [nth]; f_equal; lia). rewrite Q. rewrite !same_sq by auto. cbn [check bind].
  rewrite H1, H3. rewrite !(big0 (2 * PI * 0)) by ring. rewrite !andb_false_r. cbn [setFind find setInsert].
  assert (V : forall a b c d', dftEquiv (mkTw a b [d] c) (mkTw a 0 [d] d') = true) by (intros; unfold dftEquiv; cbn [tDft vLt]; destruct (Z.gtb_spec d d), (Z.ltb_spec d d); try lia; reflexivity).
  unfold setFind. cbn [find]. rewrite !V. cbn [tPhase]. rewrite !(big0 (reduce _)) by (apply reduce0; ring). rewrite H2. reflexivity.
Qed.
Lemma star4c : starOf ksq1 smin4 (mesh1 4) (mkTw 1 0 [1] [1]) group4 [] false = Ok ([mkTw 1 0 [1] [1]; mkTw 1 0 [3] [-1]], true).
Proof.
  destruct (phase4 1) as [P1 [P2 P3]]. unfold group4. cbn [starOf]. unfold rotated. cbn [tBz tSq tDft tPhase]. rewrite P1, P2, !P3.
  replace (reduce (1 / 2)) with (1 / 2)%R by (symmetry; rewrite (reduce_unique (1 / 2) 0); lra).
  replace (rotate (mesh1 4) [1] identity1) with [1] by reflexivity.
  replace (rotate (mesh1 4) [1] (mkSymm [[1]] [half])) with [1] by reflexivity.
  replace (rotate (mesh1 4) [1] (mkSymm [[-1]] [0%Qc])) with [-1] by reflexivity.
  replace (rotate (mesh1 4) [1] (mkSymm [[-1]] [half])) with [-1] by reflexivity.
  change (ksq1 [1]) with 1%R. change (ksq1 [-1]) with 1%R. rewrite !same_sq by auto. cbn [check bind].
  change (mShift (mesh1 4) [1]) with [1]. change (mShift (mesh1 4) [-1]) with [3]. change (smin4 [1]) with [1]. change (smin4 [-1]) with [-1].
  rewrite !(big0 (2 * PI * 0)) by ring. rewrite bigPI. cbn [eqbL Z.eqb Pos.eqb andb setFind find setInsert].
  unfold setFind. cbn [find]. change (dftEquiv (mkTw 1 (1 / 2) [1] [1]) (mkTw 1 0 [1] [1])) with true. cbv iota.
  rewrite !ifsame. change (dftEquiv (mkTw 1 0 [3] [-1]) (mkTw 1 0 [1] [1])) with false. cbv iota. cbn [setInsert vLt tDft Z.gtb Z.ltb Z.compare Pos.compare Pos.compare_cont find].
  change (dftEquiv (mkTw 1 (1 / 2) [3] [-1]) (mkTw 1 0 [1] [1])) with false. change (dftEquiv (mkTw 1 (1 / 2) [3] [-1]) (mkTw 1 0 [3] [-1])) with true. cbv iota. rewrite !ifsame. reflexivity.
Qed.
Lemma makeBasis_runs4 : makeBasis ksq1 smin4 sort4 (mesh1 4) group4 4 77 = Ok built4.
Proof.
  unfold makeBasis.
  replace (checkMeshDimensions _ _ _) with (Ok tt) by reflexivity. cbn [bind].
  replace (makeWaves _ _ _ _) with (Ok [mkTw 0 0 [0] [0]; mkTw 1 0 [1] [1]; mkTw 1 0 [3] [-1]; mkTw 4 0 [2] [2]]) by reflexivity. cbn [bind tSq lists].
  destruct (Rlt_dec (0 + 1 / 10 ^ 8) 1); [|lra]. destruct (Rlt_dec (1 + 1 / 10 ^ 8) 1); [lra|]. destruct (Rlt_dec (1 + 1 / 10 ^ 8) 4); [|lra]. cbn [rev app].
  assert (C1 : coeffOf 0 = RtoC 1) by (destruct rootOne; destruct (coeffOf 0); cbn [fst snd] in *; subst; reflexivity).
  replace (doBlocks _ _ _ _ _ _ _ _ _) with (Ok ([mkStar 1 0 1 0 0 0 [0] false; mkStar 2 1 3 0 0 0 [0] true; mkStar 1 3 4 0 0 0 [0] false],
    [mkWave (RtoC 1) [0] [0] 0 (-1) false 0; mkWave (RtoC 1) [1] [1] 0 (-1) false 1; mkWave (RtoC 1) [3] [-1] 0 (-1) false 1; mkWave (RtoC 1) [2] [2] 0 (-1) false 4], (2, 2))).
  2: {
    assert (S0 : starOf ksq1 smin4 (mesh1 4) (mkTw 0 0 [0] [0]) group4 [] false = Ok ([mkTw 0 0 [0] [0]], false)).
    { apply (star4 0 0); try reflexivity. rewrite (reduce_unique _ 0); lra. }
    assert (S2 : starOf ksq1 smin4 (mesh1 4) (mkTw 4 0 [2] [2]) group4 [] false = Ok ([mkTw 4 0 [2] [2]], false)).
    { apply (star4 2 2); try reflexivity. rewrite (reduce_unique _ (-1)); lra. }
    pose proof star4c as S1.
    assert (O1 : oneStar ksq1 smin4 (mesh1 4) group4 1 (mkBlock [mkTw 0 0 [0] [0]] (Some (mkTw 0 0 [0] [0])) 1 [] [] 0 0 0) (mkTw 0 0 [0] [0]) =
      Ok (mkBlock [] None 1 [mkTw 0 0 [0] [0]] [mkStar 1 0 1 0 0 0 [0] false] 1 1 1)).
    { unfold oneStar. rewrite S0. reflexivity. }
    assert (O2 : oneStar ksq1 smin4 (mesh1 4) group4 2 (mkBlock [mkTw 1 0 [1] [1]; mkTw 1 0 [3] [-1]] (Some (mkTw 1 0 [1] [1])) 1 [] [] 1 1 1) (mkTw 1 0 [1] [1]) =
      Ok (mkBlock [] None 1 [mkTw 1 0 [1] [1]; mkTw 1 0 [3] [-1]] [mkStar 2 1 3 0 0 0 [0] true] 3 1 1)).
    { unfold oneStar. rewrite S1. reflexivity. }
    assert (O3 : oneStar ksq1 smin4 (mesh1 4) group4 1 (mkBlock [mkTw 4 0 [2] [2]] (Some (mkTw 4 0 [2] [2])) 1 [] [] 3 1 1) (mkTw 4 0 [2] [2]) =
      Ok (mkBlock [] None 1 [mkTw 4 0 [2] [2]] [mkStar 1 3 4 0 0 0 [0] false] 4 2 2)).
    { unfold oneStar. rewrite S2. reflexivity. }
    cbn [doBlocks]. unfold doBlock.
    change (fold_left (fun l w => setInsert w l) [mkTw 0 0 [0] [0]] []) with [mkTw 0 0 [0] [0]].
    change (fold_left (fun l w => setInsert w l) [mkTw 1 0 [1] [1]; mkTw 1 0 [3] [-1]] []) with [mkTw 1 0 [1] [1]; mkTw 1 0 [3] [-1]].
    change (fold_left (fun l w => setInsert w l) [mkTw 4 0 [2] [2]] []) with [mkTw 4 0 [2] [2]].
    cbn [starLoop kList kRoot hd_error length]. rewrite O1. cbn [bind starLoop kList kTemp kStars kBegin kBasis kBasisWave length Nat.eqb check rev app map].
    rewrite O2. cbn [bind starLoop kList kTemp kStars kBegin kBasis kBasisWave length Nat.eqb check rev app map].
    rewrite O3. cbn [bind starLoop kList kTemp kStars kBegin kBasis kBasisWave length Nat.eqb check rev app map].
    unfold MakeBasis.waveOf. cbn [tPhase tDft tBz tSq]. rewrite C1. reflexivity. }
  cbn [bind].
  replace (doStars _ _ _ _) with (Ok ([mkWave (RtoC 1) [0] [0] 0 0 false 0; mkWave (RtoC 0) [1] [1] 0 2 false 1; mkWave (RtoC 0) [3] [-1] 0 1 false 1; mkWave (RtoC 1) [2] [2] 0 3 false 4],
    [mkStar 1 0 1 0 0 0 [0] false; mkStar 2 1 3 0 0 0 [1] true; mkStar 1 3 4 0 0 0 [2] false])).
  2: {
    assert (A1 : closedStar (mesh1 4) [mkWave (RtoC 1) [0] [0] 0 (-1) false 0; mkWave (RtoC 1) [1] [1] 0 (-1) false 1; mkWave (RtoC 1) [3] [-1] 0 (-1) false 1; mkWave (RtoC 1) [2] [2] 0 (-1) false 4] (mkStar 1 0 1 0 0 0 [0] false) =
      Ok ([mkWave (RtoC 1) [0] [0] 0 0 false 0; mkWave (RtoC 1) [1] [1] 0 (-1) false 1; mkWave (RtoC 1) [3] [-1] 0 (-1) false 1; mkWave (RtoC 1) [2] [2] 0 (-1) false 4], mkStar 1 0 1 0 0 0 [0] false)).
    { unfold closedStar. cbv -[Cdiv RtoC near IZR]. rewrite div11.
      change (let (x, _) := RtoC 1 in x) with 1%R. change (let (_, y) := RtoC 1 in y) with 0%R. rewrite !near_refl by lra. reflexivity. }
    assert (A2 : closedStar (mesh1 4) [mkWave (RtoC 1) [0] [0] 0 0 false 0; mkWave (RtoC 1) [1] [1] 0 (-1) false 1; mkWave (RtoC 1) [3] [-1] 0 (-1) false 1; mkWave (RtoC 1) [2] [2] 0 (-1) false 4] (mkStar 2 1 3 0 0 0 [0] true) =
      Ok ([mkWave (RtoC 1) [0] [0] 0 0 false 0; mkWave (RtoC 0) [1] [1] 0 2 false 1; mkWave (RtoC 0) [3] [-1] 0 1 false 1; mkWave (RtoC 1) [2] [2] 0 (-1) false 4], mkStar 2 1 3 0 0 0 [1] true)).
    { unfold closedStar. cbv -[Cdiv RtoC near IZR]. reflexivity. }
    assert (A3 : closedStar (mesh1 4) [mkWave (RtoC 1) [0] [0] 0 0 false 0; mkWave (RtoC 0) [1] [1] 0 2 false 1; mkWave (RtoC 0) [3] [-1] 0 1 false 1; mkWave (RtoC 1) [2] [2] 0 (-1) false 4] (mkStar 1 3 4 0 0 0 [0] false) =
      Ok ([mkWave (RtoC 1) [0] [0] 0 0 false 0; mkWave (RtoC 0) [1] [1] 0 2 false 1; mkWave (RtoC 0) [3] [-1] 0 1 false 1; mkWave (RtoC 1) [2] [2] 0 3 false 4], mkStar 1 3 4 0 0 0 [2] false)).
    { unfold closedStar. cbv -[Cdiv RtoC near IZR]. rewrite div11.
      change (let (x, _) := RtoC 1 in x) with 1%R. change (let (_, y) := RtoC 1 in y) with 0%R. rewrite !near_refl by lra. reflexivity. }
    cbn [doStars sFlag Z.eqb]. rewrite A1. cbn [fst snd bind doStars sFlag Z.eqb Pos.eqb]. rewrite A2. cbn [fst snd bind doStars sFlag Z.eqb Pos.eqb]. rewrite A3. reflexivity. }
  cbn [bind].
  replace (normStars _ _ _) with (Ok [mkWave (RtoC 1) [0] [0] 0 0 false 0; mkWave (RtoC 0) [1] [1] 1 2 false 1; mkWave (RtoC 0) [3] [-1] 1 1 false 1; mkWave (RtoC 1) [2] [2] 2 3 false 4]).
  2: { cbn [normStars sBegin sEnd sSize]. cbv -[Cmult RtoC IZR sqrt Rdiv]. rewrite !norm1. replace (Cmult (RtoC 0) (RtoC (1 / sqrt 2))) with (RtoC 0) by ring. reflexivity. }
  assert (T0 : tidy (RtoC 0) = RtoC 0).
  { unfold tidy, RtoC. cbn [fst snd]. rewrite Rabs_R0. destruct (Rlt_dec 0 _); cbn [fst snd]; rewrite Rabs_R0; destruct (Rlt_dec 0 _); reflexivity. }
  cbn [bind mapM]. unfold finishWave. cbn [wCoeff wDft wBz wStar wInv wSq]. rewrite !tidy1, !T0.
  assert (V : isValid ksq1 smin4 (setInit built4 false) = Ok true).
  { unfold isValid. cbv -[Rlt_dec Rabs Rminus Rdiv Rinv Rmult IZR Cmod RtoC pow].
    assert (K : forall x : R, x = 0%R -> ~ (1 / 10 ^ 8 < x)%R) by (intros; lra).
    assert (Z0 : forall x, Rabs (x - x) = 0%R) by (intros; rewrite Rminus_diag_eq by auto; apply Rabs_R0).
    rewrite !Z0. destruct (Rlt_dec (1 / 10 ^ 8) 0); [lra|].
    rewrite ?Cmod_0. destruct (Rlt_dec (1 / 10 ^ 8) 0); [lra|].
    destruct (Rlt_dec (1 / 10 ^ 8) (Cmod _)) as [L|L]; [|reflexivity].
    exfalso. revert L. apply K. cbn. rewrite Rplus_opp_r. replace (- 0 + - 0)%R with 0%R by ring. apply Cmod_0. }
  match goal with |- context [ws <- ?e ;; _] => replace e with (Ok (bWaves built4)) by reflexivity end.
  change (bind (isValid ksq1 smin4 (setInit built4 false)) (fun valid => check valid ;; Ok built4) = Ok built4). rewrite V. reflexivity.
Qed.
Lemma built4_built : built ksq1 smin4 sort4 (mesh1 4) group4 4 77 2 built4.
Proof.
  assert (NM : Forall (normal 1) group4).
  { assert (X : forall a q, (0 <= q)%Qc -> (q < 1)%Qc -> normal 1 (mkSymm [[a]] [q])).
    { intros a q H0 H1. split; [repeat split; repeat constructor|].
      intros i Hi. assert (i = 0%nat) by (cbn in Hi; lia). subst i. split; assumption. }
    repeat constructor; apply X; try (unfold Qcle, Qclt; cbn; unfold Qle, Qlt; cbn; lia). }
  constructor.
  - reflexivity.
  - reflexivity.
  - cbn. lia.
  - apply (space_group_isValid_iff 1 group4 NM). reflexivity.
  - exact NM.
  - intros l. destruct l as [|p [|q [|r [|s [|]]]]]; try apply Permutation_refl. cbn. do 2 apply perm_skip. apply perm_swap.
  - intros u Hu. split; [reflexivity|]. destruct u as [|z [|]]; try discriminate Hu. unfold smin4. cbn [nth].
    unfold mShift. cbn [dimensions mesh1]. apply (shift_eq [4]); try reflexivity; [constructor; [lia|constructor]|].
    intros i Hi. assert (i = 0%nat) by (cbn in Hi; lia). subst i. cbn [nth]. pose proof (Z.div_mod z 4 ltac:(lia)) as E.
    destruct (Z.eqb_spec (z mod 4) 3) as [T|T]; [exists (z / 4 + 1)|exists (z / 4)]; lia.
  - intros s i Hs Hi. assert (i = 0%nat) by (cbn in Hi; lia). subst i. destruct Hs as [<-|[<-|[<-|[<-|[]]]]]; cbn; [exists 2|exists 1|exists 2|exists 1]; reflexivity.
  - lia.
  - intros s Hs. destruct Hs as [<-|[<-|[<-|[<-|[]]]]]; cbn; [exists 4|exists 2|exists 4|exists 2]; reflexivity.
  - apply makeBasis_runs4.
Qed.
(** The field with values 1, 5, 1, 5 has the symmetry of this group; that with values
    1, 5, 2, 5 does not, though it is symmetric under inversion. *)
Example field4 : invariant [4] group4 (fun r => if Z.even (nth 0 r 0) then 1%R else 5%R).
Proof.
  intros s r r' Hs Hr Hr' M. destruct (M 0%nat ltac:(cbn; lia)) as [z E].
  assert (P : exists k, nth 0 r' 0 = nth 0 r 0 + 2 * k).
  { assert (X : forall a (t : Z), Rm s 0 0 = a -> (Q2R (this (tr s 0)) = IZR t / 2)%R -> nth 0 r' 0 = a * nth 0 r 0 + 2 * t + 4 * z).
    { intros a t Ha Ht. rewrite Ht in E. cbn [length rsum] in E. rewrite Ha in E. cbn [nth] in E. apply eq_IZR. rewrite !plus_IZR, !mult_IZR. lra. }
    destruct Hs as [<-|[<-|[<-|[<-|[]]]]].
    - pose proof (X 1 0 eq_refl ltac:(unfold Q2R; cbn; lra)). exists (2 * z). lia.
    - pose proof (X 1 1 eq_refl ltac:(unfold Q2R; cbn; lra)). exists (1 + 2 * z). lia.
    - pose proof (X (-1) 0 eq_refl ltac:(unfold Q2R; cbn; lra)). exists (2 * z - nth 0 r 0). lia.
    - pose proof (X (-1) 1 eq_refl ltac:(unfold Q2R; cbn; lra)). exists (1 + 2 * z - nth 0 r 0). lia. }
  destruct P as [k ->]. rewrite Z.even_add_mul_2. reflexivity.
Qed.
Example field4_components : exists x, length x = 2%nat /\ convertKGridToBasis (kgrid [4] (fun r => if Z.even (nth 0 r 0) then 1%R else 5%R)) [0; 0]%R built4 [3] = Ok x.
Proof.
  destruct (proj1 (C69_span _ _ _ _ _ _ _ _ _ built4_built (mesh1 3) _ eq_refl) field4) as [x [X1 [_ X2]]]. exists x. split; [cbn in X1; lia|]. apply X2. reflexivity.
Qed.
Definition other4 (r : list Z) : R := nth (Z.to_nat (nth 0 r 0)) [1; 5; 2; 5]%R 0%R.
Example field4_other : ~ exists x, Z.of_nat (length x) = 2 /\
  (forall out, Z.of_nat (length out) = 3 -> convertBasisToKGrid x out built4 [3] = Ok (kgrid [4] other4)) /\
  (forall out, Z.of_nat (length out) = 2 -> convertKGridToBasis (kgrid [4] other4) out built4 [3] = Ok x).
Proof.
  intros X. apply (proj2 (C69_span _ _ _ _ _ _ _ _ _ built4_built (mesh1 3) _ eq_refl)) in X.
  assert (B : forall z, 0 <= z < 4 -> in_box [4] [z]) by (intros; constructor; [lia|constructor]).
  pose proof (X (mkSymm [[1]] [half]) [0] [2] ltac:(cbn; auto) (B 0 ltac:(lia)) (B 2 ltac:(lia))) as E. unfold other4 in E. change (moves [4] (mkSymm [[1]] [half]) [0] [2] -> 2%R = 1%R) in E.
  assert (M : moves [4] (mkSymm [[1]] [half]) [0] [2]); [|specialize (E M); lra].
  intros i Hi. assert (i = 0%nat) by (cbn in Hi; lia). subst i. exists 0. cbn. unfold Q2R. cbn. lra.
Qed.
