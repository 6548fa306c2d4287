(** C45: lattices and parameters that a film accepts.
    C62: the fields of a film have the symmetry of the space group.
    C64: lattice parameters that stay flexible in a film. *)
From Coq Require Import Reals ZArith QArith Qcanon Qreals String Bool Arith Lia Lra.
From Coquelicot Require Import Coquelicot.
From Coq Require Import List.
From Verif Require Import Base RSum UnitCell Symmetry Environment Film FilmSpec FilmProofs PropsEnvironment.
Import ListNotations.
Local Open Scope R_scope.

(* ---------- C45 ---------- *)
(** Full statement: checkLatticeVectors throws whenever the normal vector is not
    orthogonal to another lattice vector (up to 1e-8), and readParameters
    accepts normalVecId only in [0,D).  Both parts fail: see C45_refuted and
    C45_normalVecId_refuted.  What holds: *)
Lemma rows : forall l, dim l = 1%nat \/ dim l = 2%nat \/ dim l = 3%nat.
Proof. destruct l; cbn; auto. Qed.

Theorem C45_partial : forall l p n, (n < dim l)%nat ->
  (checkLatticeVectors l p (Z.of_nat n) = Throw <->
   exists j, (j < dim l)%nat /\ j <> n /\ inner (dim l) (rBasis l p n) (rBasis l p j) > / 10 ^ 8) /\
  (checkLatticeVectors l p (Z.of_nat n) = Throw \/ checkLatticeVectors l p (Z.of_nat n) = Ok tt).
Proof.
  intros l p n L. unfold checkLatticeVectors. cbv zeta.
  assert (E8 : eps8 = / 10 ^ 8) by (unfold eps8; f_equal; ring).
  destruct (rows l) as [E|[E|E]]; rewrite E in *.
  - split; auto. split; [discriminate|]. intros (j & J & N & _). lia.
  - rewrite dot_inner. split.
    + destruct (gtb (inner 2 (rBasis l p 0%nat) (rBasis l p 1%nat)) eps8) eqn:G.
      * split; auto. intros _. apply gtb_spec in G.
        exists (1 - n)%nat. split; [lia|]. split; [lia|].
        destruct n as [|[|]]; [| |lia]; cbn [Nat.sub]; [|rewrite inner_comm]; lra.
      * split; [discriminate|]. intros (j & J & N & D). exfalso.
        assert (gtb (inner 2 (rBasis l p 0%nat) (rBasis l p 1%nat)) eps8 = true); [|congruence].
        apply gtb_spec.
        destruct n as [|[|]], j as [|[|]]; try lia; [|rewrite inner_comm]; lra.
    + destruct (gtb _ _); auto.
  - rewrite !dot_inner.
    set (g01 := inner 3 (rBasis l p 0%nat) (rBasis l p 1%nat)).
    set (g02 := inner 3 (rBasis l p 0%nat) (rBasis l p 2%nat)).
    set (g12 := inner 3 (rBasis l p 1%nat) (rBasis l p 2%nat)).
    assert (C01 : inner 3 (rBasis l p 1%nat) (rBasis l p 0%nat) = g01) by apply inner_comm.
    assert (C02 : inner 3 (rBasis l p 2%nat) (rBasis l p 0%nat) = g02) by apply inner_comm.
    assert (C12 : inner 3 (rBasis l p 2%nat) (rBasis l p 1%nat) = g12) by apply inner_comm.
    assert (K : forall a b (P : Prop), (P <-> (eps8 < a \/ eps8 < b)) ->
      ((if gtb a eps8 || gtb b eps8 then Throw else Ok tt) = Throw <-> P) /\
      ((if gtb a eps8 || gtb b eps8 then Throw else Ok tt) = Throw \/
       (if gtb a eps8 || gtb b eps8 then Throw else Ok tt) = Ok tt)).
    { intros a b P H. unfold gtb. destruct (Rlt_dec eps8 a), (Rlt_dec eps8 b); cbn [orb]; split; auto;
      (split; [intros X; try discriminate; apply H; auto | intros X; try reflexivity; apply H in X; lra]). }
    destruct n as [|[|[|]]]; [| | |lia]; cbn [Z.of_nat Z.eqb Pos.of_succ_nat Pos.succ Pos.eqb];
      apply K; (split;
      [ intros (j & J & N & D); destruct j as [|[|[|]]]; try lia; fold g01 g02 g12 in D; lra
      | intros [X|X] ]).
    + exists 2%nat. split; [lia|]. split; [lia|]. fold g02. lra.
    + exists 1%nat. split; [lia|]. split; [lia|]. fold g01. lra.
    + exists 2%nat. split; [lia|]. split; [lia|]. fold g12. lra.
    + exists 0%nat. split; [lia|]. split; [lia|]. lra.
    + exists 1%nat. split; [lia|]. split; [lia|]. lra.
    + exists 0%nat. split; [lia|]. split; [lia|]. lra.
Qed.

(** Cells that meet the requirement are accepted. *)
Theorem C45_orthogonal_accepted : forall l p n, (n < dim l)%nat -> normalTo (dim l) (rBasis l p) n ->
  checkLatticeVectors l p (Z.of_nat n) = Ok tt.
Proof.
  intros l p n L H. destruct (C45_partial l p n L) as [[A _] [B|B]]; auto.
  destruct (A B) as (j & J & N & D). rewrite (H j J N) in D.
  assert (0 < / 10 ^ 8) by (apply Rinv_0_lt_compat, pow_lt; lra). lra.
Qed.

(** Every two-dimensional hexagonal lattice is accepted, though its vectors form
    an angle of 120 degrees. *)
Theorem C45_hexagonal : forall p n, (n < 2)%nat -> 0 < p 0%nat ->
  checkLatticeVectors Hexagonal2 p (Z.of_nat n) = Ok tt /\
  inner 2 (rBasis Hexagonal2 p 0%nat) (rBasis Hexagonal2 p 1%nat) = - (p 0%nat * p 0%nat / 2) /\
  ~ normalTo 2 (rBasis Hexagonal2 p) n.
Proof.
  intros p n L P.
  assert (E : inner 2 (rBasis Hexagonal2 p 0%nat) (rBasis Hexagonal2 p 1%nat) = - (p 0%nat * p 0%nat / 2)).
  { cbn. unfold rBasis, get2. cbn. lra. }
  assert (Q : 0 < p 0%nat * p 0%nat) by nra.
  split; [|split; auto].
  - destruct (C45_partial Hexagonal2 p n L) as [[A _] [B|B]]; auto.
    destruct (A B) as (j & J & N & D). cbn [dim] in *.
    assert (0 < / 10 ^ 8) by (apply Rinv_0_lt_compat, pow_lt; lra).
    destruct n as [|[|]], j as [|[|]]; try lia; [|rewrite inner_comm in D]; rewrite E in D; lra.
  - intro H. destruct n as [|[|]]; [| |lia].
    + specialize (H 1%nat ltac:(lia) ltac:(lia)). lra.
    + specialize (H 0%nat ltac:(lia) ltac:(lia)). rewrite inner_comm in H. lra.
Qed.

Theorem C45_refuted : exists l p n, (n < dim l)%nat /\ checkLatticeVectors l p (Z.of_nat n) = Ok tt /\
  exists j, (j < dim l)%nat /\ j <> n /\ inner (dim l) (rBasis l p n) (rBasis l p j) = -2.
Proof.
  exists Hexagonal2, (fun _ => 2), 0%nat. split; [cbn; lia|].
  destruct (C45_hexagonal (fun _ => 2) 0 ltac:(lia) ltac:(lra)) as (A & B & _). split; auto.
  exists 1%nat. cbn [dim]. split; [lia|]. split; [lia|]. rewrite B. lra.
Qed.

(** Parameters that are accepted: normalVecId in [0,D], D included. *)
Theorem C45_parameters : forall D nv it et,
  (checkFilm D nv it et = Ok tt <-> (0 <= nv <= Z.of_nat D)%Z /\ 0 < it <= et) /\
  (checkFilm D nv it et = Ok tt \/ checkFilm D nv it et = Throw).
Proof.
  intros D nv it et. unfold checkFilm.
  destruct (Z.ltb_spec (Z.of_nat D) nv); cbn [orb]; [split; auto; split; [discriminate|lia]|].
  destruct (Z.ltb_spec nv 0); [split; auto; split; [discriminate|lia]|].
  unfold gtb, geb. destruct (Rlt_dec et it); [split; auto; split; [discriminate|intros []; lra]|].
  destruct (Rle_dec et 0), (Rle_dec it 0); cbn [orb]; (split; auto; split; intros X; try discriminate; auto; try lra).
  split; [lia|lra].
Qed.

Theorem C45_normalVecId_refuted : forall D it et cb ct fb, 0 < it <= et ->
  exists g g',
  maskRead D [EInt "normalVecId" (Z.of_nat D); EReal "interfaceThickness" it; EReal "excludedThickness" et; EReal "fBulk" fb] newMaskGen
    = Ok (g, []) /\ mNv g = Z.of_nat D /\
  extRead D (List.length cb) [EInt "normalVecId" (Z.of_nat D); EReal "interfaceThickness" it; EReal "excludedThickness" et; EReal "fBulk" fb;
      EArr "chiBottom" cb; EArr "chiTop" ct] newExtGen
    = (if Nat.eqb (List.length ct) (List.length cb) then Ok (g', []) else Throw) /\ xNv g' = Z.of_nat D.
Proof.
  intros D it et cb ct fb H.
  assert (C : checkFilm D (Z.of_nat D) it et = Ok tt) by (apply C45_parameters; split; [lia|auto]).
  eexists (mkMaskGen (Z.of_nat D) it et (Some fb) (fun _ => 0)), (mkExtGen (Z.of_nat D) it et cb ct None (fun _ => 0)).
  unfold maskRead, extRead, rdInt, rdReal, rdOptional, rdArr. cbn -[Z.of_nat checkFilm Nat.eqb]. rewrite !C. cbn [bind].
  rewrite Nat.eqb_refl. split; auto. split; auto. split; auto.
  cbn -[Z.of_nat Nat.eqb].
  destruct (Nat.eqb (List.length ct) (List.length cb)); reflexivity.
Qed.

(** Such a film indexes the arrays of the lattice out of their bounds as soon as
    fields are generated (in a rigid cell). *)
Theorem C45_normalVecId_undefined : forall w g s t,
  mNv g = Z.of_nat (fD w) -> mCur g = (fun _ => 0) -> fIsFlex w = false -> fGroup w = s :: t ->
  forall st fs, genGenerate (filmMask st fs) w g = UB.
Proof.
  intros w g s t N C F G st fs. unfold genGenerate. cbn [filmMask gNeeds gCheck gCompute].
  unfold maskNeeds. assert (E : (0 <=? mNv g)%Z = true) by (apply Z.leb_le; lia). rewrite E. cbn [check bind].
  rewrite C, realVecEq_refl. cbn [bind].
  unfold maskCheck, setFlexible. rewrite F. cbn [bind]. rewrite G. cbn [checkGroup].
  assert (Q : ((0 <=? mNv g) && (mNv g <? Z.of_nat (fD w)))%Z = false).
  { apply andb_false_iff. right. apply Z.ltb_ge. lia. }
  rewrite Q. reflexivity.
Qed.

(** Reading interfaceThickness = excludedThickness succeeds, making the mask does not. *)
Theorem C45_equal_thickness : forall w g, mIT g = mET g -> forall r, maskCompute w g <> Ok r.
Proof.
  intros w g E [g' w'] H. destruct (maskCompute_ok _ _ _ _ H) as (L & n & _ & _ & _ & X & _). lra.
Qed.

Definition cellAngle (gamma : R) (i : nat) : R := match i with 2%nat => gamma | _ => 2 end.
Definition filmAngle (gamma : R) (m : option (list R)) : fsys :=
  mkFsys Oblique (cellAngle gamma) (fun _ => 2%nat) [] 1 false false false [false; false; false] m None.
Definition film1 : maskGen := mkMaskGen 0 (1/5) (2/5) None (fun _ => 0).

(** The lattice is examined only when the normal vector itself has changed: a
    cell that was accepted can later get an angle of 60 degrees unnoticed. *)
Theorem C45_unnoticed : exists w w' g, fLat w' = fLat w /\ fDims w' = fDims w /\ fGroup w' = fGroup w /\
  normalTo (fD w) (rBasis (fLat w) (fP w)) (Z.to_nat (mNv g)) /\
  checkLatticeVectors (fLat w') (fP w') (mNv g) = Throw /\
  (forall st fs, genGenerate (filmMask st fs) w' g = Ok (g, w')) /\
  exists w0 g0, maskCheck w0 g0 = Ok w0 /\ maskCompute w0 g0 = Ok (g, w) .
Proof.
  assert (C0 : maskCheck (filmAngle (PI/2) None) film1 = Ok (filmAngle (PI/2) None)).
  { assert (X : checkLatticeVectors Oblique (cellAngle (PI/2)) (Z.of_nat 0) = Ok tt).
    { apply C45_orthogonal_accepted; [cbn; lia|].
      intros j J N. cbn in J. destruct j as [|[|]]; try lia. cbn. unfold rBasis, get2. cbn. rewrite cos_PI2. lra. }
    unfold maskCheck, setFlexible. cbn [filmAngle fIsFlex bind checkGroup fGroup fD fLat fP film1 mNv].
    change 0%Z with (Z.of_nat 0). rewrite X. reflexivity. }
  destruct (maskCompute (filmAngle (PI/2) None) film1) as [[g w]| | |] eqn:MC.
  - assert (K := maskCompute_ok _ _ _ _ MC). destruct K as (L & n & NL & Nv & Ln & _ & _ & Ew & Eg).
    assert (n = 0%nat) by (cbn [film1 mNv] in Nv; lia). subst n.
    exists w, (filmAngle (PI/3) (fMask w)), g. subst w g. split; [reflexivity|]. split; [reflexivity|]. split; [reflexivity|].
    split; [|split; [|split]].
    + intros j J N. cbn in J, N |- *. destruct j as [|[|]]; try lia.
      unfold rBasis, get2. cbn. rewrite cos_PI2. lra.
    + change (mNv (mkMaskGen (mNv film1) (mIT film1) (mET film1) (mFBulk film1) (rBasis (fLat (filmAngle (PI/2) None)) (fP (filmAngle (PI/2) None)) 0%nat))) with (Z.of_nat 0).
      apply C45_partial; [cbn; lia|]. exists 1%nat. split; [cbn; lia|]. split; [lia|].
      cbn. unfold rBasis, get2. cbn. rewrite cos_PI3.
      assert (10 * (10 * (10 * (10 * (10 * (10 * (10 * (10 * 1))))))) > 1) by lra.
      assert (/ (10 * (10 * (10 * (10 * (10 * (10 * (10 * (10 * 1)))))))) < 1).
      { rewrite <- Rinv_1. apply Rinv_lt_contravar; lra. } lra.
    + intros st fs. unfold genGenerate. cbn [filmMask gNeeds]. unfold maskNeeds. cbn [mNv film1 check bind Z.leb Z.compare].
      assert (Z0 : realVecEq (fD (filmAngle (PI/3) None)) (rBasis (fLat (filmAngle (PI/2) None)) (fP (filmAngle (PI/2) None)) 0%nat) (fun _ => 0) = false).
      { unfold realVecEq. apply not_true_iff_false. rewrite forallb_forall. intro X.
        specialize (X 0%nat ltac:(apply in_seq; cbn; lia)). unfold rBasis, get2 in X. cbn in X.
        rewrite gtb_true in X; [discriminate|]. rewrite Rminus_0_r, Rabs_right by lra. unfold eps8. lra. }
      cbn [mCur]. change (fD (filmAngle (PI/3) _)) with (fD (filmAngle (PI/3) None)). rewrite Z0.
      assert (SAME : rBasis (fLat (filmAngle (PI/2) None)) (fP (filmAngle (PI/2) None)) 0%nat 0%nat = 2
                     /\ rBasis (fLat (filmAngle (PI/2) None)) (fP (filmAngle (PI/2) None)) 0%nat 1%nat = 0
                     /\ rBasis Oblique (cellAngle (PI/3)) 0%nat 0%nat = 2 /\ rBasis Oblique (cellAngle (PI/3)) 0%nat 1%nat = 0)
        by (repeat split; reflexivity).
      unfold latticeVector. cbn [fD filmAngle fLat dim fP Z.leb Z.compare Z.ltb Z.of_nat Pos.of_succ_nat Pos.succ andb bind].
      change (Z.to_nat 0) with 0%nat.
      assert (RV : realVecEq 2 (rBasis Oblique (cellAngle (PI/2)) 0%nat) (rBasis Oblique (cellAngle (PI/3)) 0%nat) = true).
      { unfold realVecEq. apply forallb_forall. intros i I. apply in_seq in I.
        assert (E : rBasis Oblique (cellAngle (PI/2)) 0%nat i = rBasis Oblique (cellAngle (PI/3)) 0%nat i)
          by (destruct i as [|[|]]; try lia; reflexivity).
        rewrite E, Rminus_diag_eq, Rabs_R0 by auto. rewrite gtb_false; auto. unfold eps8. lra. }
      rewrite RV. reflexivity.
    + exists (filmAngle (PI/2) None), film1. split; auto.
  - exfalso. revert MC. unfold maskCompute. cbn [film1 mIT mET mNv].
    rewrite (gtb_true (1/5) 0), (gtb_true (2/5) (1/5)) by lra. cbn. discriminate.
  - exfalso. revert MC. unfold maskCompute. cbn [film1 mIT mET mNv].
    rewrite (gtb_true (1/5) 0), (gtb_true (2/5) (1/5)) by lra. cbn. discriminate.
  - exfalso. revert MC. unfold maskCompute. cbn [film1 mIT mET mNv].
    rewrite (gtb_true (1/5) 0), (gtb_true (2/5) (1/5)) by lra. cbn. discriminate.
Qed.

Print Assumptions C45_partial.
Print Assumptions C45_orthogonal_accepted.
Print Assumptions C45_hexagonal.
Print Assumptions C45_refuted.
Print Assumptions C45_parameters.
Print Assumptions C45_normalVecId_refuted.
Print Assumptions C45_normalVecId_undefined.
Print Assumptions C45_equal_thickness.
Print Assumptions C45_unnoticed.

(* ---------- C62 ---------- *)
Lemma maskCheck_ok : forall w g w1, maskCheck w g = Ok w1 ->
  (w1 = w \/ exists u, w1 = withFlex u w) /\ checkGroup true (fD w) (mNv g) (fGroup w) = Ok tt /\
  checkLatticeVectors (fLat w) (fP w) (mNv g) = Ok tt.
Proof.
  intros w g w1 H. unfold maskCheck in H.
  destruct (setFlexible w g) as [w2| | |] eqn:F; cbn [bind] in H; try discriminate.
  assert (K : w2 = w \/ exists u, w2 = withFlex u w).
  { unfold setFlexible in F. destruct (fIsFlex w).
    - destruct (modifyFlexible _ _ _ _) as [u| | |]; cbn [bind] in F; try discriminate. injection F as <-. eauto.
    - injection F as <-. auto. }
  destruct (checkGroup true (fD w2) (mNv g) (fGroup w2)) as [[]| | |] eqn:G; cbn [bind] in H; try discriminate.
  destruct (checkLatticeVectors (fLat w2) (fP w2) (mNv g)) as [[]| | |] eqn:C; cbn [bind] in H; try discriminate.
  injection H as <-. split; auto. destruct K as [K|[u K]]; subst w2; auto.
Qed.

Lemma extCheck_ok : forall w x w1, extCheck w x = Ok w1 -> w1 = w /\
  exists b, hasSymmetricWalls (fNMon w) x = Ok b /\
    (b = false -> checkGroup false (fD w) (xNv x) (fGroup w) = Ok tt).
Proof.
  intros w x w1 H. unfold extCheck in H.
  destruct (hasSymmetricWalls (fNMon w) x) as [b| | |] eqn:S; cbn [bind] in H; try discriminate.
  destruct b.
  - cbn [bind] in H. injection H as <-. split; auto. exists true. split; auto. discriminate.
  - destruct (checkGroup false (fD w) (xNv x) (fGroup w)) as [[]| | |] eqn:G; cbn [bind] in H; try discriminate.
    injection H as <-. split; auto. exists false. auto.
Qed.

(** Image points on the grid of a film, and the symmetry of a field on it. *)
Definition related (w : fsys) (c c' : nat -> nat) : Prop :=
  onGrid (dim3 w) c /\ onGrid (dim3 w) c' /\
  exists s, In s (fGroup w) /\ gridImage (fD w) (dim3 w) (Rm s) (tr s) c c'.
Definition closeAt (delta : R) (w : fsys) (f : list R) : Prop :=
  forall c c', related w c c' ->
    exists a b, nth_error f (rank3 (dim3 w) c) = Some a /\ nth_error f (rank3 (dim3 w) c') = Some b /\ Rabs (a - b) <= delta.

Lemma mask_symmetric : forall w g w1 g' w', maskCheck w g = Ok w1 -> maskCompute w1 g = Ok (g', w') ->
  exists m, fMask w' = Some m /\ closeAt 0 w m /\ (forall k a, nth_error m k = Some a -> 0 < a < 1) /\
    fGroup w' = fGroup w /\ dim3 w' = dim3 w /\ fD w' = fD w /\ fNMon w' = fNMon w /\ mNv g' = mNv g /\
    checkGroup true (fD w) (mNv g) (fGroup w) = Ok tt.
Proof.
  intros w g w1 g' w' HC HM. destruct (maskCheck_ok _ _ _ HC) as (K & G & _).
  destruct (maskCompute_ok _ _ _ _ HM) as (L & n & NL & Nv & Ln & _ & _ & Ew & Eg).
  assert (W : fGroup w1 = fGroup w /\ dim3 w1 = dim3 w /\ fD w1 = fD w /\ fNMon w1 = fNMon w)
    by (destruct K as [K|[u K]]; subst w1; auto).
  destruct W as (W1 & W2 & W3 & W4).
  rewrite W2 in Ew. rewrite W3 in Ln.
  eexists. split; [subst w'; reflexivity|]. split; [|split; [|subst w' g'; auto 10]].
  - intros c c' (C & C' & s & I & Im). eexists _, _.
    split; [rewrite field_at by auto; reflexivity|]. split; [rewrite field_at by auto; reflexivity|].
    assert (D3 := dim_le3 (fLat w)). unfold fD in Ln.
    rewrite !coord_of by lia.
    destruct (checkGroup_in _ _ _ _ _ G I) as [_ A]. rewrite Nv, Nat2Z.id in A.
    destruct (allowed_image _ _ _ _ _ _ _ A Ln Im (C n ltac:(lia)) (C' n ltac:(lia))) as [E|[_ E]].
    + rewrite E, Rminus_diag_eq, Rabs_R0 by auto. lra.
    + replace (INR (c' n) * L / INR (dim3 w n)) with (L - INR (c n) * L / INR (dim3 w n)).
      * rewrite maskValue_reflect, Rminus_diag_eq, Rabs_R0 by auto. lra.
      * rewrite <- E, plus_INR. assert (P : 0 < INR (c' n) + INR (c n)).
        { rewrite <- plus_INR. apply lt_0_INR. rewrite E. assert (X := C n ltac:(lia)). lia. }
        field. lra.
  - intros k a. rewrite nth_error_map. destruct (nth_error (points (dim3 w)) k); [|discriminate].
    intro Q. injection Q as <-. apply maskValue_range.
Qed.

Lemma ext_symmetric : forall w x w1 x' w' m (nv : Z),
  extCheck w x = Ok w1 -> extCompute w1 x = Ok (x', w') -> fMask w = Some m -> closeAt 0 w m ->
  (forall k a, nth_error m k = Some a -> 0 < a < 1) ->
  forall hs, fH w' = Some hs ->
  forall i h, nth_error hs i = Some h ->
    closeAt (/ 10 ^ 7) w h /\
    (nth i (xB x) 0 = nth i (xT x) 0 \/ (exists j, (j < fNMon w)%nat /\ Rabs (nth j (xB x) 0 - nth j (xT x) 0) > / 10 ^ 7) ->
     closeAt 0 w h).
Proof.
  intros w x w1 x' w' m nv HC HX M SY RG hs H i h Hi.
  destruct (extCheck_ok _ _ _ HC) as (-> & b & SW & G).
  destruct (extCompute_ok _ _ _ _ HX) as (n & Nv & Ln & K1 & K2 & K3 & Ex & [[_ Ew]|[_ (m' & M' & _ & Ew)]]).
  { subst w'. discriminate. }
  rewrite M in M'. injection M' as <-. subst w'. cbn [withH fH] in H. injection H as <-.
  rewrite nth_error_map in Hi.
  destruct (nth_error (seq 0 (fNMon w)) i) as [i'|] eqn:Ii; [|discriminate]. cbn [option_map] in Hi.
  assert (I : (i < fNMon w)%nat). { rewrite <- (seq_length (fNMon w) 0). apply nth_error_Some. congruence. }
  rewrite nth_error_seq in Ii by auto. injection Ii as <-. injection Hi as <-.
  assert (D3 := dim_le3 (fLat w)). unfold fD in Ln.
  assert (AT : forall c rho, onGrid (dim3 w) c -> nth_error m (rank3 (dim3 w) c) = Some rho ->
     nth_error (map (fun cr => hValue (dim3 w n) (coord (fst cr) n) (nth i (xB x) 0) (nth i (xT x) 0) (snd cr))
       (combine (points (dim3 w)) m)) (rank3 (dim3 w) c)
     = Some (hValue (dim3 w n) (c n) (nth i (xB x) 0) (nth i (xT x) 0) rho)).
  { intros c rho C R. rewrite nth_error_map, (nth_error_combine _ _ _ _ _ (points_nth _ _ C) R).
    cbn [option_map fst snd]. now rewrite coord_of by lia. }
  assert (VAL : forall rho cn cn', 0 < rho < 1 ->
     Rabs (hValue (dim3 w n) cn (nth i (xB x) 0) (nth i (xT x) 0) rho - hValue (dim3 w n) cn' (nth i (xB x) 0) (nth i (xT x) 0) rho)
       <= Rabs (nth i (xB x) 0 - nth i (xT x) 0)).
  { intros rho cn cn' R. unfold hValue.
    assert (P := Rabs_pos (nth i (xB x) 0 - nth i (xT x) 0)).
    assert (Q : forall t, Rabs ((1 - rho) * t) <= Rabs t).
    { intro t. rewrite Rabs_mult, (Rabs_right (1 - rho)) by lra. assert (T := Rabs_pos t). nra. }
    destruct (cn <? dim3 w n / 2)%nat, (cn' <? dim3 w n / 2)%nat; try (rewrite Rminus_diag_eq, Rabs_R0 by auto; lra).
    - replace ((1 - rho) * nth i (xB x) 0 - (1 - rho) * nth i (xT x) 0) with ((1 - rho) * (nth i (xB x) 0 - nth i (xT x) 0)) by ring. apply Q.
    - replace ((1 - rho) * nth i (xT x) 0 - (1 - rho) * nth i (xB x) 0) with (- ((1 - rho) * (nth i (xB x) 0 - nth i (xT x) 0))) by ring.
      rewrite Rabs_Ropp. apply Q. }
  assert (EXACT : b = false -> closeAt 0 w (map (fun cr => hValue (dim3 w n) (coord (fst cr) n) (nth i (xB x) 0) (nth i (xT x) 0) (snd cr))
       (combine (points (dim3 w)) m))).
  { intros B c c' REL. destruct (SY c c' REL) as (r1 & r2 & R1 & R2 & R12).
    destruct REL as (C & C' & s & Is & Im).
    eexists _, _. split; [apply AT; eauto|]. split; [apply AT; eauto|].
    assert (r1 = r2). { assert (T := Rabs_pos (r1 - r2)). apply Rminus_diag_uniq.
      destruct (Req_dec (r1 - r2) 0); auto. assert (T2 := Rabs_pos_lt _ H). lra. }
    subst r2. destruct (checkGroup_in _ _ _ _ _ (G B) Is) as [_ A]. rewrite Nv, Nat2Z.id in A.
    destruct (allowed_image _ _ _ _ _ _ _ A Ln Im (C n ltac:(lia)) (C' n ltac:(lia))) as [E|[E _]]; [|discriminate].
    rewrite E, Rminus_diag_eq, Rabs_R0 by auto. lra. }
  assert (SWS : b = true <-> forall j, (j < fNMon w)%nat -> Rabs (nth j (xB x) 0 - nth j (xT x) 0) <= / 10 ^ 7).
  { unfold hasSymmetricWalls in SW. destruct (wallChecks (fNMon w) x); cbn [bind] in SW; try discriminate.
    injection SW as <-. rewrite forallb_forall, <- eps7_eq. split.
    - intros Q j J. specialize (Q j ltac:(apply in_seq; lia)). apply negb_true_iff in Q.
      unfold gtb in Q. destruct (Rlt_dec eps7 (Rabs (nth j (xB x) 0 - nth j (xT x) 0))); [discriminate|lra].
    - intros Q j J. apply in_seq in J. specialize (Q j ltac:(lia)). rewrite gtb_false; auto. }
  assert (P7 : 0 < / 10 ^ 7) by (apply Rinv_0_lt_compat, pow_lt; lra).
  assert (LOOSE : forall c c', related w c c' -> exists a b0,
      nth_error (map (fun cr => hValue (dim3 w n) (coord (fst cr) n) (nth i (xB x) 0) (nth i (xT x) 0) (snd cr))
         (combine (points (dim3 w)) m)) (rank3 (dim3 w) c) = Some a /\
      nth_error (map (fun cr => hValue (dim3 w n) (coord (fst cr) n) (nth i (xB x) 0) (nth i (xT x) 0) (snd cr))
         (combine (points (dim3 w)) m)) (rank3 (dim3 w) c') = Some b0 /\
      Rabs (a - b0) <= Rabs (nth i (xB x) 0 - nth i (xT x) 0)).
  { intros c c' REL. destruct (SY c c' REL) as (r1 & r2 & R1 & R2 & R12).
    destruct REL as (C & C' & _).
    eexists _, _. split; [apply AT; eauto|]. split; [apply AT; eauto|].
    assert (r1 = r2). { assert (T := Rabs_pos (r1 - r2)). apply Rminus_diag_uniq.
      destruct (Req_dec (r1 - r2) 0); auto. assert (T2 := Rabs_pos_lt _ H). lra. }
    subst r2. apply VAL. eauto. }
  split.
  - destruct b.
    + intros c c' REL. destruct (LOOSE c c' REL) as (a & b0 & A & B & AB).
      exists a, b0. split; auto. split; auto. apply (Rle_trans _ _ _ AB). apply SWS; auto.
    + intros c c' REL. destruct (EXACT eq_refl c c' REL) as (a & b0 & A & B & AB).
      exists a, b0. split; auto. split; auto. lra.
  - intros [E|(j & J & F)].
    + intros c c' REL. destruct (LOOSE c c' REL) as (a & b0 & A & B & AB).
      exists a, b0. split; auto. split; auto. rewrite (Rminus_diag_eq _ _ E), Rabs_R0 in AB. exact AB.
    + apply EXACT. destruct b; auto. exfalso. assert (Q := proj1 SWS eq_refl j J). lra.
Qed.

(** The mask of a film has the symmetry of its space group on the grid: whenever
    the generators accept the group, points that an operation maps onto each
    other have the same value.  The external fields have it up to 1e-7, and
    exactly if the two walls are equal or differ by more than 1e-7. *)
Theorem C62_film_symmetric : forall st1 st2 fs w e g x e' w',
  eNeeds e = true -> e1 e = Some g -> e2 e = Some x ->
  maskNeeds w g = Ok true -> xCur x = None ->
  generate (filmMask st1 fs) (filmExt st2) w e = Ok (e', w') ->
  fGroup w' = fGroup w /\ dim3 w' = dim3 w /\ eNeeds e' = false /\
  exists m, fMask w' = Some m /\ closeAt 0 w m /\
    match fH w' with
    | None => True
    | Some hs => forall i h, nth_error hs i = Some h ->
        closeAt (/ 10 ^ 7) w h /\
        (nth i (xB x) 0 = nth i (xT x) 0 \/
         (exists j, (j < fNMon w)%nat /\ Rabs (nth j (xB x) 0 - nth j (xT x) 0) > / 10 ^ 7) -> closeAt 0 w h)
    end.
Proof.
  intros st1 st2 fs w e g x e' w' N E1 E2 NM CX H. unfold generate in H. rewrite N, E1 in H. cbn [negb] in H.
  destruct (genGenerate (filmMask st1 fs) w g) as [[g1 w1]| | |] eqn:G1; cbn [bind fst snd] in H; try discriminate.
  cbn [put1 e2] in H. rewrite E2 in H.
  destruct (genGenerate (filmExt st2) w1 x) as [[x1 w2]| | |] eqn:G2; cbn [bind fst snd] in H; try discriminate.
  unfold setNeedsUpdateFalse in H. match type of H with context[if ?c then _ else _] => destruct c end; cbn [bind] in H; [discriminate|].
  injection H as <- <-.
  destruct (genGenerate_true _ _ _ (filmMask st1 fs) w g _ NM G1) as (wa & CA & CB).
  cbn [filmMask gCheck gCompute] in CA, CB.
  destruct (mask_symmetric _ _ _ _ _ CA CB) as (m & M & SY & RG & X1 & X2 & X3 & X4 & _ & _).
  assert (NX : gNeeds (filmExt st2) w1 x = Ok true \/ forall b, gNeeds (filmExt st2) w1 x <> Ok b).
  { cbn [filmExt gNeeds]. unfold extNeeds. rewrite CX. destruct (0 <=? xNv x)%Z; cbn [check bind]; auto. right. discriminate. }
  destruct NX as [NX|NX].
  2:{ exfalso. unfold genGenerate in G2. destruct (gNeeds (filmExt st2) w1 x) as [b| | |]; cbn [bind] in G2; try discriminate. now apply (NX b). }
  destruct (genGenerate_true _ _ _ (filmExt st2) w1 x _ NX G2) as (wb & CC & CD).
  cbn [filmExt gCheck gCompute] in CC, CD.
  assert (REL : forall d f, closeAt d w1 f <-> closeAt d w f).
  { intros. unfold closeAt, related. rewrite X1, X2, X3. tauto. }
  assert (SY1 : closeAt 0 w1 m) by (apply REL; auto).
  assert (EW := extCheck_ok _ _ _ CC). destruct EW as [EW _]. 
  assert (FIN : fGroup w2 = fGroup w1 /\ dim3 w2 = dim3 w1 /\ fMask w2 = fMask w1).
  { destruct (extCompute_ok _ _ _ _ CD) as (n & _ & _ & _ & _ & _ & _ & [[_ Ew]|[_ (m' & _ & _ & Ew)]]); subst w2 wb; auto. }
  destruct FIN as (F1 & F2 & F3). split; [congruence|]. split; [congruence|]. split; [reflexivity|].
  exists m. split; [congruence|]. split; auto.
  destruct (fH w2) as [hs|] eqn:Hs; auto. intros i h Hi.
  destruct (ext_symmetric _ _ _ _ _ m 0%Z CC CD M SY1 RG hs Hs i h Hi) as [A B].
  split; [now apply REL|]. intro Q. apply REL. apply B. rewrite X4. exact Q.
Qed.

Print Assumptions C62_film_symmetric.

(** A film between equal walls with an inversion centre meets the hypotheses,
    and gets external fields. *)
Definition inv1 : symm := mkSymm [[(-1)%Z]] [0%Qc].
Definition film2 : fsys :=
  mkFsys Lamellar (fun _ => 2) (fun _ => 4%nat) [identity 1; inv1] 2 false false false [false] None None.
Definition walls2 : extGen := mkExtGen 0 (1/5) (2/5) [1; 0] [1; 0] None (fun _ => 0).

Example ex_symmetric_film : let e := mkEnv true true true true [] false 1 (Some film1) (Some walls2) in
  maskNeeds film2 film1 = Ok true /\
  (exists e' w' hs, generate fm fx film2 e = Ok (e', w') /\ fH w' = Some hs /\ List.length hs = 2%nat) /\
  related film2 (fun i => match i with 0%nat => 1%nat | _ => 0%nat end) (fun i => match i with 0%nat => 3%nat | _ => 0%nat end).
Proof.
  cbv zeta.
  assert (N : maskNeeds film2 film1 = Ok true).
  { unfold maskNeeds. cbn [film1 mNv mCur Z.leb Z.compare check bind]. now rewrite realVecEq_refl. }
  assert (C : maskCheck film2 film1 = Ok film2) by reflexivity.
  assert (M : exists g m, maskCompute film2 film1 = Ok (g, withMask (Some m) film2)).
  { unfold maskCompute. cbn [film1 mIT mET mNv]. rewrite (gtb_true (1/5) 0), (gtb_true (2/5) (1/5)) by lra.
    eexists _, _. reflexivity. }
  destruct M as (g & m & M).
  assert (P7 : eps7 < 1) by (unfold eps7; lra).
  assert (H0 : forall w, fNMon w = 2%nat -> extCheck w walls2 = Ok w).
  { intros w W. unfold extCheck, hasSymmetricWalls, wallChecks. rewrite W.
    cbn -[Rminus gtb]. rewrite !Rminus_diag_eq, !Rabs_R0 by auto.
    rewrite (gtb_false 0 eps7) by (unfold eps7; lra). reflexivity. }
  assert (X : exists g' hs, extCompute (withMask (Some m) film2) walls2 = Ok (g', withH (Some hs) (withMask (Some m) film2)) /\ List.length hs = 2%nat).
  { unfold extCompute, isAthermal, wallChecks. cbn -[geb]. rewrite Rabs_R1.
    rewrite (geb_true 1 eps7) by lra. cbn -[geb]. eexists _, _. split; [reflexivity|reflexivity]. }
  destruct X as (g' & hs & X & LH).
  split; auto. split.
  - unfold generate. cbn [eNeeds negb e1]. unfold genGenerate at 1. cbn [fm filmMask gNeeds gCheck gCompute].
    rewrite N. cbn [bind]. rewrite C. cbn [bind]. rewrite M. cbn [bind fst snd put1 e2].
    unfold genGenerate. cbn [fx filmExt gNeeds gCheck gCompute].
    assert (NX : extNeeds (withMask (Some m) film2) walls2 = Ok true) by reflexivity. rewrite NX. cbn [bind].
    rewrite H0 by reflexivity. cbn [bind]. rewrite X. cbn [bind fst snd].
    unfold setNeedsUpdateFalse. cbn [put2 eSet negb bind]. eexists _, _, _. split; [reflexivity|]. split; [reflexivity|auto].
  - split; [|split].
    + intros i I. destruct i as [|[|[|]]]; cbn; lia.
    + intros i I. destruct i as [|[|[|]]]; cbn; lia.
    + exists inv1. split; [cbn; auto|]. intros i I. cbn in I. destruct i; [|lia]. exists 1%Z.
      unfold imageCoord, inv1, Rm, tr. cbn -[IZR]. change (this 0%Qc) with 0%Q. rewrite RMicromega.Q2R_0.
      lra.
Qed.

(* ---------- C64 ---------- *)
(** The generator only makes parameters rigid, and without fBulk the length of
    the normal vector becomes rigid. *)
Lemma setBool_ok : forall f i b u, setBool f i b = Ok u ->
  List.length u = List.length f /\ (0 <= i < Z.of_nat (List.length f))%Z /\
  forall r, nth r u false = if Nat.eqb r (Z.to_nat i) then b else nth r f false.
Proof.
  intros f i b u H. unfold setBool in H.
  destruct ((0 <=? i) && (i <? Z.of_nat (List.length f)))%Z eqn:E; [|discriminate]. injection H as <-.
  apply range_true in E. split; [apply update_length|]. split; auto. intro r.
  destruct (Nat.eqb_spec r (Z.to_nat i)) as [e|e].
  - subst r. apply nth_update_same. lia.
  - apply nth_update_other. lia.
Qed.

Ltac setb H := let L := fresh in let I := fresh in let N := fresh in destruct (setBool_ok _ _ _ _ H) as (L & I & N); clear H.

Theorem C64_only_rigid : forall l nv fb cur u, modifyFlexible l nv fb cur = Ok u ->
  List.length u = List.length cur /\
  (forall r, nth r u false = true -> nth r cur false = true) /\
  (fb = false -> forall id, fullToReduced l nv = Ok id -> (0 <= id)%Z -> nth (Z.to_nat id) u false = false).
Proof.
  intros l nv fb cur u H. unfold modifyFlexible in H.
  destruct (Nat.eqb (List.length cur) (nParam l)); cbn [check bind] in H; [|discriminate].
  assert (FIN : forall v, (if fb then Ok v else r <- fullToReduced l nv ;; setBool v r false) = Ok u ->
    List.length v = List.length cur -> (forall r, nth r v false = true -> nth r cur false = true) ->
    List.length u = List.length cur /\
    (forall r, nth r u false = true -> nth r cur false = true) /\
    (fb = false -> forall id, fullToReduced l nv = Ok id -> (0 <= id)%Z -> nth (Z.to_nat id) u false = false)).
  { intros v E L M. destruct fb; [injection E as <-; split; auto; split; auto; discriminate|].
    destruct (fullToReduced l nv) as [id| | |]; cbn [bind] in E; try discriminate. setb E.
    split; [congruence|]. split.
    - intros r T. rewrite H2 in T. destruct (Nat.eqb r (Z.to_nat id)); [discriminate|auto].
    - intros _ id' E' P. injection E' as <-. rewrite H2. now rewrite Nat.eqb_refl. }
  destruct (rows l) as [E|[E|E]]; rewrite E in H.
  - destruct l; try discriminate E. destruct fb; [injection H as <-; split; auto; split; auto; discriminate|].
    setb H. split; auto. split.
    + intros r T. rewrite H2 in T. destruct (Nat.eqb r (Z.to_nat 0)); [discriminate|auto].
    + intros _ id F _. cbn [fullToReduced dim] in F. destruct (nv =? 0)%Z; cbn in F; [|discriminate]. injection F as <-.
      rewrite H2. reflexivity.
  - match type of H with bind ?A _ = _ => destruct A as [v| | |] eqn:V; cbn [bind] in H; try discriminate end.
    apply FIN with v; auto; destruct l; try discriminate E; try (injection V as <-; auto); setb V; auto;
    intros r T; rewrite H2 in T; destruct (Nat.eqb r _); try discriminate; auto.
  - match type of H with bind ?A _ = _ => destruct A as [v| | |] eqn:V; cbn [bind] in H; try discriminate end.
    assert (K : List.length v = List.length cur /\ forall r, nth r v false = true -> nth r cur false = true).
    { destruct l; try discriminate E; try discriminate V; try (injection V as <-; auto; fail).
      - destruct (nv =? 1)%Z; [injection V as <-; auto|]. setb V. split; auto.
        intros r T. rewrite H2 in T. destruct (Nat.eqb r _); try discriminate; auto.
      - destruct (setBool cur 3 false) as [a| | |] eqn:A; cbn [bind] in V; try discriminate.
        destruct (setBool a 4 false) as [b| | |] eqn:B; cbn [bind] in V; try discriminate.
        destruct (setBool b 5 false) as [c| | |] eqn:C; cbn [bind] in V; try discriminate.
        destruct (getBool cur (nv + 3)) as [t| | |] eqn:GB; cbn [bind] in V; try discriminate.
        setb A. setb B. setb C. setb V. split; [congruence|]. intros r T. rewrite H11 in T.
        destruct (Nat.eqb_spec r (Z.to_nat (nv + 3))) as [e|e].
        + subst t r. unfold getBool in GB. destruct ((0 <=? nv + 3) && (nv + 3 <? Z.of_nat (List.length cur)))%Z; [|discriminate].
          now injection GB.
        + rewrite H8 in T. destruct (Nat.eqb r _); try discriminate.
          rewrite H5 in T. destruct (Nat.eqb r _); try discriminate.
          rewrite H2 in T. destruct (Nat.eqb r _); try discriminate. auto. }
    destruct K. apply FIN with v; auto.
Qed.

(** Angles that stay flexible. *)
Lemma flexible_angles : forall l n fb cur u, (n < dim l)%nat -> modifyFlexible l (Z.of_nat n) fb cur = Ok u ->
  (l = Rhombic -> nth 1 u false = false) /\ (l = Oblique -> nth 2 u false = false) /\
  (l = Monoclinic -> n <> 1%nat -> nth 3 u false = false) /\ l <> Rhombohedral /\
  (l = Triclinic -> forall r, (3 <= r)%nat -> nth r u false = true -> r = (n + 3)%nat).
Proof.
  intros l n fb cur u Ln H. unfold modifyFlexible in H.
  destruct (Nat.eqb_spec (List.length cur) (nParam l)) as [LC|]; cbn [check bind] in H; [|discriminate].
  assert (FIN : forall v r, (if fb then Ok v else r <- fullToReduced l (Z.of_nat n) ;; setBool v r false) = Ok u ->
    nth r v false = false -> nth r u false = false).
  { intros v r E M. destruct fb; [injection E as <-; auto|].
    destruct (fullToReduced l (Z.of_nat n)) as [id| | |]; cbn [bind] in E; try discriminate. setb E.
    rewrite H2. destruct (Nat.eqb r (Z.to_nat id)); auto. }
  destruct l; cbn [dim] in *; repeat split; try discriminate; intros _.
  - destruct (setBool cur 1 false) as [v| | |] eqn:V; cbn [bind] in H; try discriminate.
    apply (FIN v); auto. setb V. rewrite H2. reflexivity.
  - destruct (setBool cur 2 false) as [v| | |] eqn:V; cbn [bind] in H; try discriminate.
    apply (FIN v); auto. setb V. rewrite H2. reflexivity.
  - intro N1. assert (E : (Z.of_nat n =? 1)%Z = false) by (apply Z.eqb_neq; lia). rewrite E in H.
    destruct (setBool cur 3 false) as [v| | |] eqn:V; cbn [bind] in H; try discriminate.
    apply (FIN v); auto. setb V. rewrite H2. reflexivity.
  - intros r R T. destruct (Nat.eq_dec r (n + 3)) as [|N]; auto. exfalso.
    destruct (setBool cur 3 false) as [a| | |] eqn:A; cbn [bind] in H; try discriminate.
    destruct (setBool a 4 false) as [b| | |] eqn:B; cbn [bind] in H; try discriminate.
    destruct (setBool b 5 false) as [c| | |] eqn:C; cbn [bind] in H; try discriminate.
    destruct (getBool cur (Z.of_nat n + 3)) as [t| | |] eqn:GB; cbn [bind] in H; try discriminate.
    destruct (setBool c (Z.of_nat n + 3) t) as [v| | |] eqn:V; cbn [bind] in H; try discriminate.
    rewrite (FIN v r H) in T; [discriminate|]. setb A. setb B. setb C. setb V. rewrite H11, H8, H5, H2.
    destruct (Nat.eqb_spec r (Z.to_nat (Z.of_nat n + 3))); [lia|].
    destruct (Nat.eqb_spec r (Z.to_nat 5)); auto. destruct (Nat.eqb_spec r (Z.to_nat 4)); auto.
    destruct (Nat.eqb_spec r (Z.to_nat 3)); auto. apply nth_overflow. cbn [nParam] in LC.
    change (Z.to_nat 5) with 5%nat in *. change (Z.to_nat 4) with 4%nat in *. change (Z.to_nat 3) with 3%nat in *. lia.
Qed.

(** Which cells have an orthogonal normal vector, lattice by lattice. *)
Definition normalCond (l : lattice) (p : nat -> R) (n : nat) : Prop :=
  match l with
  | Rhombic => cos (p 1%nat) = 0
  | Oblique => cos (p 2%nat) = 0
  | Hexagonal2 => False
  | Hexagonal3 => n = 2%nat
  | Monoclinic => n = 1%nat \/ cos (p 3%nat) = 0
  | Triclinic => match n with
                 | 0%nat => cos (p 5%nat) = 0 /\ sin (p 4%nat) * cos (p 3%nat) = 0
                 | 1%nat => cos (p 5%nat) = 0 /\ sin (p 4%nat) * sin (p 3%nat) = 0
                 | _ => sin (p 4%nat) = 0
                 end
  | _ => True
  end.

Ltac cellcbv H := cbv beta iota zeta delta [inner rBasis get2 rWrites UnitCell.e2 fold_left Nat.eqb andb] in H.
Ltac cellg := cbv beta iota zeta delta [inner rBasis get2 rWrites UnitCell.e2 fold_left Nat.eqb andb].

Lemma normal_cond : forall l p n, (n < dim l)%nat -> l <> Rhombohedral ->
  normalCond l p n -> normalTo (dim l) (rBasis l p) n.
Proof.
  intros l p n L NR C j J N.
  destruct l; cbn [dim normalCond] in *; try contradiction;
  destruct n as [|[|[|n]]]; try lia; destruct j as [|[|[|j]]]; try lia; cellg; try ring;
  try match type of C with
      | _ \/ _ => destruct C as [C|C]; [lia|rewrite C; ring]
      | _ /\ _ => destruct C as [C1 C2]; try (rewrite C1; ring)
      | _ => rewrite C; ring
      end; try lia.
  - replace (0 + p 0%nat * (p 2%nat * sin (p 4%nat) * cos (p 3%nat)) + 0 * (p 2%nat * sin (p 4%nat) * sin (p 3%nat)) + 0 * (p 2%nat * cos (p 4%nat)))
      with (p 0%nat * p 2%nat * (sin (p 4%nat) * cos (p 3%nat))) by ring. rewrite C2. ring.
  - replace (p 2%nat * sin (p 4%nat) * sin (p 3%nat)) with (p 2%nat * (sin (p 4%nat) * sin (p 3%nat))) by ring. rewrite C1, C2. ring.
Qed.

Lemma cond_normal : forall l p n, (n < dim l)%nat -> l <> Rhombohedral ->
  independentPairs (dim l) (rBasis l p) -> normalTo (dim l) (rBasis l p) n -> normalCond l p n.
Proof.
  intros l p n L NR IP NT.
  assert (M0 : forall a b, a * b = 0 -> a <> 0 -> b = 0) by (intros a b E Ha; apply Rmult_integral in E; tauto).
  assert (NZ : forall i j, (i < dim l)%nat -> (j < dim l)%nat -> i <> j -> inner (dim l) (rBasis l p i) (rBasis l p i) <> 0).
  { intros i j I J N E. specialize (IP i j I J N). rewrite E in IP.
    assert (Q := Rle_0_sqr (inner (dim l) (rBasis l p i) (rBasis l p j))). unfold Rsqr in Q. lra. }
  destruct l; cbn [dim normalCond] in *; auto; try contradiction.
  - (* rhombic *)
    assert (A := NZ 0%nat 1%nat ltac:(lia) ltac:(lia) ltac:(lia)). cellcbv A.
    assert (p 0%nat <> 0) by (intro E; rewrite E in A; lra).
    destruct n as [|[|n]]; try lia.
    + assert (E := NT 1%nat ltac:(lia) ltac:(lia)). cellcbv E. apply (M0 (p 0%nat * p 0%nat)); [lra|nra].
    + assert (E := NT 0%nat ltac:(lia) ltac:(lia)). cellcbv E. apply (M0 (p 0%nat * p 0%nat)); [lra|nra].
  - assert (A := NZ 0%nat 1%nat ltac:(lia) ltac:(lia) ltac:(lia)). cellcbv A.
    destruct n as [|[|n]]; try lia.
    + assert (E := NT 1%nat ltac:(lia) ltac:(lia)). cellcbv E. lra.
    + assert (E := NT 0%nat ltac:(lia) ltac:(lia)). cellcbv E. lra.
  - assert (A := NZ 0%nat 1%nat ltac:(lia) ltac:(lia) ltac:(lia)). cellcbv A.
    assert (B := NZ 1%nat 0%nat ltac:(lia) ltac:(lia) ltac:(lia)). cellcbv B.
    assert (p 0%nat <> 0) by (intro E; rewrite E in A; lra).
    assert (p 1%nat <> 0) by (intro E; rewrite E in B; lra).
    assert (p 0%nat * p 1%nat <> 0) by (apply Rmult_integral_contrapositive; auto).
    destruct n as [|[|n]]; try lia.
    + assert (E := NT 1%nat ltac:(lia) ltac:(lia)). cellcbv E. apply (M0 (p 0%nat * p 1%nat)); [lra|auto].
    + assert (E := NT 0%nat ltac:(lia) ltac:(lia)). cellcbv E. apply (M0 (p 0%nat * p 1%nat)); [lra|auto].
  - assert (A := NZ 0%nat 1%nat ltac:(lia) ltac:(lia) ltac:(lia)). cellcbv A.
    assert (B := NZ 2%nat 0%nat ltac:(lia) ltac:(lia) ltac:(lia)). cellcbv B.
    assert (p 0%nat <> 0) by (intro E; rewrite E in A; lra).
    assert (p 2%nat <> 0) by (intro E; rewrite E in B; lra).
    assert (p 0%nat * p 2%nat <> 0) by (apply Rmult_integral_contrapositive; auto).
    destruct n as [|[|[|n]]]; try lia; auto; right.
    + assert (E := NT 2%nat ltac:(lia) ltac:(lia)). cellcbv E. apply (M0 (p 0%nat * p 2%nat)); [lra|auto].
    + assert (E := NT 0%nat ltac:(lia) ltac:(lia)). cellcbv E. apply (M0 (p 0%nat * p 2%nat)); [lra|auto].
  - assert (A := NZ 0%nat 1%nat ltac:(lia) ltac:(lia) ltac:(lia)). cellcbv A.
    assert (B := NZ 1%nat 0%nat ltac:(lia) ltac:(lia) ltac:(lia)). cellcbv B.
    assert (C := NZ 2%nat 0%nat ltac:(lia) ltac:(lia) ltac:(lia)). cellcbv C.
    assert (p 0%nat <> 0) by (intro E; rewrite E in A; lra).
    assert (p 1%nat <> 0) by (intro E; rewrite E in B; lra).
    assert (p 2%nat <> 0) by (intro E; rewrite E in C; lra).
    assert (p 0%nat * p 1%nat <> 0) by (apply Rmult_integral_contrapositive; auto).
    assert (p 0%nat * p 2%nat <> 0) by (apply Rmult_integral_contrapositive; auto).
    assert (p 1%nat * p 2%nat <> 0) by (apply Rmult_integral_contrapositive; auto).
    assert (S2 : forall t, sin t * sin t + cos t * cos t = 1) by (intro t; assert (Q := sin2_cos2 t); unfold Rsqr in Q; lra).
    destruct n as [|[|[|n]]]; try lia.
    + split.
      * assert (E := NT 1%nat ltac:(lia) ltac:(lia)). cellcbv E. apply (M0 (p 0%nat * p 1%nat)); [lra|auto].
      * assert (E := NT 2%nat ltac:(lia) ltac:(lia)). cellcbv E. apply (M0 (p 0%nat * p 2%nat)); [lra|auto].
    + assert (G : cos (p 5%nat) = 0).
      { assert (E := NT 0%nat ltac:(lia) ltac:(lia)). cellcbv E. apply (M0 (p 0%nat * p 1%nat)); [lra|auto]. }
      split; auto. assert (E := NT 2%nat ltac:(lia) ltac:(lia)). cellcbv E. rewrite G in E.
      assert (SG : sin (p 5%nat) <> 0). { intro Z. assert (Q := S2 (p 5%nat)). rewrite G, Z in Q. lra. }
      apply (M0 (p 1%nat * p 2%nat * sin (p 5%nat))); [lra|]. apply Rmult_integral_contrapositive; auto.
    + assert (E := NT 0%nat ltac:(lia) ltac:(lia)). cellcbv E.
      assert (E1 : sin (p 4%nat) * cos (p 3%nat) = 0) by (apply (M0 (p 0%nat * p 2%nat)); [lra|auto]).
      assert (F := NT 1%nat ltac:(lia) ltac:(lia)). cellcbv F.
      assert (F1 : cos (p 5%nat) * (sin (p 4%nat) * cos (p 3%nat)) + sin (p 5%nat) * (sin (p 4%nat) * sin (p 3%nat)) = 0)
        by (apply (M0 (p 1%nat * p 2%nat)); [lra|auto]).
      assert (I := IP 0%nat 1%nat ltac:(lia) ltac:(lia) ltac:(lia)). cellcbv I.
      assert (SG : sin (p 5%nat) <> 0).
      { intro Z. assert (Q := S2 (p 5%nat)). rewrite Z in I, Q.
        assert (X : (0 + p 0%nat * (p 1%nat * cos (p 5%nat)) + 0 * (p 1%nat * 0) + 0 * 0) *
          (0 + p 0%nat * (p 1%nat * cos (p 5%nat)) + 0 * (p 1%nat * 0) + 0 * 0) =
          p 0%nat * p 0%nat * (p 1%nat * p 1%nat) * (cos (p 5%nat) * cos (p 5%nat))) by ring.
        rewrite X in I. replace (cos (p 5%nat) * cos (p 5%nat)) with 1 in I by lra.
        assert (Y : (0 + p 1%nat * cos (p 5%nat) * (p 1%nat * cos (p 5%nat)) + p 1%nat * 0 * (p 1%nat * 0) + 0 * 0) =
          p 1%nat * p 1%nat * (cos (p 5%nat) * cos (p 5%nat))) by ring.
        rewrite Y in I. replace (cos (p 5%nat) * cos (p 5%nat)) with 1 in I by lra. lra. }
      rewrite E1 in F1.
      assert (F2 : sin (p 4%nat) * sin (p 3%nat) = 0) by (apply (M0 (sin (p 5%nat))); [lra|auto]).
      apply Rmult_integral in E1. destruct E1 as [E1|E1]; auto.
      apply Rmult_integral in F2. destruct F2 as [F2|F2]; auto.
      exfalso. assert (Q := S2 (p 3%nat)). rewrite E1, F2 in Q. lra.
  - assert (A := NZ 0%nat 1%nat ltac:(lia) ltac:(lia) ltac:(lia)). cellcbv A.
    destruct n as [|[|[|n]]]; try lia; exfalso.
    + assert (E := NT 1%nat ltac:(lia) ltac:(lia)). cellcbv E. lra.
    + assert (E := NT 0%nat ltac:(lia) ltac:(lia)). cellcbv E. lra.
Qed.

(** Full statement: in a cell whose normal vector is orthogonal to the others, a
    parameter that stays flexible can be given any value without changing that.
    It fails for triclinic cells (C64_refuted).  What holds: *)
Theorem C64_orthogonal_partial : forall l n fb cur u p,
  (n < dim l)%nat -> modifyFlexible l (Z.of_nat n) fb cur = Ok u ->
  independentPairs (dim l) (rBasis l p) -> normalTo (dim l) (rBasis l p) n ->
  (l = Triclinic -> n = 2%nat \/ (n = 1%nat /\ sin (p 3%nat) = 0)) ->
  forall r, nth r u false = true -> forall x, normalTo (dim l) (rBasis l (replaced p r x)) n.
Proof.
  intros l n fb cur u p Ln H IP NT TR r F x.
  assert (LU := proj1 (C64_only_rigid _ _ _ _ _ H)).
  assert (LC : List.length cur = nParam l).
  { unfold modifyFlexible in H. destruct (Nat.eqb_spec (List.length cur) (nParam l)); auto. discriminate. }
  assert (RL : (r < nParam l)%nat).
  { destruct (le_lt_dec (nParam l) r); auto. rewrite nth_overflow in F by lia. discriminate. }
  destruct (flexible_angles _ _ _ _ _ Ln H) as (A1 & A2 & A3 & A4 & A5).
  apply normal_cond; auto. assert (C := cond_normal l p n Ln A4 IP NT).
  destruct l; cbn [normalCond dim nParam] in *; auto; unfold replaced.
  - destruct (Nat.eqb_spec 1 r); auto. subst r. rewrite A1 in F by auto. discriminate.
  - destruct (Nat.eqb_spec 2 r); auto. subst r. rewrite A2 in F by auto. discriminate.
  - destruct C as [C|C]; auto. destruct (Nat.eqb_spec 3 r); auto. subst r.
    destruct (Nat.eq_dec n 1); auto. rewrite A3 in F by auto. discriminate.
  - destruct (TR eq_refl) as [E|[E S0]]; subst n.
    + destruct (Nat.eqb_spec 4 r); auto. subst r. assert (Q := A5 eq_refl 4%nat ltac:(lia) F). lia.
    + destruct C as [C _]. split.
      * destruct (Nat.eqb_spec 5 r); auto. subst r. assert (Q := A5 eq_refl 5%nat ltac:(lia) F). lia.
      * destruct (Nat.eqb_spec 3 r); [subst r; assert (Q := A5 eq_refl 3%nat ltac:(lia) F); lia|].
        rewrite S0. ring.
Qed.

(** A triclinic film whose first vector is the normal: the azimuth of the third
    vector stays flexible although the film depends on it, and the polar angle,
    which could vary, becomes rigid. *)
Definition right3 (i : nat) : R := if (i <? 3)%nat then 2 else if (i =? 4)%nat then PI / 6 else PI / 2.
Definition allFlex : list bool := [true; true; true; true; true; true].

Theorem C64_refuted : exists u x,
  modifyFlexible Triclinic 0 true allFlex = Ok u /\ normalTo 3 (rBasis Triclinic right3) 0 /\
  independentPairs 3 (rBasis Triclinic right3) /\
  (nth 3 u false = true /\ ~ normalTo 3 (rBasis Triclinic (replaced right3 3 x)) 0) /\
  (nth 4 u false = false /\ forall y, normalTo 3 (rBasis Triclinic (replaced right3 4 y)) 0).
Proof.
  eexists _, (PI / 3). split; [reflexivity|]. split; [|split; [|split; split]].
  - apply (normal_cond Triclinic right3 0); [cbn; lia|discriminate|]. cbn. rewrite cos_PI2. lra.
  - intros i j I J N. destruct i as [|[|[|]]]; try lia; destruct j as [|[|[|]]]; try lia; cellg; unfold right3;
    cbn [Nat.ltb Nat.leb Nat.eqb]; rewrite ?cos_PI2, ?sin_PI2, ?sin_PI6, ?cos_PI6;
    assert (Q := sqrt_def 3 ltac:(lra)); nra.
  - reflexivity.
  - intro H. specialize (H 2%nat ltac:(lia) ltac:(lia)). cellcbv H. unfold replaced, right3 in H.
    cbn [Nat.ltb Nat.leb Nat.eqb] in H. rewrite sin_PI6, cos_PI3 in H. lra.
  - reflexivity.
  - intro y. apply (normal_cond Triclinic (replaced right3 4 y) 0); [cbn; lia|discriminate|]. cbn. rewrite cos_PI2. lra.
Qed.

Example ex_flexible : modifyFlexible Triclinic 2 false allFlex = Ok [true; true; false; false; false; true] /\
  modifyFlexible Orthorhombic 1 false [true; true; true] = Ok [true; false; true] /\
  modifyFlexible Monoclinic 0 true [true; true; true; true] = Ok [true; true; true; false].
Proof. auto. Qed.

Print Assumptions C64_only_rigid.
Print Assumptions C64_orthogonal_partial.
Print Assumptions C64_refuted.
