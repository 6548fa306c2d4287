(** Proofs about the thin-film generators. *)
From Coq Require Import Reals ZArith QArith Qcanon Qreals String List Bool Arith Lia Lra.
From Verif Require Import Base RSum UnitCell Symmetry Environment Film FilmSpec BasisValid.
Import ListNotations.
Local Open Scope R_scope.

Lemma gtb_true : forall a b, b < a -> gtb a b = true.
Proof. intros. unfold gtb. destruct (Rlt_dec b a); try reflexivity; lra. Qed.
Lemma gtb_false : forall a b, a <= b -> gtb a b = false.
Proof. intros. unfold gtb. destruct (Rlt_dec b a); try reflexivity; lra. Qed.
Lemma geb_true : forall a b, b <= a -> geb a b = true.
Proof. intros. unfold geb. destruct (Rle_dec b a); try reflexivity; lra. Qed.
Lemma geb_false : forall a b, a < b -> geb a b = false.
Proof. intros. unfold geb. destruct (Rle_dec b a); try reflexivity; lra. Qed.
Lemma gtb_spec : forall a b, gtb a b = true <-> b < a.
Proof. intros. unfold gtb. destruct (Rlt_dec b a); split; intros; try reflexivity; try discriminate; lra. Qed.
Lemma geb_spec : forall a b, geb a b = true <-> b <= a.
Proof. intros. unfold geb. destruct (Rle_dec b a); split; intros; try reflexivity; try discriminate; lra. Qed.

Lemma dot_inner : forall D a b, dot D a b = inner D a b.
Proof. induction D; intros; cbn; auto. unfold dot in *. now rewrite <- IHD. Qed.

Lemma inner_comm : forall D a b, inner D a b = inner D b a.
Proof. induction D; intros; cbn; auto. rewrite IHD. ring. Qed.

(* ---------- grid points ---------- *)
Lemma nth_error_flat_map : forall {A B} (f : A -> list B) m (l : list A) i j a,
  (forall x, List.length (f x) = m) -> (j < m)%nat -> nth_error l i = Some a ->
  nth_error (flat_map f l) (i * m + j) = nth_error (f a) j.
Proof.
  intros A B f m l. induction l as [|x t IH]; intros i j a F J E.
  - destruct i; discriminate.
  - destruct i as [|i]; cbn [nth_error flat_map] in *.
    + injection E as <-. rewrite Nat.mul_0_l, Nat.add_0_l. apply nth_error_app1. now rewrite F.
    + rewrite nth_error_app2; rewrite F; [|nia].
      replace (Datatypes.S i * m + j - m)%nat with (i * m + j)%nat by lia. now apply IH.
Qed.
Lemma flat_map_length_const : forall {A B} (f : A -> list B) m (l : list A),
  (forall x, List.length (f x) = m) -> List.length (flat_map f l) = (List.length l * m)%nat.
Proof. induction l; intros F; cbn; auto. rewrite app_length, F, IHl by auto. lia. Qed.
Lemma nth_error_seq : forall n i, (i < n)%nat -> nth_error (seq 0 n) i = Some i.
Proof.
  intros n i L. rewrite (nth_error_nth' _ 0%nat) by (rewrite seq_length; auto).
  now rewrite seq_nth.
Qed.

Lemma points_length : forall d, List.length (points d) = (d 0 * d 1 * d 2)%nat.
Proof.
  intro d. unfold points. rewrite (flat_map_length_const _ (d 1%nat * d 2%nat)).
  - rewrite seq_length. lia.
  - intro x. rewrite (flat_map_length_const _ (d 2%nat)); [rewrite seq_length; auto|].
    intro y. now rewrite map_length, seq_length.
Qed.
Lemma points_nth : forall d c, onGrid d c ->
  nth_error (points d) (rank3 d c) = Some (c 0%nat, c 1%nat, c 2%nat).
Proof.
  intros d c G. unfold points, rank3.
  assert (G0 := G 0%nat ltac:(lia)). assert (G1 := G 1%nat ltac:(lia)). assert (G2 := G 2%nat ltac:(lia)).
  replace ((c 0 * d 1 + c 1) * d 2 + c 2)%nat with (c 0 * (d 1 * d 2) + (c 1 * d 2 + c 2))%nat by ring.
  erewrite (nth_error_flat_map _ (d 1%nat * d 2%nat)%nat).
  - erewrite (nth_error_flat_map _ (d 2%nat)).
    + rewrite nth_error_map, nth_error_seq by auto. reflexivity.
    + intro y. now rewrite map_length, seq_length.
    + auto.
    + apply nth_error_seq; auto.
  - intro x. rewrite (flat_map_length_const _ (d 2%nat)); [rewrite seq_length; auto|].
    intro y. now rewrite map_length, seq_length.
  - nia.
  - apply nth_error_seq; auto.
Qed.
Lemma coord_of : forall (c : nat -> nat) n, (n < 3)%nat -> coord (c 0%nat, c 1%nat, c 2%nat) n = c n.
Proof. intros c n L. destruct n as [|[|[|]]]; auto; lia. Qed.

(* ---------- allowed symmetries ---------- *)
Lemma rowTimes_single : forall D n r x,
  (forall j, (j < D)%nat -> j <> n -> r j = 0%Z) ->
  rowTimes D r x = if (n <? D)%nat then IZR (r n) * x n else 0.
Proof.
  induction D; intros n r x H; cbn [rowTimes].
  - destruct (n <? 0)%nat eqn:E; auto. apply Nat.ltb_lt in E. lia.
  - rewrite (IHD n) by (intros; apply H; lia).
    destruct (Nat.eq_dec n D) as [e|e].
    + subst n. assert (A : (D <? D)%nat = false) by (apply Nat.ltb_ge; lia).
      assert (B : (D <? Datatypes.S D)%nat = true) by (apply Nat.ltb_lt; lia). rewrite A, B. lra.
    + rewrite (H D) by lia. 
      destruct (n <? D)%nat eqn:E.
      * apply Nat.ltb_lt in E. assert (B : (n <? Datatypes.S D)%nat = true) by (apply Nat.ltb_lt; lia).
        rewrite B. lra.
      * apply Nat.ltb_ge in E. assert (B : (n <? Datatypes.S D)%nat = false) by (apply Nat.ltb_ge; lia).
        rewrite B. lra.
Qed.

Lemma allowed_row : forall neg D n s, symmetryAllowed neg D n s = true -> (n < D)%nat ->
  (forall j, (j < D)%nat -> j <> n -> Rm s n j = 0%Z) /\
  (Rm s n n = 1%Z \/ (neg = true /\ Rm s n n = (-1)%Z)) /\ tr s n = 0%Qc.
Proof.
  intros neg D n s H L. unfold symmetryAllowed in H. apply andb_true_iff in H. destruct H as [H T].
  rewrite forallb_forall in H. split; [|split].
  - intros j J N. specialize (H j ltac:(apply in_seq; lia)). cbv beta zeta in H.
    destruct (Nat.eqb_spec j n); [contradiction|]. now apply Z.eqb_eq in H.
  - specialize (H n ltac:(apply in_seq; lia)). cbv beta zeta in H. rewrite Nat.eqb_refl in H.
    apply orb_true_iff in H. destruct H as [H|H].
    + left. now apply Z.eqb_eq in H.
    + right. apply andb_true_iff in H. destruct H as [A B]. apply Z.eqb_eq in B. auto.
  - destruct (Qc_eq_dec (tr s n) 0%Qc); auto. discriminate.
Qed.

Lemma Q2R_0Qc : Q2R (this 0%Qc) = 0.
Proof. unfold Q2R. cbn. lra. Qed.

(** The coordinate along the normal is kept or reflected. *)
Lemma allowed_image : forall neg D n s d c c',
  symmetryAllowed neg D n s = true -> (n < D)%nat ->
  gridImage D d (Rm s) (tr s) c c' -> (c n < d n)%nat -> (c' n < d n)%nat ->
  c' n = c n \/ (neg = true /\ c' n + c n = d n)%nat.
Proof.
  intros neg D n s d c c' H L I C C'.
  destruct (allowed_row _ _ _ _ H L) as (R0 & R1 & T).
  destruct (I n L) as [k K]. unfold imageCoord in K. rewrite T, Q2R_0Qc in K.
  rewrite (rowTimes_single D n) in K by auto.
  assert (B : (n <? D)%nat = true) by (apply Nat.ltb_lt; auto). rewrite B in K.
  assert (P : 0 < INR (d n)) by (apply lt_0_INR; lia).
  assert (N : INR (d n) <> 0) by lra.
  assert (K' : INR (c' n) = IZR (Rm s n n) * INR (c n) + IZR k * INR (d n)).
  { apply (f_equal (fun t => t * INR (d n))) in K. unfold Rdiv in K.
    rewrite Rmult_assoc, Rinv_l, Rmult_1_r in K by auto. rewrite K. field. auto. }
  rewrite !INR_IZR_INZ, <- !mult_IZR, <- plus_IZR in K'. apply eq_IZR in K'.
  destruct R1 as [E|[Ng E]]; rewrite E in K'.
  - left. assert (k = 0)%Z by nia. subst k. lia.
  - destruct (Nat.eq_dec (c n) 0) as [z|z].
    + left. rewrite z in *. assert (k = 0)%Z by nia. subst k. lia.
    + right. split; auto. assert (k = 1)%Z by nia. subst k. lia.
Qed.

Lemma checkGroup_all : forall neg D nv g, checkGroup neg D nv g = Ok tt -> g <> [] ->
  (0 <= nv < Z.of_nat D)%Z /\ forall s, In s g -> symmetryAllowed neg D (Z.to_nat nv) s = true.
Proof.
  induction g as [|s t IH]; intros H N; [contradiction|]. cbn [checkGroup] in H.
  destruct ((0 <=? nv) && (nv <? Z.of_nat D))%Z eqn:E; [|discriminate].
  apply andb_true_iff in E. destruct E as [E1 E2]. apply Z.leb_le in E1. apply Z.ltb_lt in E2.
  destruct (symmetryAllowed neg D (Z.to_nat nv) s) eqn:A; cbn [check bind] in H; [|discriminate].
  split; auto. intros u [U|U]; [now subst|].
  destruct t as [|a b]; [destruct U|]. apply IH; auto. discriminate.
Qed.
Lemma checkGroup_in : forall neg D nv g s, checkGroup neg D nv g = Ok tt -> In s g ->
  (0 <= nv < Z.of_nat D)%Z /\ symmetryAllowed neg D (Z.to_nat nv) s = true.
Proof.
  intros neg D nv g s H I. assert (g <> []) by (intro E; subst; destruct I).
  destruct (checkGroup_all _ _ _ _ H H0). auto.
Qed.

(* ---------- the mask ---------- *)
Lemma maskValue_reflect : forall L it et d, maskValue L it et (L - d) = maskValue L it et d.
Proof.
  intros. unfold maskValue. replace (L - d - L / 2) with (- (d - L / 2)) by lra. now rewrite Rabs_Ropp.
Qed.

Lemma tanh_bounds : forall x, -1 < tanh x < 1.
Proof.
  intro x. unfold tanh, sinh, cosh. assert (A := exp_pos x). assert (B := exp_pos (- x)).
  assert (P : 0 < (exp x + exp (- x)) / 2) by lra.
  split.
  - apply (Rmult_lt_reg_r ((exp x + exp (- x)) / 2)); auto.
    unfold Rdiv at 2. rewrite Rmult_assoc, Rinv_l by lra. lra.
  - apply (Rmult_lt_reg_r ((exp x + exp (- x)) / 2)); auto.
    unfold Rdiv at 1. rewrite Rmult_assoc, Rinv_l by lra. lra.
Qed.
Lemma maskValue_range : forall L it et d, 0 < maskValue L it et d < 1.
Proof. intros. unfold maskValue. match goal with |- context[tanh ?x] => assert (T := tanh_bounds x) end. lra. Qed.

Lemma range_true : forall a b c, ((a <=? b) && (b <? c))%Z = true -> (a <= b < c)%Z.
Proof. intros a b c H. apply andb_true_iff in H. destruct H as [H1 H2]. apply Z.leb_le in H1. apply Z.ltb_lt in H2. lia. Qed.

Lemma latticeVector_ok : forall w i v, latticeVector w i = Ok v ->
  (0 <= i < Z.of_nat (fD w))%Z /\ v = rBasis (fLat w) (fP w) (Z.to_nat i).
Proof.
  intros w i v. unfold latticeVector. destruct ((0 <=? i) && (i <? Z.of_nat (fD w)))%Z eqn:E; [|discriminate].
  intro H. injection H as <-. apply range_true in E. auto.
Qed.
Lemma index3_ok : forall nv n, index3 nv = Ok n -> (0 <= nv < 3)%Z /\ n = Z.to_nat nv.
Proof.
  intros nv n. unfold index3. destruct ((0 <=? nv) && (nv <? 3))%Z eqn:E; [|discriminate].
  intro H. injection H as <-. apply range_true in E. auto.
Qed.
Lemma dim_le3 : forall l, (1 <= dim l <= 3)%nat.
Proof. destruct l; cbn; lia. Qed.

Lemma maskCompute_ok : forall w g g' w', maskCompute w g = Ok (g', w') ->
  exists L n, normalLength w (mNv g) = Ok L /\ mNv g = Z.of_nat n /\ (n < fD w)%nat /\
    0 < mIT g < mET g /\ (fSym w = true -> fBasis w = true) /\
    w' = withMask (Some (map (fun c => maskValue L (mIT g) (mET g) (INR (coord c n) * L / INR (dim3 w n)))
                            (points (dim3 w)))) w /\
    g' = mkMaskGen (mNv g) (mIT g) (mET g) (mFBulk g) (rBasis (fLat w) (fP w) n).
Proof.
  intros w g g' w' H. unfold maskCompute in H.
  destruct (gtb (mIT g) 0) eqn:A; cbn [check bind] in H; [|discriminate].
  destruct (gtb (mET g) (mIT g)) eqn:B; cbn [check bind] in H; [|discriminate].
  destruct (0 <=? mNv g)%Z eqn:C; cbn [check bind] in H; [|discriminate].
  destruct (negb (fSym w) || fBasis w) eqn:F; cbn [check bind] in H; [|discriminate].
  destruct (normalLength w (mNv g)) as [L| | |] eqn:NL; cbn [bind] in H; try discriminate.
  destruct (index3 (mNv g)) as [n| | |] eqn:I; cbn [bind] in H; try discriminate.
  destruct (latticeVector w (mNv g)) as [v| | |] eqn:V; cbn [bind] in H; try discriminate.
  apply latticeVector_ok in V. destruct V as [R V]. apply index3_ok in I. destruct I as [_ I].
  assert (E : mNv g = Z.of_nat n) by lia.
  exists L, n. split; auto. split; auto. split; [lia|].
  apply gtb_spec in A. apply gtb_spec in B. split; [lra|]. split.
  - intro S. rewrite S in F. exact F.
  - injection H as <- <-. split; auto. rewrite V, E, Nat2Z.id. reflexivity.
Qed.

Lemma dim3_withMask : forall m w, dim3 (withMask m w) = dim3 w.
Proof. reflexivity. Qed.
Lemma fD_withMask : forall m w, fD (withMask m w) = fD w.
Proof. reflexivity. Qed.

(** Values of a field computed point by point. *)
Lemma field_at : forall {A} (f : nat * nat * nat -> A) d c, onGrid d c ->
  nth_error (map f (points d)) (rank3 d c) = Some (f (c 0%nat, c 1%nat, c 2%nat)).
Proof. intros. now rewrite nth_error_map, points_nth. Qed.

Lemma nth_error_combine : forall {A B} (l : list A) (m : list B) k a b,
  nth_error l k = Some a -> nth_error m k = Some b -> nth_error (combine l m) k = Some (a, b).
Proof.
  induction l as [|x t IH]; intros m k a b Ha Hb; [destruct k; discriminate|].
  destruct m as [|y u]; [destruct k; discriminate|].
  destruct k; cbn in *; [congruence|auto].
Qed.

Lemma extCompute_ok : forall w g g' w', extCompute w g = Ok (g', w') ->
  exists n, xNv g = Z.of_nat n /\ (n < fD w)%nat /\ (0 < fNMon w)%nat /\
    List.length (xB g) = fNMon w /\ List.length (xT g) = fNMon w /\
    g' = mkExtGen (xNv g) (xIT g) (xET g) (xB g) (xT g) (Some (xB g, xT g)) (rBasis (fLat w) (fP w) n) /\
    ((isAthermal (fNMon w) g = Ok true /\ w' = withH None w) \/
     (isAthermal (fNMon w) g = Ok false /\ exists m, fMask w = Some m /\ (fSym w = true -> fBasis w = true) /\
        w' = withH (Some (map (fun i => map (fun cr => hValue (dim3 w n) (coord (fst cr) n)
                                          (nth i (xB g) 0) (nth i (xT g) 0) (snd cr))
                                          (combine (points (dim3 w)) m)) (seq 0 (fNMon w)))) w)).
Proof.
  intros w g g' w' H. unfold extCompute in H.
  destruct (latticeVector w (xNv g)) as [v| | |] eqn:V; cbn [bind] in H; try discriminate.
  apply latticeVector_ok in V. destruct V as [R V].
  destruct (isAthermal (fNMon w) g) as [a| | |] eqn:A; cbn [bind] in H; try discriminate.
  assert (K : (0 < fNMon w)%nat /\ List.length (xB g) = fNMon w /\ List.length (xT g) = fNMon w).
  { unfold isAthermal, wallChecks in A.
    destruct (Nat.eqb_spec (fNMon w) 0); cbn [negb check bind] in A; [discriminate|].
    destruct (Nat.eqb_spec (List.length (xB g)) (fNMon w)); cbn [check bind] in A; [|discriminate].
    destruct (Nat.eqb_spec (List.length (xT g)) (fNMon w)); cbn [check bind] in A; [|discriminate].
    split; [lia|auto]. }
  destruct K as (K1 & K2 & K3).
  exists (Z.to_nat (xNv g)). split; [lia|]. split; [lia|]. split; [auto|]. split; [auto|]. split; [auto|].
  destruct a.
  - injection H as <- <-. split; [now rewrite V|]. left. auto.
  - destruct (0 <=? xNv g)%Z; cbn [check bind] in H; [|discriminate].
    destruct (fMask w) as [m|] eqn:M; [|discriminate].
    destruct (negb (fSym w) || fBasis w) eqn:F; cbn [check bind] in H; [|discriminate].
    destruct (index3 (xNv g)) as [n| | |] eqn:I; cbn [bind] in H; try discriminate.
    apply index3_ok in I. destruct I as [_ I]. subst n.
    injection H as <- <-. split; [now rewrite V|]. right. split; auto. exists m. split; auto. split; auto.
    intro S. now rewrite S in F.
Qed.

(* ---------- being up to date ---------- *)
Lemma realVecEq_refl : forall D v, realVecEq D v v = true.
Proof.
  intros. unfold realVecEq. apply forallb_forall. intros i _.
  rewrite gtb_false; auto. rewrite Rminus_diag_eq, Rabs_R0 by auto. unfold eps8. lra.
Qed.
Lemma reqb_refl : forall a, reqb a a = true.
Proof. intro a. unfold reqb. destruct (Req_EM_T a a); auto. Qed.
Lemma sameArrays_refl : forall n a, sameArrays n a a = true.
Proof. intros. unfold sameArrays. apply forallb_forall. intros. apply reqb_refl. Qed.

Lemma mask_fresh : forall w g g' w', maskCompute w g = Ok (g', w') ->
  realVecEq (fD w) (mCur g') (fun _ => 0) = false -> maskNeeds w' g' = Ok false.
Proof.
  intros w g g' w' H N. destruct (maskCompute_ok _ _ _ _ H) as (L & n & _ & Nv & Ln & _ & _ & W & G).
  subst g' w'. unfold maskNeeds. cbn [mNv mCur] in *. rewrite fD_withMask.
  assert (E : (0 <=? mNv g)%Z = true) by (apply Z.leb_le; lia). rewrite E. cbn [check bind].
  rewrite N. unfold latticeVector. rewrite fD_withMask.
  assert (F : ((0 <=? mNv g) && (mNv g <? Z.of_nat (fD w)))%Z = true).
  { apply andb_true_iff. split; auto. apply Z.ltb_lt. lia. }
  rewrite F. cbn [bind]. rewrite Nv, Nat2Z.id. cbn [withMask fLat fP]. now rewrite realVecEq_refl.
Qed.

Lemma ext_fresh : forall w g g' w', extCompute w g = Ok (g', w') -> extNeeds w' g' = Ok false.
Proof.
  intros w g g' w' H. destruct (extCompute_ok _ _ _ _ H) as (n & Nv & Ln & K1 & K2 & K3 & G & C).
  subst g'. unfold extNeeds. cbn [xNv xCur xB xT xNvCur].
  assert (E : (0 <=? xNv g)%Z = true) by (apply Z.leb_le; lia). rewrite E. cbn [check bind].
  rewrite !sameArrays_refl. cbn [andb negb].
  assert (A : forall nm nv it et cb ct cur u, isAthermal nm (mkExtGen nv it et cb ct cur u)
              = isAthermal nm (mkExtGen 0 0 0 cb ct None (fun _ => 0))) by reflexivity.
  assert (A' : isAthermal (fNMon w) g = isAthermal (fNMon w) (mkExtGen 0 0 0 (xB g) (xT g) None (fun _ => 0))) by reflexivity.
  destruct C as [[C W]|[C (m & M & Sy & W)]]; subst w'; rewrite A; cbn [withH fNMon]; rewrite <- A', C; cbn [bind]; auto.
  unfold latticeVector. unfold fD. cbn [withH fLat fP]. fold (fD w).
  assert (F : ((0 <=? xNv g) && (xNv g <? Z.of_nat (fD w)))%Z = true).
  { apply andb_true_iff. split; auto. apply Z.ltb_lt. lia. }
  rewrite F. cbn [bind]. rewrite Nv, Nat2Z.id. now rewrite realVecEq_refl.
Qed.
