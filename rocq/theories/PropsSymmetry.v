(** C16, C17, C18: crystallographic symmetries, groups, mesh compatibility. *)
From Coq Require Import ZArith QArith Qcanon List Bool Arith Lia Znumtheory.
From Verif Require Import Base Symmetry SymmetryProofs SymmetryAlg.
Import ListNotations.
Local Open Scope Z_scope.

(* ---------- specification ---------- *)
(** Action on a position in lattice coordinates, and equality modulo the lattice. *)
Definition act (D : nat) (s : symm) (x : nat -> Qc) (i : nat) : Qc :=
  (qsum D (fun j => IZQ (Rm s i j) * x j) + tr s i)%Qc.
Definition same_site (D : nat) (x y : nat -> Qc) : Prop :=
  forall i, (i < D)%nat -> exists z : Z, x i = (y i + IZQ z)%Qc.

(* ---------- C16 ---------- *)
Theorem symm_respects_lattice : forall D s x y, same_site D x y -> same_site D (act D s x) (act D s y).
Proof.
  intros D s x y H i Hi. unfold act. destruct (qsum_mod D (Rm s i) x y H) as [z E]. exists z. rewrite E. ring.
Qed.

Theorem symm_product_is_composition : forall D a b x,
  same_site D (act D (smul D a b) x) (act D a (act D b x)).
Proof.
  intros D a b x i Hi. unfold act. rewrite tr_smul by auto.
  destruct (normalize1_ex (tr a i + qsum D (fun j => IZQ (Rm a i j) * tr b j))%Qc) as [z E]. exists z. rewrite E.
  rewrite (qsum_ext D (fun j => IZQ (Rm (smul D a b) i j) * x j)%Qc
     (fun k => qsum D (fun j => IZQ (Rm a i j) * IZQ (Rm b j k) * x k)%Qc)).
  2:{ intros j Hj. rewrite Rm_smul by auto. rewrite <- qsum_IZQ, <- qsum_scal_r. apply qsum_ext. intros.
      rewrite IZQ_mult. reflexivity. }
  rewrite (qsum_swap D D (fun k j => IZQ (Rm a i j) * IZQ (Rm b j k) * x k)%Qc).
  rewrite (qsum_ext D (fun j => IZQ (Rm a i j) * (qsum D (fun k => IZQ (Rm b j k) * x k) + tr b j))%Qc
     (fun j => qsum D (fun k => IZQ (Rm a i j) * IZQ (Rm b j k) * x k) + IZQ (Rm a i j) * tr b j)%Qc).
  2:{ intros j Hj. rewrite (qsum_ext D (fun k => IZQ (Rm a i j) * IZQ (Rm b j k) * x k)%Qc
        (fun k => IZQ (Rm a i j) * (IZQ (Rm b j k) * x k))%Qc) by (intros; ring). rewrite qsum_scal. ring. }
  rewrite qsum_plus. ring.
Qed.

(** The reciprocal-space action used for waves composes in the same way. *)
Theorem symm_wave_action_composes : forall D a b v i, (i < D)%nat ->
  mulVS D (mulVS D v a) b i = mulVS D v (smul D a b) i /\
  mulSV D a (mulSV D b v) i = mulSV D (smul D a b) v i.
Proof.
  intros D a b v i Hi. unfold mulVS, mulSV. split.
  - rewrite (zsum_ext D (fun j => v j * Rm (smul D a b) j i) (fun j => zsum D (fun k => v j * Rm a j k * Rm b k i))).
    2:{ intros j Hj. rewrite Rm_smul by auto. rewrite <- zsum_scal. apply zsum_ext. intros; lia. }
    rewrite zsum_swap. apply zsum_ext. intros k Hk. rewrite zsum_scal_r. reflexivity.
  - rewrite (zsum_ext D (fun j => Rm (smul D a b) i j * v j) (fun j => zsum D (fun k => Rm a i k * Rm b k j * v j))).
    2:{ intros j Hj. rewrite Rm_smul by auto. rewrite <- zsum_scal_r. reflexivity. }
    rewrite zsum_swap. apply zsum_ext. intros k Hk. rewrite <- zsum_scal. apply zsum_ext. intros; lia.
Qed.

Theorem symm_translations_normalized : forall D a b i, (i < D)%nat ->
  (0 <= tr (smul D a b) i)%Qc /\ (tr (smul D a b) i < 1)%Qc.
Proof. intros D a b i Hi. destruct (smul_normal D a b) as [_ H]. auto. Qed.

(** The loops of normalize() end, in [0,1), on the same class modulo 1. *)
Theorem symm_normalize_correct : forall q, exists q' z, normalize1_loop q = Ok q' /\
  q' = (q + IZQ z)%Qc /\ (0 <= q')%Qc /\ (q' < 1)%Qc.
Proof.
  intros q. destruct (normalize1_ex q) as [z E]. destruct (normalize1_range q).
  exists (normalize1 q), z. rewrite normalize1_loop_ok. auto.
Qed.

Lemma quot_det : forall x d, 1 = d * d -> Z.quot x d = x * d.
Proof.
  intros x d H. assert (E : d = 1 \/ d = -1) by nia. destruct E as [-> | ->].
  - rewrite Z.quot_1_r. lia.
  - change (-1) with (- (1)). rewrite Z.quot_opp_r by lia. rewrite Z.quot_1_r. lia.
Qed.

Lemma inverseRotation_ok : forall D a, (1 <= D <= 3)%nat -> determinant D a * determinant D a = 1 ->
  exists Ri, inverseRotation D a = Ok Ri /\ length Ri = D /\ Forall (fun r => length r = D) Ri /\
    forall i j, (i < D)%nat -> (j < D)%nat ->
      zsum D (fun k => Rm a i k * Rm (mkSymm Ri []) k j) = (if Nat.eqb i j then 1 else 0) /\
      zsum D (fun k => Rm (mkSymm Ri []) i k * Rm a k j) = (if Nat.eqb i j then 1 else 0).
Proof.
  intros D a HD Hdet. unfold inverseRotation. rewrite (proj2 (Z.eqb_eq 1 _)) by auto. cbn [check bind].
  assert (Q : forall x, Z.quot x (determinant D a) = x * determinant D a) by (intros; apply quot_det; auto).
  assert (D = 1 \/ D = 2 \/ D = 3)%nat as [-> | [-> | ->]] by lia; cbn [determinant] in *.
  - eexists. split; [reflexivity|]. split; auto. split; [repeat constructor|].
    intros [|i] [|j] Hi Hj; try lia. cbn. lia.
  - eexists. split; [reflexivity|]. split; auto. split; [repeat constructor|]. rewrite !Q.
    set (d := Rm a 0 0 * Rm a 1 1 - Rm a 0 1 * Rm a 1 0) in *.
    intros i j Hi Hj. assert (i = 0 \/ i = 1)%nat as [-> | ->] by lia; assert (j = 0 \/ j = 1)%nat as [-> | ->] by lia;
      cbn [zsum Nat.eqb Nat.add]; split; unfold Rm, d; cbn [nth sR]; rewrite <- ?Hdet; unfold d, Rm; ring.
  - eexists. split; [reflexivity|]. split; auto. split; [repeat constructor|]. rewrite !Q.
    match type of Hdet with ?X * _ = 1 => set (d := X) in * end.
    intros i j Hi Hj. assert (i = 0 \/ i = 1 \/ i = 2)%nat as [-> | [-> | ->]] by lia;
      assert (j = 0 \/ j = 1 \/ j = 2)%nat as [-> | [-> | ->]] by lia;
      cbn [zsum Nat.eqb Nat.add]; split; unfold Rm, d; cbn [nth sR]; rewrite <- ?Hdet; unfold d, Rm; ring.
Qed.

Theorem symm_inverse_correct : forall D a, (1 <= D <= 3)%nat -> shaped D a ->
  determinant D a = 1 \/ determinant D a = -1 ->
  exists b, sinverse D a = Ok b /\ normal D b /\ smul D a b = identity D /\ smul D b a = identity D.
Proof.
  intros D a HD HA Hdet. destruct (inverseRotation_ok D a HD) as [Ri [E [L1 [L2 HI]]]].
  { destruct Hdet as [-> | ->]; reflexivity. }
  unfold sinverse. rewrite E. cbn [bind].
  set (c := mkSymm Ri []) in *.
  set (b := normalize D (mkSymm Ri (mkVec D (fun i => (0 - qsum D (fun j => IZQ (Rm c i j) * tr a j))%Qc)))).
  exists b. split; auto.
  assert (SB : shaped D (mkSymm Ri (mkVec D (fun i => (0 - qsum D (fun j => IZQ (Rm c i j) * tr a j))%Qc)))).
  { unfold shaped; cbn [sR sT]. rewrite mkVec_length. auto. }
  assert (NB : normal D b) by (apply normal_normalize; auto). split; auto.
  assert (RB : forall i j, Rm b i j = Rm c i j) by reflexivity.
  assert (TB : forall i, (i < D)%nat -> exists z, tr b i = (- qsum D (fun j => IZQ (Rm c i j) * tr a j) + IZQ z)%Qc).
  { intros i Hi. unfold b. rewrite tr_normalize, tr_mk by auto. 
    destruct (normalize1_ex (0 - qsum D (fun j => IZQ (Rm c i j) * tr a j))%Qc) as [z Ez]. exists z. rewrite Ez. ring. }
  split; apply (symm_ext D); auto using smul_shaped, identity_shaped.
  - intros i j Hi Hj. rewrite Rm_smul, Rm_identity by auto. rewrite <- (proj1 (HI i j Hi Hj)).
    apply zsum_ext. intros; rewrite RB; auto.
  - intros i Hi. rewrite tr_smul, tr_identity by auto.
    destruct (qsum_mod D (Rm a i) (tr b) (fun j => (- qsum D (fun k => IZQ (Rm c j k) * tr a k))%Qc) TB) as [z Ez]. rewrite Ez.
    assert (S : qsum D (fun j => IZQ (Rm a i j) * (- qsum D (fun k => IZQ (Rm c j k) * tr a k)))%Qc = (- tr a i)%Qc).
    { rewrite (qsum_ext D _ (fun j => qsum D (fun k => - (IZQ (Rm a i j * Rm c j k) * tr a k))%Qc)).
      2:{ intros j Hj. rewrite (qsum_ext D (fun k => - (IZQ (Rm a i j * Rm c j k) * tr a k))%Qc
             (fun k => - IZQ (Rm a i j) * (IZQ (Rm c j k) * tr a k))%Qc) by (intros; rewrite IZQ_mult; ring).
          rewrite qsum_scal. ring. }
      rewrite qsum_swap.
      rewrite (qsum_ext D _ (fun k => - (if Nat.eqb i k then tr a k else 0))%Qc).
      - rewrite (qsum_ext D _ (fun k => - (1) * (if Nat.eqb i k then tr a k else 0))%Qc) by (intros; ring).
        rewrite qsum_scal.
        assert (X : qsum D (fun k => if Nat.eqb i k then tr a k else 0%Qc) = tr a i).
        { clear -Hi. revert Hi. generalize (tr a). intros f. induction D as [|n IH]; intros; [lia|]. simpl.
          destruct (Nat.eq_dec i n) as [->|N].
          - rewrite Nat.eqb_refl. rewrite (qsum_ext n _ (fun _ => 0%Qc)), qsum_zero; [ring|].
            intros j Hj. destruct (Nat.eqb_spec n j); auto; lia.
          - rewrite IH by lia. destruct (Nat.eqb_spec i n); [lia|]. ring. }
        rewrite X. ring.
      - intros k Hk. rewrite (qsum_ext D _ (fun j => IZQ (Rm a i j * Rm c j k) * (- tr a k))%Qc) by (intros; ring).
        rewrite qsum_scal_r, qsum_IZQ, (proj1 (HI i k Hi Hk)). destruct (Nat.eqb i k); [rewrite IZQ_1|rewrite IZQ_0]; ring. }
    rewrite S. replace (tr a i + (- tr a i + IZQ z))%Qc with (IZQ z) by ring. apply normalize1_int.
  - intros i j Hi Hj. rewrite Rm_smul, Rm_identity by auto. rewrite <- (proj2 (HI i j Hi Hj)).
    apply zsum_ext. intros; rewrite RB; auto.
  - intros i Hi. rewrite tr_smul, tr_identity by auto. destruct (TB i Hi) as [z Ez]. rewrite Ez.
    rewrite (qsum_ext D (fun j => IZQ (Rm b i j) * tr a j)%Qc (fun j => IZQ (Rm c i j) * tr a j)%Qc) by (intros; rewrite RB; auto).
    replace (- qsum D (fun j => IZQ (Rm c i j) * tr a j) + IZQ z + qsum D (fun j => IZQ (Rm c i j) * tr a j))%Qc with (IZQ z) by ring.
    apply normalize1_int.
Qed.

Theorem symm_inverse_rejects : forall D a, determinant D a * determinant D a <> 1 -> sinverse D a = Throw.
Proof.
  intros D a H. unfold sinverse, inverseRotation.
  rewrite (proj2 (Z.eqb_neq 1 _)) by auto. reflexivity.
Qed.

(** Shifting the origin conjugates the action by the shift. *)
Theorem symm_shiftOrigin_conjugates : forall D o s x,
  same_site D (act D (shiftOrigin D o s) x) (fun i => (act D s (fun j => x j + o j) i - o i)%Qc).
Proof.
  intros D o s x i Hi. unfold act, shiftOrigin. rewrite tr_normalize, tr_mk by auto.
  destruct (normalize1_ex (tr s i - o i + qsum D (fun j => IZQ (Rm s i j) * o j))%Qc) as [z E]. exists z. rewrite E.
  rewrite (qsum_ext D (fun j => IZQ (Rm s i j) * (x j + o j))%Qc (fun j => IZQ (Rm s i j) * x j + IZQ (Rm s i j) * o j)%Qc) by (intros; ring).
  rewrite qsum_plus. unfold Rm; cbn [sR normalize]. ring.
Qed.

(** Group laws. *)
Theorem symm_group_laws : forall D,
  (forall a b c, smul D (smul D a b) c = smul D a (smul D b c)) /\
  (forall a, normal D a -> smul D (identity D) a = a).
Proof. intros D. split; [apply smul_assoc|apply smul_identity_l]. Qed.

(** operator== decides whether two stored symmetries act in the same way. *)
Theorem symm_equal_iff_same_action : forall D a b, normal D a -> normal D b ->
  (symm_eqb D a b = true <-> forall x, same_site D (act D a x) (act D b x)).
Proof.
  intros D a b [SA NA] [SB NB]. rewrite symm_eqb_iff by auto. split.
  - intros -> x i Hi. exists 0. rewrite IZQ_0. ring.
  - intros H.
    assert (HT : forall i, (i < D)%nat -> tr a i = tr b i).
    { intros i Hi. destruct (H (fun _ => 0%Qc) i Hi) as [z E]. unfold act in E.
      rewrite (qsum_ext D _ (fun _ => 0%Qc)) in E by (intros; ring).
      rewrite (qsum_ext D (fun j => IZQ (Rm b i j) * 0)%Qc (fun _ => 0%Qc)) in E by (intros; ring).
      rewrite qsum_zero in E. destruct (NA i Hi), (NB i Hi). apply (frac_unique _ _ z); auto.
      replace (tr a i) with (0 + tr a i)%Qc by ring. rewrite E. ring. }
    apply (symm_ext D); auto. intros i j Hi Hj.
    destruct (Z.eq_dec (Rm a i j) (Rm b i j)) as [|N]; auto. exfalso.
    set (d := Rm a i j - Rm b i j). assert (Hd : d <> 0) by (unfold d; lia).
    set (q := Q2Qc (1 # Z.to_pos (2 * Z.abs d))).
    destruct (H (fun k => if Nat.eqb j k then q else 0%Qc) i Hi) as [z E]. unfold act in E. rewrite (HT i Hi) in E.
    assert (S : forall s, qsum D (fun k => IZQ (Rm s i k) * (if Nat.eqb j k then q else 0))%Qc = (IZQ (Rm s i j) * q)%Qc).
    { intros s. clear -Hj. revert Hj. generalize (Rm s i). intros f. induction D as [|n IH]; intros; [lia|]. simpl.
      destruct (Nat.eq_dec j n) as [->|N].
      - rewrite Nat.eqb_refl. rewrite (qsum_ext n _ (fun _ => 0%Qc)), qsum_zero; [ring|].
        intros k Hk. destruct (Nat.eqb_spec n k); [lia|ring].
      - rewrite IH by lia. destruct (Nat.eqb_spec j n); [lia|]. ring. }
    rewrite !S in E.
    assert (E2 : (IZQ d * q = IZQ z)%Qc).
    { unfold d. rewrite IZQ_sub.
      replace ((IZQ (Rm a i j) - IZQ (Rm b i j)) * q)%Qc
         with ((IZQ (Rm a i j) * q + tr b i) - (IZQ (Rm b i j) * q + tr b i))%Qc by ring.
      rewrite E. ring. }
    assert (E3 : (inject_Z d * (1 # Z.to_pos (2 * Z.abs d)) == inject_Z z)%Q).
    { apply (f_equal this) in E2. unfold IZQ, q, Qcmult, Q2Qc in E2. cbn [this] in E2.
      rewrite <- (Qred_correct (inject_Z z)), <- E2. rewrite !Qred_correct. reflexivity. }
    remember (Z.to_pos (2 * Z.abs d)) as pp eqn:EP. assert (PP : Zpos pp = 2 * Z.abs d) by (rewrite EP; apply Z2Pos.id; lia).
    unfold Qeq, inject_Z in E3. simpl in E3. clear - E3 PP Hd.
    destruct (Z.abs_spec d) as [[_ A]|[_ A]]; rewrite A in PP; clear A; assert (d = z * Zpos pp) by lia; clear E3; rewrite PP in H;
      clear PP.
    + assert (X : d * (1 - 2 * z) = 0) by lia. apply Z.mul_eq_0 in X. lia.
    + assert (X : d * (1 + 2 * z) = 0) by lia. apply Z.mul_eq_0 in X. lia.
Qed.

(* ---------- C17 ---------- *)
Definition space_group (D : nat) (g : list symm) : Prop :=
  In (identity D) g /\ NoDup g /\
  (forall a b, In a g -> In b g -> In (smul D a b) g) /\
  (forall a, In a g -> exists c, sinverse D a = Ok c /\ In c g).

Lemma sinverse_normal : forall D a b, normal D a -> sinverse D a = Ok b -> normal D b.
Proof.
  intros D a b HA H. unfold sinverse in H. destruct (inverseRotation D a) as [Ri| | |] eqn:E; try discriminate.
  cbn [bind] in H. inversion H; subst b. apply normal_normalize. unfold shaped; cbn [sR sT]. rewrite mkVec_length.
  unfold inverseRotation in E. destruct (1 =? _); [|discriminate]. cbn [check bind] in E.
  destruct D as [|[|[|[|D]]]]; try discriminate; inversion E; subst; repeat split; repeat constructor.
Qed.

(** Result of makeCompleteGroup: the generated group, each element once. *)
Theorem space_group_completion : forall D fuel start g,
  Forall (normal D) start -> NoDup start -> In (identity D) start ->
  spaceComplete D fuel start = Ok g ->
  space_group D g /\ incl start g /\
  (forall a, In a g <-> generated symm (smul D) (sinverse D) start a).
Proof.
  intros D fuel start g HN HD HI H.
  destruct (makeComplete_spec symm (symm_eqb D) (smul D) (sinverse D) (identity D) (normalize D) (normal D)) with (fuel := fuel) (start := start) (els := g)
    as [B [A [_ C]]]; auto.
  - intros a b [Ha _] [Hb _]. apply symm_eqb_iff; auto.
  - intros; apply normalize_normal; auto.
  - intros; apply smul_normal.
  - intros a b; apply sinverse_normal.
  - intros; apply smul_identity_l; auto.
Qed.

(** It returns whenever the starting elements lie in a finite group. *)
Theorem space_group_completion_terminates : forall D fuel start G,
  space_group D G -> Forall (normal D) G -> incl start G -> NoDup start -> (length G < fuel + length start)%nat ->
  exists g, spaceComplete D fuel start = Ok g.
Proof.
  intros D fuel start G [_ [_ [CM CI]]] HN HI HD Hf.
  apply (makeComplete_total symm (symm_eqb D) (smul D) (sinverse D) (normalize D) (normal D)) with (G := G); auto.
  - intros a b [Ha _] [Hb _]. apply symm_eqb_iff; auto.
  - intros; apply normalize_normal; auto.
  - intros; apply smul_normal.
  - intros a b; apply sinverse_normal.
Qed.

(** isValid accepts exactly the groups. *)
Theorem space_group_isValid_iff : forall D g, Forall (normal D) g ->
  (spaceValid D g = Ok true <-> space_group D g).
Proof.
  intros D g HN. apply (gisValid_iff symm (symm_eqb D) (smul D) (sinverse D) (identity D) (normal D)); auto.
  - intros a b [Ha _] [Hb _]. apply symm_eqb_iff; auto.
  - intros; apply smul_normal.
  - intros a b; apply sinverse_normal.
  - apply identity_normal.
Qed.

(** add() keeps elements unique if its argument is normalized ... *)
Theorem space_group_add_unique : forall D g s, Forall (normal D) g -> NoDup g -> normal D s ->
  let g' := fst (spaceAdd D g s) in
  NoDup g' /\ In s g' /\ (forall a, In a g' <-> In a g \/ a = s).
Proof.
  intros D g s HG HN Hs g'.
  destruct (gadd_spec symm (symm_eqb D) (normalize D) (normal D)) with (els := g) (s := s) as [ext [E [_ [_ [I [_ [N X]]]]]]]; auto.
  - intros a b [Ha _] [Hb _]. apply symm_eqb_iff; auto.
  - intros; apply normalize_normal; auto.
  - split; auto. split; auto. unfold g', spaceAdd. intros a. rewrite E, in_app_iff. split.
    + intros [H|H]; auto.
    + intros [H|H]; auto. subst a. unfold spaceAdd in I. rewrite E, in_app_iff in I. auto.
Qed.
(** ... but not for a symmetry read from a file, whose translation is not
    normalized before the comparison (SpaceGroup.h 140-143, SpaceSymmetry.h 485-498). *)
Theorem space_group_add_unique_refuted : exists D g s, Forall (normal D) g /\ NoDup g /\ shaped D s /\
  ~ NoDup (fst (spaceAdd D g s)).
Proof.
  exists 1%nat, [identity 1], (mkSymm [[1]] [IZQ 1]).
  split; [constructor; [apply identity_normal|constructor]|]. split; [repeat constructor; simpl; tauto|].
  split; [repeat split; repeat constructor|]. vm_compute.
  intros H. inversion H as [|x l H1 H2]; subst. apply H1. left.
  apply (symm_ext 1); [repeat split; repeat constructor|repeat split; repeat constructor| |].
  intros [|i] [|j] Hi Hj; try lia; reflexivity.
  - intros [|i] Hi; try lia. apply Qc_is_canon. reflexivity.
Qed.

(* ---------- C18 ---------- *)
(** A mesh point in lattice coordinates, and membership in the mesh. *)
Definition mesh_point (dims : nat -> Z) (n : nat -> Z) (i : nat) : Qc := (IZQ (n i) / IZQ (dims i))%Qc.
Definition on_mesh_axis (dims : nat -> Z) (x : nat -> Qc) (i : nat) : Prop :=
  exists z : Z, (x i * IZQ (dims i))%Qc = IZQ z.

Lemma IZQ_nonzero : forall z, z <> 0 -> IZQ z <> 0%Qc.
Proof.
  intros z H E. apply H. unfold IZQ in E. apply (f_equal this) in E. unfold Q2Qc in E. cbn [this] in E.
  assert (X : (inject_Z z == 0)%Q) by (rewrite <- (Qred_correct (inject_Z z)), E; reflexivity).
  unfold Qeq, inject_Z in X. simpl in X. lia.
Qed.

(** Translations whose denominator divides the mesh dimension. *)
Lemma den_divides : forall (q : Qc) d, (Zpos (Qden q) | d) -> exists z, (q * IZQ d)%Qc = IZQ z.
Proof.
  intros [[n k] C] d [c E]. simpl in E. exists (n * c). apply Qc_is_canon.
  unfold IZQ, Qcmult, Q2Qc. cbn [this]. rewrite !Qred_correct. unfold Qeq, inject_Z; simpl. subst d. nia.
Qed.

Lemma maxDen_bound : forall i g s, In s g -> Qnum (tr s i) <> 0 -> Zpos (Qden (tr s i)) <= maxDen i g.
Proof.
  intros i g s Hs Hn. unfold maxDen.
  set (f := fun dv s0 => let num := Qnum (tr s0 i) in let den := Zpos (Qden (tr s0 i)) in
     if negb (num =? 0) then (if dv <? den then den else dv) else dv).
  assert (M : forall l a, a <= fold_left f l a).
  { induction l as [|x l IH]; intros a; simpl; [lia|]. eapply Z.le_trans; [|apply IH]. unfold f.
    destruct (Qnum (tr x i) =? 0); cbn [negb]; [lia|]. destruct (Z.ltb_spec a (Zpos (Qden (tr x i)))); lia. }
  assert (G : forall l a, In s l -> Zpos (Qden (tr s i)) <= fold_left f l a).
  { induction l as [|x l IH]; intros a H; [destruct H|]. destruct H as [H|H]; simpl; [|apply IH; auto].
    subst x. eapply Z.le_trans; [|apply M]. unfold f. apply Z.eqb_neq in Hn. rewrite Hn. cbn [negb].
    destruct (Z.ltb_spec a (Zpos (Qden (tr s i)))); lia. }
  apply G; auto.
Qed.

Lemma divisor_multiple : forall i g s, In s g -> (Zpos (Qden (tr s i)) | divisor i g).
Proof.
  intros i g s Hs. destruct (Z.eq_dec (Qnum (tr s i)) 0) as [Z0|Hn].
  - assert (Qden (tr s i) = 1%positive).
    { destruct (tr s i) as [[n d] C]. simpl in *. subst n.
      assert (E := C). unfold Qred in E. simpl in E. inversion E; auto. }
    rewrite H. exists (divisor i g). lia.
  - unfold divisor.
    set (f := fun dv s0 => let num := Qnum (tr s0 i) in let den := Zpos (Qden (tr s0 i)) in
       if negb (num =? 0) then
         (if den <? dv then (if negb (Z.rem dv den =? 0) then dv * den else dv) else dv)
       else dv).
    assert (SF : forall l a, (forall x, In x l -> Qnum (tr x i) <> 0 -> Zpos (Qden (tr x i)) <= a) -> 0 < a ->
       (a | fold_left f l a) /\ forall x, In x l -> Qnum (tr x i) <> 0 -> (Zpos (Qden (tr x i)) | fold_left f l a)).
    { induction l as [|x l IH]; intros a HB Ha; simpl.
      - split; [apply Z.divide_refl|tauto].
      - assert (F : (a | f a x) /\ a <= f a x /\ (Qnum (tr x i) <> 0 -> (Zpos (Qden (tr x i)) | f a x))).
        { unfold f. destruct (Z.eqb_spec (Qnum (tr x i)) 0) as [E|E]; cbn [negb].
          - split; [apply Z.divide_refl|]. split; [lia|]. intros; contradiction.
          - assert (B := HB x (or_introl eq_refl) E). destruct (Z.ltb_spec (Zpos (Qden (tr x i))) a) as [L|L].
            + destruct (Z.eqb_spec (Z.rem a (Zpos (Qden (tr x i)))) 0) as [R|R]; cbn [negb].
              * split; [apply Z.divide_refl|]. split; [lia|]. intros _. apply Z.rem_divide; [lia|auto].
              * split; [exists (Zpos (Qden (tr x i))); lia|]. split; [nia|]. intros _. exists a; lia.
            + assert (a = Zpos (Qden (tr x i))) by lia. split; [apply Z.divide_refl|]. split; [lia|].
              intros _. subst a. apply Z.divide_refl. }
        destruct F as [F1 [F2 F3]]. destruct (IH (f a x)) as [I1 I2]; [|lia|].
        { intros y Hy Ny. assert (B := HB y (or_intror Hy) Ny). lia. }
        split; [eapply Z.divide_trans; eauto|]. intros y [->|Hy] Ny; auto. eapply Z.divide_trans; [apply F3; auto|auto]. }
    assert (P : 0 < maxDen i g).
    { assert (B := maxDen_bound i g s Hs Hn). lia. }
    destruct (SF g (maxDen i g) (fun x Hx Nx => maxDen_bound i g x Hx Nx) P) as [_ X]. apply X; auto.
Qed.

Lemma checkMesh_facts : forall D g dims, checkMeshDimensions D g dims = Ok tt ->
  (forall s i, In s g -> (1 <= i < D)%nat -> (Zpos (Qden (tr s i)) | dims i)) /\
  (forall s i j, In s g -> (i < D)%nat -> (j < D)%nat -> Rm s i j <> 0 -> dims i = dims j).
Proof.
  intros D g dims H. unfold checkMeshDimensions in H.
  destruct (forallb (fun i => Z.rem (dims i) (divisor i g) =? 0) (seq 1 (D - 1))) eqn:E1; [|discriminate].
  cbn [check bind] in H.
  destruct (forallb (fun i => forallb (fun j => negb (areRelated g i j && negb (dims i =? dims j))) (seq 0 i)) (seq 0 D)) eqn:E2; [|discriminate].
  rewrite forallb_forall in E1, E2. split.
  - intros s i Hs Hi. specialize (E1 i ltac:(apply in_seq; lia)). apply Z.eqb_eq in E1.
    assert (DM := divisor_multiple i g s Hs). eapply Z.divide_trans; [exact DM|].
    apply Z.rem_divide; auto. intros Z0. rewrite Z0 in E1. destruct DM as [c Hc]. rewrite Z0 in Hc.
    (* divisor is never zero *)
    assert (P : 0 < divisor i g); [|lia]. clear. unfold divisor.
    assert (P1 : 0 < maxDen i g).
    { unfold maxDen. assert (G : forall l a, 0 < a -> 0 < fold_left (fun dv s0 => let num := Qnum (tr s0 i) in let den := Zpos (Qden (tr s0 i)) in
        if negb (num =? 0) then (if dv <? den then den else dv) else dv) l a).
      { induction l as [|x l IH]; intros a Ha; simpl; auto. apply IH. destruct (negb (Qnum (tr x i) =? 0)); auto. destruct (a <? _); lia. }
      apply G. lia. }
    revert P1. generalize (maxDen i g). induction g as [|x l IH]; intros a Ha; simpl; auto. apply IH.
    destruct (negb (Qnum (tr x i) =? 0)); auto. destruct (_ <? a); auto. destruct (negb _); lia.
  - assert (G : forall s i j, In s g -> (j < i)%nat -> (i < D)%nat -> Rm s i j <> 0 \/ Rm s j i <> 0 -> dims i = dims j).
    { intros s i j Hs Hj Hi HR. specialize (E2 i ltac:(apply in_seq; lia)). rewrite forallb_forall in E2.
      specialize (E2 j ltac:(apply in_seq; lia)). apply negb_true_iff in E2.
      assert (A : areRelated g i j = true).
      { unfold areRelated. destruct (Nat.eqb_spec i j); auto. apply existsb_exists. exists s. split; auto.
        apply orb_true_iff. rewrite !negb_true_iff, !Z.eqb_neq. auto. }
      rewrite A in E2. cbn [andb] in E2. apply negb_false_iff in E2. apply Z.eqb_eq; auto. }
    intros s i j Hs Hi Hj HR. destruct (lt_eq_lt_dec i j) as [[L|L]|L].
    + symmetry. apply (G s j i); auto.
    + subst; auto.
    + apply (G s i j); auto.
Qed.

(** If the check passes, every symmetry maps mesh points to points that lie on
    the mesh along every axis but the first; and along the first axis too when
    the denominators of the translations along it divide its dimension. *)
Theorem mesh_check_sound_partial : forall D g dims, checkMeshDimensions D g dims = Ok tt ->
  (forall i, (i < D)%nat -> 0 < dims i) ->
  forall s n i, In s g -> (i < D)%nat ->
    ((1 <= i)%nat \/ (Zpos (Qden (tr s i)) | dims i)) ->
    on_mesh_axis dims (act D s (mesh_point dims n)) i.
Proof.
  intros D g dims H HP s n i Hs Hi Hor. destruct (checkMesh_facts D g dims H) as [F1 F2].
  assert (T : (Zpos (Qden (tr s i)) | dims i)) by (destruct Hor as [L|]; auto).
  destruct (den_divides _ _ T) as [z Ez]. unfold on_mesh_axis, act, mesh_point.
  exists (zsum D (fun j => Rm s i j * n j) + z). rewrite IZQ_plus, <- qsum_IZQ, <- Ez.
  rewrite Qcmult_plus_distr_l, <- qsum_scal_r. f_equal. apply qsum_ext. intros j Hj.
  destruct (Z.eq_dec (Rm s i j) 0) as [E|E].
  - rewrite E. rewrite Z.mul_0_l, IZQ_0. ring.
  - rewrite (F2 s i j Hs Hi Hj E). rewrite IZQ_mult. field.
    apply IZQ_nonzero. specialize (HP j Hj). lia.
Qed.

(** The first axis is never checked: even a valid group can be accepted on a
    mesh that it does not map to itself. *)
Theorem mesh_check_sound_refuted : exists D g dims s n,
  space_group D g /\ Forall (normal D) g /\ (forall i, (i < D)%nat -> 0 < dims i) /\
  checkMeshDimensions D g dims = Ok tt /\ In s g /\
  ~ on_mesh_axis dims (act D s (mesh_point dims n)) 0.
Proof.
  set (t := mkSymm [[1;0];[0;1]] [Q2Qc (1#2); 0%Qc]).
  set (g := [identity 2; t]).
  assert (N : Forall (normal 2) g).
  { constructor; [apply identity_normal|]. constructor; [|constructor]. split; [repeat split; repeat constructor|].
    intros [|[|i]] Hi; try lia; cbn; unfold Qcle, Qclt; simpl; split; try discriminate; reflexivity. }
  exists 2%nat, g, (fun _ => 3), t, (fun _ => 0).
  split; [apply space_group_isValid_iff; auto; vm_compute; reflexivity|]. split; auto. split; [intros; lia|].
  split; [vm_compute; reflexivity|]. split; [simpl; auto|].
  intros [z E]. unfold act, mesh_point in E. simpl in E.
  apply (f_equal this) in E.
  assert (X : (inject_Z z == 3 # 2)%Q).
  { rewrite <- (Qred_correct (inject_Z z)). change (Qred (inject_Z z)) with (this (IZQ z)). rewrite <- E. vm_compute. reflexivity. }
  unfold Qeq, inject_Z in X. simpl in X. lia.
Qed.

(* ---------- C17, continued: inversion centres and shifted groups ---------- *)
(** hasInversionCenter finds a centre iff some element inverts all directions,
    and that element is the point reflection about the returned centre. *)
Theorem inversion_center_correct : forall D g,
  match hasInversionCenter D g with
  | Some c => exists s, In s g /\ forall y i, (i < D)%nat -> act D s (fun j => c j + y j)%Qc i = (c i - y i)%Qc
  | None => forall s, In s g -> exists i j, (i < D)%nat /\ (j < D)%nat /\ Rm s i j <> if Nat.eqb i j then -1 else 0
  end.
Proof.
  intros D g. unfold hasInversionCenter. destruct (find (isInversion D) g) as [s|] eqn:E.
  - apply find_some in E. destruct E as [Hs HI]. exists s. split; auto. intros y i Hi. unfold isInversion in HI.
    rewrite forallb_forall in HI.
    assert (R : forall j k, (j < D)%nat -> (k < D)%nat -> Rm s j k = if Nat.eqb j k then -1 else 0).
    { intros j k Hj Hk. specialize (HI j ltac:(apply in_seq; lia)). rewrite forallb_forall in HI.
      specialize (HI k ltac:(apply in_seq; lia)). destruct (Nat.eqb j k); apply Z.eqb_eq; auto. }
    unfold act.
    rewrite (qsum_ext D _ (fun j => IZQ (if Nat.eqb i j then -1 else 0) * (tr s j / IZQ 2 + y j))%Qc) by (intros; rewrite R; auto).
    assert (X : forall f : nat -> Qc, qsum D (fun j => IZQ (if Nat.eqb i j then -1 else 0) * f j)%Qc = (- f i)%Qc).
    { intros f. clear -Hi. revert Hi. induction D as [|n IH]; intros; [lia|]. simpl.
      destruct (Nat.eq_dec i n) as [->|N].
      - rewrite Nat.eqb_refl. rewrite (qsum_ext n _ (fun _ => 0%Qc)), qsum_zero.
        + change (-1) with (- (1)). rewrite IZQ_opp, IZQ_1. ring.
        + intros k Hk. destruct (Nat.eqb_spec n k); [lia|rewrite IZQ_0; ring].
      - rewrite IH by lia. destruct (Nat.eqb_spec i n); [lia|]. rewrite IZQ_0. ring. }
    rewrite (X (fun j => tr s j / IZQ 2 + y j)%Qc). change 2 with (1 + 1). rewrite IZQ_plus, IZQ_1. field.
    intros C. apply (f_equal this) in C. discriminate.
  - intros s Hs. assert (N := find_none _ _ E s Hs). unfold isInversion in N.
    assert (G : forall (f : nat -> bool) l, forallb f l = false -> exists x, In x l /\ f x = false).
    { intros f. induction l as [|x l IH]; simpl; [discriminate|]. destruct (f x) eqn:F; simpl; eauto.
      intros H. destruct (IH H) as [y [? ?]]; eauto. }
    destruct (G _ _ N) as [i [Hi N2]]. destruct (G _ _ N2) as [j [Hj N3]]. apply in_seq in Hi. apply in_seq in Hj.
    exists i, j. split; [lia|]. split; [lia|]. destruct (Nat.eqb i j); apply Z.eqb_neq; auto.
Qed.

(** Shifting the origin respects products, so a shifted group is closed. *)
Theorem shiftOrigin_homomorphism : forall D o a b,
  shiftOrigin D o (smul D a b) = smul D (shiftOrigin D o a) (shiftOrigin D o b).
Proof.
  intros D o a b.
  assert (SS : forall s, shaped D s -> shaped D (shiftOrigin D o s)).
  { intros s Hs. apply normalize_shaped. destruct Hs as [? [? ?]]. unfold shaped; cbn [sR sT]. rewrite mkVec_length. auto. }
  assert (RS : forall s i j, Rm (shiftOrigin D o s) i j = Rm s i j) by reflexivity.
  assert (TS : forall s i, (i < D)%nat -> exists z, tr (shiftOrigin D o s) i = (tr s i - o i + qsum D (fun j => IZQ (Rm s i j) * o j) + IZQ z)%Qc).
  { intros s i Hi. unfold shiftOrigin. rewrite tr_normalize, tr_mk by auto. apply normalize1_ex. }
  apply (symm_ext D); [apply SS, smul_shaped | apply smul_shaped | |].
  - intros i j Hi Hj. rewrite RS, !Rm_smul by auto. reflexivity.
  - intros i Hi. destruct (TS (smul D a b) i Hi) as [z1 E1].
    assert (N1 : normal D (shiftOrigin D o (smul D a b))).
    { destruct (smul_shaped D a b) as [? [? ?]]. apply normal_normalize. unfold shaped; cbn [sR sT]. rewrite mkVec_length. auto. }
    destruct N1 as [_ N1]. destruct (N1 i Hi) as [L1 L2].
    destruct (symm_translations_normalized D (shiftOrigin D o a) (shiftOrigin D o b) i Hi) as [L3 L4].
    rewrite tr_smul in E1 by auto.
    destruct (normalize1_ex (tr a i + qsum D (fun j => IZQ (Rm a i j) * tr b j))%Qc) as [z2 E2]. rewrite E2 in E1.
    assert (E3 := tr_smul D (shiftOrigin D o a) (shiftOrigin D o b) i Hi).
    destruct (normalize1_ex (tr (shiftOrigin D o a) i + qsum D (fun j => IZQ (Rm (shiftOrigin D o a) i j) * tr (shiftOrigin D o b) j))%Qc) as [z3 E4].
    rewrite E4 in E3. destruct (TS a i Hi) as [z5 E5]. rewrite E5 in E3.
    destruct (qsum_mod D (Rm (shiftOrigin D o a) i) (tr (shiftOrigin D o b))
       (fun j => tr b j - o j + qsum D (fun k => IZQ (Rm b j k) * o k))%Qc (TS b)) as [z6 E6].
    rewrite E6 in E3.
    rewrite (qsum_ext D (fun j => IZQ (Rm (shiftOrigin D o a) i j) * (tr b j - o j + qsum D (fun k => IZQ (Rm b j k) * o k)))%Qc
      (fun j => IZQ (Rm a i j) * tr b j + (IZQ (Rm a i j) * qsum D (fun k => IZQ (Rm b j k) * o k) - IZQ (Rm a i j) * o j))%Qc) in E3
      by (intros; rewrite RS; ring).
    rewrite qsum_plus, qsum_minus in E3.
    assert (C : qsum D (fun j => IZQ (Rm (smul D a b) i j) * o j)%Qc = qsum D (fun j => IZQ (Rm a i j) * qsum D (fun k => IZQ (Rm b j k) * o k))%Qc).
    { rewrite (qsum_ext D (fun j => IZQ (Rm (smul D a b) i j) * o j)%Qc
        (fun k => qsum D (fun j => IZQ (Rm a i j) * (IZQ (Rm b j k) * o k))%Qc)).
      - rewrite qsum_swap. apply qsum_ext. intros. apply qsum_scal.
      - intros k Hk. rewrite Rm_smul by auto. rewrite <- qsum_IZQ, <- qsum_scal_r. apply qsum_ext. intros. rewrite IZQ_mult. ring. }
    rewrite C in E1. apply (frac_unique _ _ (z1 + z2 - z3 - z5 - z6)); auto.
    rewrite E1, E3, !IZQ_sub, IZQ_plus. ring.
Qed.

(* ---------- examples ---------- *)
(** A four-fold rotation with a screw-like translation generates a group of order 4. *)
Definition exRot : symm := mkSymm [[0;-1];[1;0]] [Q2Qc (1#2); 0%Qc].
Example exRot_normal : Forall (normal 2) [identity 2; exRot].
Proof.
  constructor; [apply identity_normal|]. constructor; [|constructor]. split; [repeat split; repeat constructor|].
  intros [|[|i]] Hi; try lia; cbn; unfold Qcle, Qclt; simpl; split; try discriminate; reflexivity.
Qed.
Example exRot_completion : exists g, spaceComplete 2 10 [identity 2; exRot] = Ok g /\ length g = 4%nat /\
  space_group 2 g.
Proof.
  destruct (spaceComplete 2 10 [identity 2; exRot]) as [g| | |] eqn:E; vm_compute in E; try discriminate.
  exists g. split; auto. split; [inversion E; reflexivity|].
  apply (space_group_completion 2 10 [identity 2; exRot] g).
  - apply exRot_normal.
  - constructor; [|constructor; [simpl; tauto|constructor]]. simpl. intros [H|[]]. 
    apply (f_equal sR) in H. vm_compute in H. discriminate.
  - simpl; auto.
  - vm_compute. exact E.
Qed.

Print Assumptions symm_respects_lattice.
Print Assumptions symm_product_is_composition.
Print Assumptions symm_wave_action_composes.
Print Assumptions symm_inverse_correct.
Print Assumptions symm_inverse_rejects.
Print Assumptions symm_normalize_correct.
Print Assumptions symm_shiftOrigin_conjugates.
Print Assumptions symm_group_laws.
Print Assumptions symm_equal_iff_same_action.
Print Assumptions space_group_completion.
Print Assumptions space_group_completion_terminates.
Print Assumptions space_group_isValid_iff.
Print Assumptions space_group_add_unique.
Print Assumptions space_group_add_unique_refuted.
Print Assumptions inversion_center_correct.
Print Assumptions shiftOrigin_homomorphism.
Print Assumptions mesh_check_sound_partial.
Print Assumptions mesh_check_sound_refuted.
