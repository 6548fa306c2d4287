(** Algebra of SpaceSymmetry (Symmetry.v): entries, normal form, group laws. *)
From Coq Require Import ZArith QArith Qcanon List Bool Arith Lia Znumtheory.
From Verif Require Import Base Symmetry.
Import ListNotations.
Local Open Scope Z_scope.

(* ---------- sums and injection ---------- *)
Lemma zsum_ext : forall n f g, (forall i, (i < n)%nat -> f i = g i) -> zsum n f = zsum n g.
Proof. induction n; intros; simpl; auto. rewrite (IHn f g), H; auto. Qed.
Lemma zsum_plus : forall n f g, zsum n (fun i => f i + g i) = zsum n f + zsum n g.
Proof. induction n; intros; simpl; auto. rewrite IHn. lia. Qed.
Lemma zsum_scal : forall n c f, zsum n (fun i => c * f i) = c * zsum n f.
Proof. induction n; intros; simpl; [lia|]. rewrite IHn. lia. Qed.
Lemma zsum_scal_r : forall n c f, zsum n (fun i => f i * c) = zsum n f * c.
Proof. induction n; intros; simpl; [lia|]. rewrite IHn. lia. Qed.
Lemma zsum_zero : forall n, zsum n (fun _ => 0) = 0.
Proof. induction n; simpl; auto. rewrite IHn. auto. Qed.
Lemma zsum_swap : forall n m (f : nat -> nat -> Z), zsum n (fun i => zsum m (f i)) = zsum m (fun j => zsum n (fun i => f i j)).
Proof.
  induction n; intros; simpl; [rewrite zsum_zero; auto|]. rewrite IHn, zsum_plus. reflexivity.
Qed.
Lemma zsum_delta : forall n i f, (i < n)%nat -> zsum n (fun j => if Nat.eqb i j then f j else 0) = f i.
Proof.
  induction n; intros; [lia|]. simpl. destruct (Nat.eq_dec i n) as [->|N].
  - rewrite Nat.eqb_refl. rewrite (zsum_ext n _ (fun _ => 0)).
    + rewrite zsum_zero. lia.
    + intros j Hj. destruct (Nat.eqb_spec n j); auto; lia.
  - rewrite IHn by lia. destruct (Nat.eqb_spec i n); lia.
Qed.

Lemma IZQ_plus : forall a b, IZQ (a + b) = (IZQ a + IZQ b)%Qc.
Proof. intros. apply Qc_is_canon. unfold IZQ, Qcplus, Qcmult, Qcopp, Q2Qc; cbn [this]. rewrite !Qred_correct. unfold inject_Z, Qeq; simpl; lia. Qed.
Lemma IZQ_mult : forall a b, IZQ (a * b) = (IZQ a * IZQ b)%Qc.
Proof. intros. apply Qc_is_canon. unfold IZQ, Qcplus, Qcmult, Qcopp, Q2Qc; cbn [this]. rewrite !Qred_correct. unfold inject_Z, Qeq; simpl; lia. Qed.
Lemma IZQ_opp : forall a, IZQ (- a) = (- IZQ a)%Qc.
Proof. intros. apply Qc_is_canon. unfold IZQ, Qcplus, Qcmult, Qcopp, Q2Qc; cbn [this]. rewrite !Qred_correct. unfold inject_Z, Qeq; simpl; lia. Qed.
Lemma IZQ_0 : IZQ 0 = 0%Qc.
Proof. reflexivity. Qed.
Lemma IZQ_1 : IZQ 1 = 1%Qc.
Proof. reflexivity. Qed.
Lemma IZQ_sub : forall a b, IZQ (a - b) = (IZQ a - IZQ b)%Qc.
Proof. intros. unfold Z.sub. rewrite IZQ_plus, IZQ_opp. reflexivity. Qed.

Lemma qsum_ext : forall n f g, (forall i, (i < n)%nat -> f i = g i) -> qsum n f = qsum n g.
Proof. induction n; intros; simpl; auto. rewrite (IHn f g), H; auto. Qed.
Lemma qsum_plus : forall n f g, qsum n (fun i => f i + g i)%Qc = (qsum n f + qsum n g)%Qc.
Proof. induction n; intros; simpl; [ring|]. rewrite IHn. ring. Qed.
Lemma qsum_minus : forall n f g, qsum n (fun i => f i - g i)%Qc = (qsum n f - qsum n g)%Qc.
Proof. induction n; intros; simpl; [ring|]. rewrite IHn. ring. Qed.
Lemma qsum_scal : forall n c f, qsum n (fun i => c * f i)%Qc = (c * qsum n f)%Qc.
Proof. induction n; intros; simpl; [ring|]. rewrite IHn. ring. Qed.
Lemma qsum_scal_r : forall n c f, qsum n (fun i => f i * c)%Qc = (qsum n f * c)%Qc.
Proof. induction n; intros; simpl; [ring|]. rewrite IHn. ring. Qed.
Lemma qsum_zero : forall n, qsum n (fun _ => 0%Qc) = 0%Qc.
Proof. induction n; simpl; auto. rewrite IHn. ring. Qed.
Lemma qsum_swap : forall n m (f : nat -> nat -> Qc), qsum n (fun i => qsum m (f i)) = qsum m (fun j => qsum n (fun i => f i j)).
Proof. induction n; intros; simpl; [rewrite qsum_zero; auto|]. rewrite IHn, qsum_plus. reflexivity. Qed.
Lemma qsum_IZQ : forall n f, qsum n (fun i => IZQ (f i)) = IZQ (zsum n f).
Proof. induction n; intros; simpl; auto. rewrite IHn, IZQ_plus. auto. Qed.

(* ---------- vectors and matrices ---------- *)
Lemma nth_mkVec : forall {A} D (f : nat -> A) i d, (i < D)%nat -> nth i (mkVec D f) d = f i.
Proof.
  intros. unfold mkVec. rewrite (nth_indep _ _ (f O)) by (rewrite map_length, seq_length; auto).
  rewrite map_nth, seq_nth by auto. reflexivity.
Qed.
Lemma mkVec_length : forall {A} D (f : nat -> A), length (mkVec D f) = D.
Proof. intros. unfold mkVec. rewrite map_length, seq_length. auto. Qed.

Definition shaped (D : nat) (s : symm) : Prop :=
  length (sR s) = D /\ Forall (fun r => length r = D) (sR s) /\ length (sT s) = D.
Lemma shaped_mk : forall D f g, shaped D (mkSymm (mkMat D f) (mkVec D g)).
Proof.
  intros. unfold shaped, mkMat; cbn [sR sT]. rewrite !mkVec_length. repeat split; auto.
  apply Forall_forall. intros r Hr. unfold mkVec in Hr at 1. apply in_map_iff in Hr. destruct Hr as [i [<- _]].
  apply mkVec_length.
Qed.
Lemma Rm_mk : forall D f T i j, (i < D)%nat -> (j < D)%nat -> Rm (mkSymm (mkMat D f) T) i j = f i j.
Proof. intros. unfold Rm, mkMat; cbn [sR]. rewrite (nth_mkVec D _ i) by auto. apply nth_mkVec; auto. Qed.
Lemma tr_mk : forall D M g i, (i < D)%nat -> tr (mkSymm M (mkVec D g)) i = g i.
Proof. intros. unfold tr; cbn [sT]. apply nth_mkVec; auto. Qed.

Lemma list_ext : forall {A} (l m : list A) d, length l = length m ->
  (forall i, (i < length l)%nat -> nth i l d = nth i m d) -> l = m.
Proof. intros A l m d HL H. apply (nth_ext l m d d HL H). Qed.
Lemma symm_ext : forall D a b, shaped D a -> shaped D b ->
  (forall i j, (i < D)%nat -> (j < D)%nat -> Rm a i j = Rm b i j) ->
  (forall i, (i < D)%nat -> tr a i = tr b i) -> a = b.
Proof.
  intros D [Ra Ta] [Rb Tb] [A1 [A2 A3]] [B1 [B2 B3]] HR HT. cbn [sR sT] in *. f_equal.
  - apply (list_ext _ _ []); [congruence|]. intros i Hi. rewrite Forall_forall in A2, B2.
    assert (Ia : In (nth i Ra []) Ra) by (apply nth_In; auto).
    assert (Ib : In (nth i Rb []) Rb) by (apply nth_In; congruence).
    apply (list_ext _ _ 0); [rewrite A2, B2; auto|]. intros j Hj. rewrite A2 in Hj by auto. apply HR; congruence.
  - apply (list_ext _ _ 0%Qc); [congruence|]. intros i Hi. apply HT. congruence.
Qed.

(* ---------- normal form of a translation ---------- *)
Lemma loopUp_ok : forall fuel num den, 0 < den -> (Z.to_nat (- num) < fuel)%nat ->
  exists z, loopUp fuel num den = Ok (num + z * den) /\ 0 <= z /\ 0 <= num + z * den /\ (num + z * den <= num \/ num + z * den < den).
Proof.
  induction fuel; intros num den Hd Hf; [lia|]. cbn [loopUp]. destruct (Z.ltb_spec num 0).
  - destruct (IHfuel (num + den) den Hd) as [z [E [H1 [H2 H3]]]]; [lia|]. exists (z + 1). 
    replace (num + (z + 1) * den) with (num + den + z * den) by lia. rewrite E. split; auto. lia.
  - exists 0. replace (num + 0 * den) with num by lia. split; auto. lia.
Qed.
Lemma loopDown_ok : forall fuel num den, 0 < den -> 0 <= num -> (Z.abs_nat num < fuel)%nat ->
  exists z, loopDown fuel num den = Ok (num - z * den) /\ 0 <= num - z * den < den.
Proof.
  induction fuel; intros num den Hd Hn Hf; [lia|]. cbn [loopDown]. destruct (Z.leb_spec den num).
  - destruct (IHfuel (num - den) den Hd) as [z [E H1]]; [lia|lia|]. exists (z + 1).
    replace (num - (z + 1) * den) with (num - den - z * den) by lia. split; auto.
  - exists 0. replace (num - 0 * den) with num by lia. split; auto.
Qed.

Lemma Qden1_num : forall q : Qc, Qden q = 1%positive -> this q == inject_Z (Qnum q).
Proof. intros [[n d] H]; simpl; intros ->. reflexivity. Qed.

(** The loops of normalize() terminate and give [normalize1]. *)
Lemma normalize1_loop_ok : forall q, normalize1_loop q = Ok (normalize1 q).
Proof.
  intros q. unfold normalize1_loop, normalize1. set (num := Qnum q). set (den := Zpos (Qden q)).
  assert (Hd : 0 < den) by (unfold den; lia).
  assert (E : (if den =? 1 then Ok 0 else a <- loopUp (S (Z.abs_nat num)) num den;; loopDown (S (Z.abs_nat num)) a den)
     = Ok (num mod den)).
  { destruct (Z.eqb_spec den 1) as [->|N]; [rewrite Z.mod_1_r; auto|].
    destruct (Z_lt_le_dec num 0) as [L|L].
    - destruct (loopUp_ok (S (Z.abs_nat num)) num den Hd ltac:(lia)) as [z [E [H1 [H2 H3]]]]. rewrite E. cbn [bind].
      destruct H3; [nia|]. cbn [loopDown]. destruct (Z.leb_spec den (num + z * den)); [lia|].
      f_equal. rewrite <- (Z_mod_plus_full num z den). rewrite Z.mod_small; auto.
    - cbn [loopUp]. destruct (Z.ltb_spec num 0); [lia|]. cbn [bind].
      destruct (loopDown_ok (S (Z.abs_nat num)) num den Hd L ltac:(lia)) as [z [E H1]]. rewrite E. f_equal.
      rewrite <- (Z.mod_small (num - z * den) den H1). replace (num - z * den) with (num + (- z) * den) by lia.
      apply Z_mod_plus_full. }
  rewrite E. cbn [bind]. f_equal. destruct (Z.eqb_spec (num mod den) num) as [E1|]; cbn [negb]; auto.
  rewrite E1. apply Qc_is_canon. unfold num, Q2Qc; cbn [this]. rewrite Qred_correct. destruct q as [[n d] C]. reflexivity.
Qed.

Lemma normalize1_eq : forall q, normalize1 q = (q - IZQ (Qnum q / Zpos (Qden q)))%Qc.
Proof.
  intros q. apply Qc_is_canon. unfold normalize1, IZQ, Qcminus, Qcplus, Qcopp, Q2Qc; cbn [this]. rewrite !Qred_correct.
  destruct q as [[n d] C]. simpl. unfold Qeq, Qplus, Qopp, inject_Z; simpl.
  rewrite Z.mod_eq by lia. rewrite Pos.mul_1_r. lia.
Qed.
Lemma normalize1_range : forall q, (0 <= normalize1 q)%Qc /\ (normalize1 q < 1)%Qc.
Proof.
  intros [[n d] C]. assert (B := Z.mod_pos_bound n (Zpos d) ltac:(lia)).
  unfold normalize1. cbn [this Qnum Qden]. set (m := n mod Z.pos d) in *.
  assert (E : (this (Q2Qc (m # d)) == m # d)%Q) by apply Qred_correct.
  unfold Qcle, Qclt. rewrite E. split; [unfold Qle|unfold Qlt]; simpl; lia.
Qed.

(** Two representatives in [0,1) that differ by an integer are equal. *)
Lemma frac_unique : forall a b z, (0 <= a)%Qc -> (a < 1)%Qc -> (0 <= b)%Qc -> (b < 1)%Qc -> (a = b + IZQ z)%Qc -> a = b.
Proof.
  intros a b z A0 A1 B0 B1 E. assert (Z : z = 0).
  { subst a. unfold Qcle, Qclt in *. unfold IZQ in *.
    change (this 0%Qc) with (0#1)%Q in *. change (this 1%Qc) with (1#1)%Q in *.
    assert (EE : (this (b + Q2Qc (inject_Z z)) == this b + inject_Z z)%Q).
    { unfold Qcplus, Q2Qc; cbn [this]. rewrite !Qred_correct. reflexivity. }
    rewrite EE in A0, A1. destruct (this b) as [n d]. unfold Qle, Qlt in *. simpl in *.
    nia. }
  subst z. rewrite E, IZQ_0. ring.
Qed.
Lemma normalize1_class : forall q z, normalize1 (q + IZQ z) = normalize1 q.
Proof.
  intros q z. destruct (normalize1_range (q + IZQ z)) as [A0 A1]. destruct (normalize1_range q) as [B0 B1].
  apply (frac_unique _ _ (z - Qnum (q + IZQ z)%Qc / Zpos (Qden (q + IZQ z)%Qc) + Qnum q / Zpos (Qden q))); auto.
  rewrite !normalize1_eq. rewrite IZQ_plus, IZQ_sub. ring.
Qed.
Lemma normalize1_fix : forall q, (0 <= q)%Qc -> (q < 1)%Qc -> normalize1 q = q.
Proof.
  intros q A0 A1. destruct (normalize1_range q) as [B0 B1].
  apply (frac_unique _ _ (- (Qnum q / Zpos (Qden q)))); auto. rewrite normalize1_eq, IZQ_opp. ring.
Qed.
Lemma normalize1_idem : forall q, normalize1 (normalize1 q) = normalize1 q.
Proof. intros. destruct (normalize1_range q). apply normalize1_fix; auto. Qed.
Lemma normalize1_int : forall z, normalize1 (IZQ z) = 0%Qc.
Proof.
  intros. replace (IZQ z) with (0 + IZQ z)%Qc by ring. rewrite normalize1_class. apply Qc_is_canon. reflexivity.
Qed.
Lemma normalize1_ex : forall q, exists z, normalize1 q = (q + IZQ z)%Qc.
Proof. intros. rewrite normalize1_eq. exists (- (Qnum q / Zpos (Qden q))). rewrite IZQ_opp. ring. Qed.

(* ---------- entries of the operations ---------- *)
Section D.
Variable D : nat.
Lemma normalize_shaped : forall s, shaped D s -> shaped D (normalize D s).
Proof. intros s [A [B C]]. unfold normalize, shaped; cbn [sR sT]. rewrite mkVec_length. auto. Qed.
Lemma Rm_normalize : forall s i j, Rm (normalize D s) i j = Rm s i j.
Proof. reflexivity. Qed.
Lemma tr_normalize : forall s i, (i < D)%nat -> tr (normalize D s) i = normalize1 (tr s i).
Proof. intros. unfold normalize. apply tr_mk; auto. Qed.
Lemma smul_shaped : forall a b, shaped D (smul D a b).
Proof. intros. apply normalize_shaped, shaped_mk. Qed.
Lemma Rm_smul : forall a b i j, (i < D)%nat -> (j < D)%nat ->
  Rm (smul D a b) i j = zsum D (fun k => Rm a i k * Rm b k j).
Proof. intros. unfold smul. rewrite Rm_normalize. apply Rm_mk; auto. Qed.
Lemma tr_smul : forall a b i, (i < D)%nat ->
  tr (smul D a b) i = normalize1 (tr a i + qsum D (fun j => IZQ (Rm a i j) * tr b j))%Qc.
Proof. intros. unfold smul. rewrite tr_normalize by auto. f_equal. apply tr_mk; auto. Qed.
Lemma identity_shaped : shaped D (identity D).
Proof. apply shaped_mk. Qed.
Lemma Rm_identity : forall i j, (i < D)%nat -> (j < D)%nat -> Rm (identity D) i j = if Nat.eqb i j then 1 else 0.
Proof. intros. unfold identity. apply Rm_mk; auto. Qed.
Lemma tr_identity : forall i, (i < D)%nat -> tr (identity D) i = 0%Qc.
Proof. intros. unfold identity. apply (tr_mk D); auto. Qed.

(** Elements as stored: right shape, translation in [0,1). *)
Definition normal (s : symm) : Prop :=
  shaped D s /\ forall i, (i < D)%nat -> (0 <= tr s i)%Qc /\ (tr s i < 1)%Qc.

Lemma normal_normalize : forall s, shaped D s -> normal (normalize D s).
Proof.
  intros s H. split; [apply normalize_shaped; auto|]. intros i Hi. rewrite tr_normalize by auto. apply normalize1_range.
Qed.
Lemma normalize_normal : forall s, normal s -> normalize D s = s.
Proof.
  intros s [H1 H2]. apply (symm_ext D); auto using normalize_shaped.
  intros i Hi. rewrite tr_normalize by auto. destruct (H2 i Hi). apply normalize1_fix; auto.
Qed.
Lemma smul_normal : forall a b, normal (smul D a b).
Proof.
  intros. split; [apply smul_shaped|]. intros i Hi. rewrite tr_smul by auto. apply normalize1_range.
Qed.
Lemma identity_normal : normal (identity D).
Proof.
  split; [apply identity_shaped|]. intros i Hi. rewrite tr_identity by auto.
  unfold Qcle, Qclt. simpl. split; [discriminate|reflexivity].
Qed.
Lemma symm_eqb_iff : forall a b, shaped D a -> shaped D b -> (symm_eqb D a b = true <-> a = b).
Proof.
  intros a b HA HB. unfold symm_eqb. rewrite forallb_forall. split.
  - intros H. apply (symm_ext D); auto.
    + intros i j Hi Hj. specialize (H i ltac:(apply in_seq; lia)). apply andb_true_iff in H. destruct H as [_ H].
      rewrite forallb_forall in H. specialize (H j ltac:(apply in_seq; lia)). apply Z.eqb_eq; auto.
    + intros i Hi. specialize (H i ltac:(apply in_seq; lia)). apply andb_true_iff in H. destruct H as [H _].
      destruct (Qc_eq_dec (tr a i) (tr b i)); auto. discriminate.
  - intros -> i Hi. apply andb_true_iff. split.
    + destruct (Qc_eq_dec (tr b i) (tr b i)); congruence.
    + apply forallb_forall. intros j Hj. apply Z.eqb_refl.
Qed.

(** Translation of a product only matters modulo integers. *)
Lemma qsum_mod : forall (R : nat -> Z) (x y : nat -> Qc), (forall j, (j < D)%nat -> exists z, x j = (y j + IZQ z)%Qc) ->
  exists z, qsum D (fun j => IZQ (R j) * x j)%Qc = (qsum D (fun j => IZQ (R j) * y j) + IZQ z)%Qc.
Proof.
  intros R x y. induction D as [|n IH]; intros H; simpl.
  - exists 0. rewrite IZQ_0. ring.
  - destruct IH as [z Hz]; [intros; apply H; lia|]. destruct (H n ltac:(lia)) as [z' Hz'].
    exists (z + R n * z'). rewrite Hz, Hz', IZQ_plus, IZQ_mult. ring.
Qed.

Lemma smul_identity_l : forall a, normal a -> smul D (identity D) a = a.
Proof.
  intros a [H1 H2]. apply (symm_ext D); auto using smul_shaped.
  - intros i j Hi Hj. rewrite Rm_smul by auto.
    rewrite (zsum_ext D _ (fun k => if Nat.eqb i k then Rm a k j else 0)).
    + apply (zsum_delta D i (fun k => Rm a k j)); auto.
    + intros k Hk. rewrite Rm_identity by auto. destruct (Nat.eqb i k); lia.
  - intros i Hi. rewrite tr_smul, tr_identity by auto.
    assert (E : qsum D (fun j => IZQ (Rm (identity D) i j) * tr a j)%Qc = tr a i).
    { rewrite (qsum_ext D _ (fun j => if Nat.eqb i j then tr a j else 0%Qc)).
      - clear -Hi. revert Hi. generalize (tr a). intros f. induction D as [|n IH]; intros; [lia|]. simpl.
        destruct (Nat.eq_dec i n) as [->|N].
        + rewrite Nat.eqb_refl. rewrite (qsum_ext n _ (fun _ => 0%Qc)), qsum_zero; [ring|].
          intros j Hj. destruct (Nat.eqb_spec n j); auto; lia.
        + rewrite IH by lia. destruct (Nat.eqb_spec i n); [lia|]. ring.
      - intros j Hj. rewrite Rm_identity by auto. destruct (Nat.eqb i j); [rewrite IZQ_1; ring|rewrite IZQ_0; ring]. }
    rewrite E. replace (0 + tr a i)%Qc with (tr a i) by ring. destruct (H2 i Hi). apply normalize1_fix; auto.
Qed.

Lemma smul_assoc : forall a b c, smul D (smul D a b) c = smul D a (smul D b c).
Proof.
  intros a b c. apply (symm_ext D); auto using smul_shaped.
  - intros i j Hi Hj. rewrite !Rm_smul by auto.
    rewrite (zsum_ext D _ (fun k => zsum D (fun l => Rm a i l * Rm b l k * Rm c k j))).
    2:{ intros k Hk. rewrite Rm_smul by auto. rewrite <- zsum_scal_r. reflexivity. }
    rewrite zsum_swap. apply zsum_ext. intros k Hk. rewrite Rm_smul by auto. rewrite <- zsum_scal.
    apply zsum_ext. intros l Hl. lia.
  - intros i Hi. rewrite !tr_smul by auto.
    destruct (normalize1_ex (tr a i + qsum D (fun j => IZQ (Rm a i j) * tr b j))%Qc) as [z1 E1]. rewrite E1.
    destruct (qsum_mod (Rm a i) (tr (smul D b c)) (fun j => tr b j + qsum D (fun k => IZQ (Rm b j k) * tr c k))%Qc) as [z2 E2].
    { intros j Hj. rewrite tr_smul by auto. apply normalize1_ex. }
    rewrite E2.
    set (X := (tr a i + qsum D (fun j => IZQ (Rm a i j) * tr b j)
          + qsum D (fun j => qsum D (fun k => IZQ (Rm a i j) * IZQ (Rm b j k) * tr c k)))%Qc).
    transitivity (normalize1 X).
    + rewrite <- (normalize1_class X z1). f_equal. unfold X.
      rewrite (qsum_ext D (fun j => IZQ (Rm (smul D a b) i j) * tr c j)%Qc
         (fun k => qsum D (fun j => IZQ (Rm a i j) * IZQ (Rm b j k) * tr c k)%Qc)).
      2:{ intros j Hj. rewrite Rm_smul by auto. rewrite <- qsum_IZQ, <- qsum_scal_r. apply qsum_ext. intros.
          rewrite IZQ_mult. reflexivity. }
      rewrite (qsum_swap D D (fun k j => IZQ (Rm a i j) * IZQ (Rm b j k) * tr c k)%Qc). ring.
    + rewrite <- (normalize1_class X z2). f_equal. unfold X.
      rewrite (qsum_ext D (fun j => IZQ (Rm a i j) * (tr b j + qsum D (fun k => IZQ (Rm b j k) * tr c k)))%Qc
        (fun j => IZQ (Rm a i j) * tr b j + qsum D (fun k => IZQ (Rm a i j) * IZQ (Rm b j k) * tr c k))%Qc).
      2:{ intros j Hj. rewrite (qsum_ext D (fun k => IZQ (Rm a i j) * IZQ (Rm b j k) * tr c k)%Qc (fun k => IZQ (Rm a i j) * (IZQ (Rm b j k) * tr c k))%Qc) by (intros; ring).
          rewrite qsum_scal. ring. }
      rewrite qsum_plus. ring.
Qed.
End D.
