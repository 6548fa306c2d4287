(** Phases of waves under the operations of a group. *)
From Coq Require Import ZArith QArith Qcanon Qreals Reals Lra Lia List Bool.
From Coquelicot Require Import Complex.
From Verif Require Import Base RSum MeshSpec Mesh MeshProofs Fft FftProofs FieldIo Symmetry SymmetryProofs SymmetryAlg PropsSymmetry Basis BasisSpec BasisProofs BasisValid MakeBasis MakeBasisProofs OrbitSpec.
From Coq Require Import List.
Import ListNotations.
Local Open Scope Z_scope.
Local Open Scope list_scope.

(** ** Rational numbers as reals *)
Definition qr (x : Qc) : R := Q2R (this x).
Lemma qr_red : forall q, Q2R (this (Q2Qc q)) = Q2R q.
Proof. intros q. apply Qeq_eqR. cbn [Q2Qc this]. apply Qred_correct. Qed.
Lemma qr_plus : forall a b, qr (a + b)%Qc = (qr a + qr b)%R.
Proof. intros a b. unfold qr. unfold Qcplus. rewrite qr_red. apply Q2R_plus. Qed.
Lemma qr_mult : forall a b, qr (a * b)%Qc = (qr a * qr b)%R.
Proof. intros a b. unfold qr. unfold Qcmult. rewrite qr_red. apply Q2R_mult. Qed.
Lemma qr_IZQ : forall z, qr (IZQ z) = IZR z.
Proof. intros z. unfold qr, IZQ. rewrite qr_red. unfold Q2R, inject_Z. cbn. lra. Qed.
Lemma qr_0 : qr 0%Qc = 0%R.
Proof. unfold qr, Q2R. cbn. lra. Qed.
Lemma qr_qsum : forall n f, qr (qsum n f) = rsum n (fun i => qr (f i)).
Proof. induction n as [|n IH]; intros f; cbn [qsum rsum]; [apply qr_0|]. rewrite qr_plus, IH. reflexivity. Qed.
Lemma IZR_zsum : forall n f, IZR (zsum n f) = rsum n (fun i => IZR (f i)).
Proof. induction n as [|n IH]; intros f; cbn [zsum rsum]; auto. rewrite plus_IZR, IH. reflexivity. Qed.
Lemma qr_den : forall (q : Qc) d, (Zpos (Qden q) | d) -> exists z, (qr q * IZR d = IZR z)%R.
Proof. intros q d H. destruct (den_divides q d H) as [z E]. exists z. rewrite <- (qr_IZQ d), <- qr_mult, E. apply qr_IZQ. Qed.

(** Equality modulo integers *)
Definition modZ (x y : R) : Prop := exists z : Z, x = (y + IZR z)%R.
Lemma modZ_refl : forall x, modZ x x. Proof. intros x. exists 0. lra. Qed.
Lemma modZ_sym : forall x y, modZ x y -> modZ y x. Proof. intros x y [z E]. exists (- z). rewrite opp_IZR. lra. Qed.
Lemma modZ_trans : forall x y z, modZ x y -> modZ y z -> modZ x z.
Proof. intros x y z [a A] [b B]. exists (a + b). rewrite plus_IZR. lra. Qed.
Lemma modZ_plus : forall x x' y y', modZ x x' -> modZ y y' -> modZ (x + y) (x' + y').
Proof. intros x x' y y' [a A] [b B]. exists (a + b). rewrite plus_IZR. lra. Qed.
Lemma modZ_cancel : forall x x' y y', modZ (x + y) (x' + y') -> modZ y y' -> modZ x x'.
Proof. intros x x' y y' [a A] [b B]. exists (a - b). rewrite minus_IZR. lra. Qed.
Lemma modZ_sum : forall n (a : nat -> Z) f g, (forall i, (i < n)%nat -> modZ (f i) (g i)) ->
  modZ (rsum n (fun i => IZR (a i) * f i)%R) (rsum n (fun i => IZR (a i) * g i)%R).
Proof.
  induction n as [|n IH]; intros a f g H; cbn [rsum]; [apply modZ_refl|]. apply modZ_plus; [apply IH; intros; apply H; lia|].
  destruct (H n ltac:(lia)) as [z E]. exists (a n * z). rewrite E, mult_IZR. ring.
Qed.
Lemma reduce_mod : forall x, modZ (reduce x) x.
Proof. intros x. unfold reduce. eexists. reflexivity. Qed.
Lemma reduce_eq : forall x y, modZ x y -> reduce x = reduce y.
Proof.
  intros x y [z E]. pose proof (reduce_range y) as H. unfold reduce in H at 1 2. set (i := Int_part (1 / 2 - y)) in *.
  assert (Y : reduce y = (y + IZR i)%R) by reflexivity. rewrite Y. replace (y + IZR i)%R with (x + IZR (i - z))%R by (rewrite minus_IZR; lra).
  apply reduce_unique. rewrite minus_IZR. lra.
Qed.
Lemma turn_mod : forall x y, modZ x y -> turn x = turn y.
Proof.
  intros x y [z ->]. unfold turn. replace (2 * PI * (y + IZR z))%R with (2 * PI * y + 2 * PI * IZR z)%R by ring.
  rewrite FftProofs.cos_2PIZ, FftProofs.sin_2PIZ. reflexivity.
Qed.
Lemma turn_plus : forall x y, turn (x + y) = Cmult (turn x) (turn y).
Proof.
  intros x y. unfold turn, Cmult. cbn [fst snd]. replace (2 * PI * (x + y))%R with (2 * PI * x + 2 * PI * y)%R by ring.
  rewrite cos_plus, sin_plus. f_equal; ring.
Qed.
Lemma turn_0 : turn 0 = RtoC 1.
Proof. unfold turn. rewrite Rmult_0_r, cos_0, sin_0. reflexivity. Qed.
Lemma turn_inj : forall x y, turn x = turn y -> modZ x y.
Proof.
  intros x y H. assert (E : turn (x - y) = RtoC 1).
  { replace (x - y)%R with (x + - y)%R by ring. rewrite turn_plus, H, <- turn_plus, Rplus_opp_r. apply turn_0. }
  unfold turn, RtoC in E. injection E as E1 E2.
  set (h := (PI * (x - y))%R). assert (S0 : sin h = 0%R).
  { replace (2 * PI * (x - y))%R with (2 * h)%R in E1 by (unfold h; ring). rewrite cos_2a_sin in E1. nra. }
  destruct (sin_eq_0_0 h S0) as [k K]. exists k. unfold h in K. pose proof PI_RGT_0.
  assert (PI * (x - y - IZR k) = 0)%R by lra. apply Rmult_integral in H1. lra.
Qed.

(** ** Waves modulo the mesh *)
Section Mesh.
Variable dims : list Z.
Let D := length dims.
Hypothesis HP : positive dims.
Definition cong (n n' : list Z) : Prop := forall i, (i < D)%nat -> (nth i dims 0 | nth i n' 0 - nth i n 0).
Lemma cong_refl : forall n, cong n n. Proof. intros n i Hi. rewrite Z.sub_diag. apply Z.divide_0_r. Qed.
Lemma cong_sym : forall n n', cong n n' -> cong n' n.
Proof. intros n n' H i Hi. specialize (H i Hi). replace (nth i n 0 - nth i n' 0) with (- (nth i n' 0 - nth i n 0)) by lia. apply Z.divide_opp_r. exact H. Qed.
Lemma cong_trans : forall a b c, cong a b -> cong b c -> cong a c.
Proof. intros a b c H1 H2 i Hi. replace (nth i c 0 - nth i a 0) with ((nth i c 0 - nth i b 0) + (nth i b 0 - nth i a 0)) by lia. apply Z.divide_add_r; auto. Qed.
Lemma dims_pos : forall i, (i < D)%nat -> 0 < nth i dims 0.
Proof. intros i Hi. pose proof HP as H. unfold positive in H. rewrite Forall_forall in H. apply H. apply nth_In. exact Hi. Qed.
Lemma shift_cong : forall v, length v = D -> in_box dims (fst (shift dims v)) /\ cong v (fst (shift dims v)).
Proof.
  intros v HL. pose proof (shift_spec dims v HP HL) as H. destruct (shift dims v) as [p s]. cbn [fst]. destruct H as [H1 [H2 H3]].
  split; auto. intros i Hi. rewrite H3 at 1. pose proof (in_box_length _ _ H1) as L.
  assert (G : forall (p s d : list Z) i, length p = length d -> length s = length d -> (i < length d)%nat ->
    nth i (map (fun t => fst (fst t) + snd (fst t) * snd t) (combine (combine p s) d)) 0 = nth i p 0 + nth i s 0 * nth i d 0).
  { clear. induction p as [|x p IH]; intros [|y s] [|z d] i L1 L2 Hi; cbn [length] in *; try lia. destruct i; cbn [combine map nth fst snd]; auto. apply IH; lia. }
  rewrite G by (auto; fold D; lia). exists (- nth i s 0). ring.
Qed.
Lemma box_unique : forall p q, in_box dims p -> in_box dims q -> cong p q -> p = q.
Proof.
  intros p q Hp Hq H. pose proof (in_box_length _ _ Hp). pose proof (in_box_length _ _ Hq). apply (list_ext p q 0); [congruence|].
  intros i Hi. assert (B : forall x, in_box dims x -> forall j, (j < D)%nat -> 0 <= nth j x 0 < nth j dims 0).
  { unfold D. clear. intros x Hx. induction Hx as [|d a ds x Ha Hx IH]; intros j Hj; cbn [length] in *; [lia|]. destruct j; cbn [nth]; auto. apply IH. lia. }
  pose proof (B p Hp i ltac:(unfold D; lia)). pose proof (B q Hq i ltac:(unfold D; lia)). destruct (H i ltac:(unfold D; lia)) as [z E]. set (d := nth i dims 0) in *. destruct (Z.lt_trichotomy z 0) as [L|[L|L]]; [nia|subst z; lia|nia].
Qed.
Lemma shift_eq : forall u v, length u = D -> length v = D -> (fst (shift dims u) = fst (shift dims v) <-> cong u v).
Proof.
  intros u v Hu Hv. destruct (shift_cong u Hu) as [U1 U2]. destruct (shift_cong v Hv) as [V1 V2]. split.
  - intros E. apply cong_trans with (fst (shift dims u)); auto. rewrite E. apply cong_sym. auto.
  - intros H. apply box_unique; auto. apply cong_trans with u; [apply cong_sym; auto|]. apply cong_trans with v; auto.
Qed.
Lemma shift_self : forall p, in_box dims p -> fst (shift dims p) = p.
Proof.
  intros p Hp. pose proof (in_box_length _ _ Hp) as L. destruct (shift_cong p L) as [A B]. apply box_unique; auto. apply cong_sym. auto.
Qed.

(** ** The group *)
Variable g : list symm.
Hypothesis HA : admits dims g.
(** v R, as a list *)
Definition rot (v : list Z) (s : symm) : list Z := mkVec D (mulVS D (fun i => nth i v 0) s).
Lemma rot_nth : forall v s i, (i < D)%nat -> nth i (rot v s) 0 = zsum D (fun j => nth j v 0 * Rm s j i).
Proof. intros v s i Hi. unfold rot. rewrite nth_mkVec by auto. reflexivity. Qed.
Lemma rot_length : forall v s, length (rot v s) = D. Proof. intros. apply mkVec_length. Qed.
Lemma turns_rot : forall s n n', turns dims s n n' <-> cong (rot n s) n'.
Proof. intros s n n'. unfold turns, cong. fold D. split; intros H i Hi; specialize (H i Hi); rewrite rot_nth in * by auto; exact H. Qed.
Lemma zsum_div : forall n d f, (forall j, (j < n)%nat -> (d | f j)) -> (d | zsum n f).
Proof. induction n as [|n IH]; intros d f H; cbn [zsum]; [apply Z.divide_0_r|]. apply Z.divide_add_r; [apply IH; intros; apply H; lia|apply H; lia]. Qed.
Lemma rot_cong : forall s n n', In s g -> cong n n' -> cong (rot n s) (rot n' s).
Proof.
  intros s n n' Hs H i Hi. rewrite !rot_nth by auto. destruct (HA s Hs) as [_ A].
  replace (zsum D (fun j => nth j n' 0 * Rm s j i) - zsum D (fun j => nth j n 0 * Rm s j i)) with (zsum D (fun j => (nth j n' 0 - nth j n 0) * Rm s j i)).
  - apply zsum_div. intros j Hj. destruct (Z.eq_dec (Rm s j i) 0) as [E|E]; [rewrite E, Z.mul_0_r; apply Z.divide_0_r|].
    rewrite <- (A j i Hj Hi E). apply Z.divide_mul_l. apply H. auto.
  - rewrite (zsum_ext D _ (fun j => nth j n' 0 * Rm s j i + (-1) * (nth j n 0 * Rm s j i))) by (intros; ring).
    rewrite zsum_plus, zsum_scal. ring.
Qed.
Lemma rot_mul : forall a b v, rot (rot v a) b = rot v (smul D a b).
Proof.
  intros a b v. apply (list_ext _ _ 0); [rewrite !rot_length; auto|]. intros i Hi. rewrite rot_length in Hi. unfold rot at 1 3. rewrite !nth_mkVec by auto.
  rewrite <- (proj1 (symm_wave_action_composes D a b (fun i => nth i v 0) i Hi)). unfold mulVS at 1. unfold mulVS at 1. apply zsum_ext. intros j Hj.
  f_equal. rewrite rot_nth by auto. reflexivity.
Qed.
Lemma rot_id : forall v, length v = D -> rot v (identity D) = v.
Proof.
  intros v HL. apply (list_ext _ _ 0); [rewrite rot_length; auto|]. intros i Hi. rewrite rot_length in Hi. rewrite rot_nth by auto.
  rewrite (zsum_ext D _ (fun j => if Nat.eqb i j then nth j v 0 else 0)); [apply zsum_delta; auto|].
  intros j Hj. rewrite Rm_identity by auto. rewrite Nat.eqb_sym. destruct (Nat.eqb i j); ring.
Qed.
(** phases *)
Lemma phase_cong : forall s n n', In s g -> cong n n' -> modZ (shiftPhase dims s n') (shiftPhase dims s n).
Proof.
  intros s n n' Hs H. unfold shiftPhase. fold D. destruct (HA s Hs) as [A _].
  assert (G : forall k, (k <= D)%nat -> modZ (rsum k (fun k => IZR (nth k n' 0%Z) * Q2R (this (tr s k)))%R) (rsum k (fun k => IZR (nth k n 0%Z) * Q2R (this (tr s k)))%R)).
  { induction k as [|k IH]; intros Hk; cbn [rsum]; [apply modZ_refl|]. apply modZ_plus; [apply IH; lia|].
    destruct (H k ltac:(lia)) as [c Ec]. destruct (qr_den (tr s k) (nth k dims 0) (A k ltac:(unfold D in *; lia))) as [z Ez].
    exists (c * z). rewrite mult_IZR, <- Ez. unfold qr. replace (nth k n' 0) with (nth k n 0 + c * nth k dims 0) by lia. rewrite plus_IZR, mult_IZR. ring. }
  apply G. lia.
Qed.
Lemma phase_mul : forall a b n, modZ (shiftPhase dims (smul D a b) n) (shiftPhase dims a n + shiftPhase dims b (rot n a)).
Proof.
  intros a b n. unfold shiftPhase. fold D.
  apply modZ_trans with (rsum D (fun k => IZR (nth k n 0%Z) * (qr (tr a k) + rsum D (fun j => IZR (Rm a k j) * qr (tr b j))))%R).
  - apply modZ_sum. intros k Hk. rewrite tr_smul by auto. destruct (normalize1_ex (tr a k + qsum D (fun j => IZQ (Rm a k j) * tr b j))%Qc) as [z E]. exists z.
    change (qr (normalize1 (tr a k + qsum D (fun j => IZQ (Rm a k j) * tr b j))%Qc) = qr (tr a k) + rsum D (fun j => IZR (Rm a k j) * qr (tr b j)) + IZR z)%R. rewrite E, !qr_plus, qr_IZQ, qr_qsum. do 2 f_equal. apply rsum_ext. intros j Hj. rewrite qr_mult, qr_IZQ. reflexivity.
  - match goal with |- modZ ?x ?y => replace x with y; [apply modZ_refl|] end.
    rewrite (rsum_ext D (fun k => IZR (nth k n 0%Z) * (qr (tr a k) + _))%R (fun k => IZR (nth k n 0%Z) * qr (tr a k) + rsum D (fun j => IZR (nth k n 0%Z) * IZR (Rm a k j) * qr (tr b j)))%R).
    2:{ intros k Hk. rewrite Rmult_plus_distr_l, <- rsum_scal. f_equal. apply rsum_ext. intros; ring. }
    rewrite rsum_plus. f_equal. rewrite (rsum_swap D D (fun k j => IZR (nth k n 0%Z) * IZR (Rm a k j) * qr (tr b j))%R). apply rsum_ext. intros j Hj.
    rewrite rot_nth by auto. rewrite IZR_zsum. unfold qr. rewrite <- rsum_scal_r. apply rsum_ext. intros k Hk. rewrite mult_IZR. reflexivity.
Qed.
Lemma phase_id : forall n, shiftPhase dims (identity D) n = 0%R.
Proof.
  intros n. unfold shiftPhase. fold D. rewrite (rsum_ext D _ (fun _ => 0%R)); [apply rsum_zero|]. intros k Hk. rewrite tr_identity by auto.
  change (IZR (nth k n 0%Z) * qr 0%Qc = 0)%R. rewrite qr_0. ring.
Qed.
Lemma phase_frac : forall N s n, 0 < N -> fractions D g N -> In s g -> exists k, shiftPhase dims s n = (IZR k / IZR N)%R.
Proof.
  intros N s n HN HF Hs. assert (NZ : (0 < IZR N)%R) by (apply IZR_lt; lia).
  assert (G : forall k, (k <= D)%nat -> exists z, rsum k (fun k => IZR (nth k n 0%Z) * Q2R (this (tr s k)))%R = (IZR z / IZR N)%R).
  { induction k as [|k IH]; intros Hk; cbn [rsum]; [exists 0; unfold Rdiv; ring|]. destruct (IH ltac:(lia)) as [z Ez]. rewrite Ez.
    destruct (qr_den (tr s k) N (HF s k Hs ltac:(lia))) as [y Ey]. exists (z + nth k n 0 * y). rewrite plus_IZR, mult_IZR, <- Ey. unfold qr. field. lra. }
  apply (G D). lia.
Qed.

(** ** Inverses *)
Hypothesis HG : space_group D g.
Hypothesis HN : Forall (normal D) g.
Hypothesis HD : (1 <= D <= 3)%nat.
Lemma group_inverse : forall a, In a g -> exists c, In c g /\ smul D a c = identity D /\ smul D c a = identity D.
Proof.
  intros a Ha. destruct HG as [_ [_ [_ I]]]. destruct (I a Ha) as [c [Ec Hc]]. exists c. split; auto.
  rewrite Forall_forall in HN. destruct (HN a Ha) as [SH _]. assert (Ec' := Ec). unfold sinverse in Ec'. inv_bind Ec'. unfold inverseRotation in E. inv_check E. apply Z.eqb_eq in E0.
  destruct (symm_inverse_correct D a HD SH) as [b [B1 [_ B2]]]; [nia|]. rewrite B1 in Ec. injection Ec as <-. exact B2.
Qed.
(** The operation that leads from the image under a to the image under b *)
Lemma group_between : forall a b, In a g -> In b g -> exists c, In c g /\ smul D a c = b.
Proof.
  intros a b Ha Hb. destruct (group_inverse a Ha) as [c [Hc [C1 C2]]]. exists (smul D c b). split; [apply HG; auto|].
  rewrite <- smul_assoc, C1. apply smul_identity_l. rewrite Forall_forall in HN. apply HN. auto.
Qed.
End Mesh.
