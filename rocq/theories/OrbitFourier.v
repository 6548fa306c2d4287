(** Symmetry of a field on the grid and of its Fourier components. *)
From Coq Require Import ZArith QArith Qcanon Qreals Reals Lra Lia List Bool Sorting.Permutation.
From Coquelicot Require Import Complex.
From Verif Require Import Base RSum MeshSpec Mesh MeshProofs PropsMesh Fft FftProofs FieldIo Symmetry SymmetryProofs SymmetryAlg PropsSymmetry OrbitSpec OrbitPhase.
From Coq Require Import List.
Import ListNotations.
Local Open Scope Z_scope.
Local Open Scope list_scope.

(** ** Sums over the mesh *)
Lemma lsum_perm' : forall A (f : A -> R) l1 l2, Permutation l1 l2 -> lsum f l1 = lsum f l2.
Proof. intros A f l1 l2 H. induction H; cbn [lsum]; lra. Qed.
Lemma lsum_map' : forall A B (h : A -> B) (f : B -> R) l, lsum f (map h l) = lsum (fun x => f (h x)) l.
Proof. induction l as [|a l IH]; cbn [lsum map]; auto. rewrite IH. reflexivity. Qed.
Definition points (dims : list Z) : list (list Z) := map (gridPos dims) (seq 0 (nR dims)).
Lemma points_in : forall dims p, positive dims -> (In p (points dims) <-> in_box dims p).
Proof.
  intros dims p HP. unfold points. rewrite in_map_iff. split.
  - intros [r [<- Hr]]. apply in_seq in Hr. apply gridPos_in_box; auto. lia.
  - intros H. pose proof (rk_range _ _ H) as R. exists (Z.to_nat (rk dims p)). split.
    + rewrite gridPos_ps by auto. rewrite Z2Nat.id by lia. apply ps_rk. auto.
    + apply in_seq. unfold nR. rewrite gridSize_prodZ. lia.
Qed.
Lemma points_nodup : forall dims, positive dims -> NoDup (points dims).
Proof.
  intros dims HP. unfold points. apply NoDup_nth_error. intros i j Hi E. rewrite map_length, seq_length in Hi. rewrite !nth_error_map in E.
  assert (S0 : forall k, (k < nR dims)%nat -> nth_error (seq 0 (nR dims)) k = Some k).
  { intros k Hk. rewrite (nth_error_nth' _ 0%nat) by (rewrite seq_length; auto). rewrite seq_nth by auto. reflexivity. }
  rewrite (S0 i Hi) in E. cbn [option_map] in E. destruct (Nat.lt_ge_cases j (nR dims)) as [L|L].
  - rewrite (S0 j L) in E. cbn [option_map] in E. injection E as E. apply (gridPos_inj dims); auto.
  - rewrite (proj2 (nth_error_None (seq 0 (nR dims)) j)) in E by (rewrite seq_length; auto). discriminate.
Qed.
Lemma msum_points : forall dims g, positive dims -> msum dims g = lsum g (points dims).
Proof.
  intros dims g HP. rewrite <- nR_msum by auto. unfold points. rewrite lsum_map', lsum_seq. apply rsum_ext. intros; reflexivity.
Qed.
Lemma msum_bij : forall dims (T : list Z -> list Z) g, positive dims -> (forall p, in_box dims p -> in_box dims (T p)) ->
  (forall p q, in_box dims p -> in_box dims q -> T p = T q -> p = q) -> msum dims (fun p => g (T p)) = msum dims g.
Proof.
  intros dims T g HP H1 H2. rewrite !msum_points by auto. rewrite <- lsum_map'. apply lsum_perm'. apply NoDup_Permutation_bis.
  - assert (G : forall l, NoDup l -> (forall p, In p l -> in_box dims p) -> NoDup (map T l)).
    { induction l as [|p l IH]; intros N B; cbn [map]; constructor.
      - intros X. apply in_map_iff in X. destruct X as [q [Q1 Q2]]. inversion N; subst. apply H2 in Q1; [|apply B; right; auto|apply B; left; auto]. subst. contradiction.
      - inversion N; subst. apply IH; auto. intros; apply B; right; auto. }
    apply G; [apply points_nodup; auto|]. intros p Hp. apply points_in; auto.
  - rewrite map_length. lia.
  - intros q Hq. apply in_map_iff in Hq. destruct Hq as [p [<- Hp]]. apply points_in; auto. apply H1. apply points_in; auto.
Qed.
Definition csum (dims : list Z) (h : list Z -> C) : C := (msum dims (fun p => fst (h p)), msum dims (fun p => snd (h p))).
Lemma csum_ext : forall dims g h, (forall p, in_box dims p -> g p = h p) -> csum dims g = csum dims h.
Proof. intros dims g h H. unfold csum. f_equal; apply msum_ext; intros p Hp; rewrite (H p Hp); reflexivity. Qed.
Lemma csum_scal : forall dims c h, csum dims (fun p => Cmult c (h p)) = Cmult c (csum dims h).
Proof.
  intros dims [a b] h. unfold csum, Cmult. cbn [fst snd]. f_equal.
  - rewrite (msum_ext _ _ (fun p => a * fst (h p) + (- b) * snd (h p))%R) by (intros; ring). rewrite msum_plus, !msum_scal. ring.
  - rewrite msum_plus, !msum_scal. reflexivity.
Qed.
Lemma csum_bij : forall dims (T : list Z -> list Z) h, positive dims -> (forall p, in_box dims p -> in_box dims (T p)) ->
  (forall p q, in_box dims p -> in_box dims q -> T p = T q -> p = q) -> csum dims (fun p => h (T p)) = csum dims h.
Proof. intros dims T h HP H1 H2. unfold csum. f_equal; apply (msum_bij dims T (fun p => _ (h p))); auto. Qed.

(** ** Angles *)
Definition pairing (dims p r : list Z) : R := rsum (length dims) (fun i => IZR (nth i p 0%Z) * (IZR (nth i r 0%Z) / IZR (nth i dims 0%Z)))%R.
Lemma phase_pairing : forall dims p r, positive dims -> length p = length dims -> length r = length dims -> phase dims p r = (2 * PI * pairing dims p r)%R.
Proof.
  induction dims as [|d ds IH]; intros [|a p] [|c r] HP H1 H2; cbn [length] in *; try lia.
  - unfold pairing. cbn. ring.
  - inversion HP; subst. cbn [phase]. rewrite (IH p r) by (auto; lia). unfold pairing. cbn [length]. rewrite rsum_S_first. cbn [nth]. rewrite mult_IZR. field. apply not_0_IZR. lia.
Qed.
Lemma moves_pairing : forall dims s p r r', positive dims -> moves dims s r r' -> modZ (pairing dims p r') (pairing dims (rot dims p s) r + shiftPhase dims s p).
Proof.
  intros dims s p r r' HP HM. unfold pairing, shiftPhase. set (D := length dims) in *.
  assert (A : modZ (rsum D (fun i => IZR (nth i p 0%Z) * (IZR (nth i r' 0%Z) / IZR (nth i dims 0%Z)))%R)
    (rsum D (fun i => IZR (nth i p 0%Z) * (rsum D (fun j => IZR (Rm s i j) * (IZR (nth j r 0%Z) / IZR (nth j dims 0%Z))) + Q2R (this (tr s i))))%R)).
  { apply (modZ_sum D (fun i => nth i p 0)). intros i Hi. destruct (HM i Hi) as [z Hz]. exists z. exact Hz. }
  eapply modZ_trans; [exact A|]. rewrite (rsum_ext D _ (fun i => IZR (nth i p 0%Z) * rsum D (fun j => IZR (Rm s i j) * (IZR (nth j r 0%Z) / IZR (nth j dims 0%Z))) + IZR (nth i p 0%Z) * Q2R (this (tr s i)))%R) by (intros; ring).
  rewrite rsum_plus. apply modZ_plus; [|apply modZ_refl].
  rewrite (rsum_ext D _ (fun i => rsum D (fun j => IZR (nth i p 0%Z) * (IZR (Rm s i j) * (IZR (nth j r 0%Z) / IZR (nth j dims 0%Z))))%R)) by (intros; symmetry; apply rsum_scal).
  rewrite rsum_swap. rewrite (rsum_ext D _ (fun j => IZR (nth j (rot dims p s) 0%Z) * (IZR (nth j r 0%Z) / IZR (nth j dims 0%Z)))%R); [apply modZ_refl|].
  intros j Hj. rewrite rot_nth by auto. fold D. rewrite IZR_zsum, <- rsum_scal_r. apply rsum_ext. intros i Hi. rewrite mult_IZR. ring.
Qed.
Lemma pairing_cong : forall dims p p' r, positive dims -> cong dims p p' -> modZ (pairing dims p' r) (pairing dims p r).
Proof.
  intros dims p p' r HP HC. unfold pairing. set (D := length dims) in *.
  rewrite (rsum_ext D _ (fun i => IZR (nth i r 0%Z) * (IZR (nth i p' 0%Z) / IZR (nth i dims 0%Z)))%R) by (intros; unfold Rdiv; ring).
  rewrite (rsum_ext D (fun i => IZR (nth i p 0%Z) * _)%R (fun i => IZR (nth i r 0%Z) * (IZR (nth i p 0%Z) / IZR (nth i dims 0%Z)))%R) by (intros; unfold Rdiv; ring).
  apply (modZ_sum D (fun i => nth i r 0)). intros i Hi. destruct (HC i Hi) as [z Hz]. exists z.
  pose proof (dims_pos dims HP i Hi) as P. replace (nth i p' 0) with (nth i p 0 + z * nth i dims 0) by lia. rewrite plus_IZR, mult_IZR. field. apply not_0_IZR. lia.
Qed.
Lemma moves_turn : forall dims s p p' r r', positive dims -> moves dims s r r' -> turns dims s p p' ->
  turn (pairing dims p r') = Cmult (turn (pairing dims p' r)) (turn (shiftPhase dims s p)).
Proof.
  intros dims s p p' r r' HP HM HT. rewrite <- turn_plus. apply turn_mod. eapply modZ_trans; [apply moves_pairing; eauto|]. apply modZ_plus; [|apply modZ_refl].
  apply modZ_sym. apply pairing_cong; auto. apply turns_rot. exact HT.
Qed.
Lemma turn_opp : forall x, turn (- x) = Cconj (turn x).
Proof. intros x. unfold turn, Cconj. cbn [fst snd]. replace (2 * PI * - x)%R with (- (2 * PI * x))%R by ring. rewrite cos_neg, sin_neg. reflexivity. Qed.

(** ** Images of grid points and of waves *)
Section Images.
Variable dims : list Z.
Variable g : list symm.
Let D := length dims.
Hypothesis HP : positive dims.
Hypothesis HA : admits dims g.
Hypothesis HD : (1 <= D <= 3)%nat.
Hypothesis HG : space_group D g.
Hypothesis HN : Forall (normal D) g.

Definition mv (s : symm) (r : list Z) : list Z :=
  fst (shift dims (mkVec D (fun i => zsum D (fun j => Rm s i j * nth j r 0) + Qnum (tr s i) * (nth i dims 0 / Zpos (Qden (tr s i)))))).
Lemma mv_box : forall s r, in_box dims (mv s r).
Proof. intros s r. apply (shift_cong dims HP). apply mkVec_length. Qed.
Lemma mv_moves : forall s r, In s g -> moves dims s r (mv s r).
Proof.
  intros s r Hs i Hi. fold D in Hi. destruct (HA s Hs) as [A1 A2]. pose proof (dims_pos dims HP i Hi) as P.
  destruct (shift_cong dims HP (mkVec D (fun i => zsum D (fun j => Rm s i j * nth j r 0) + Qnum (tr s i) * (nth i dims 0 / Zpos (Qden (tr s i))))) (mkVec_length _ _)) as [_ HC].
  destruct (HC i Hi) as [z Hz]. fold (mv s r) in Hz. rewrite nth_mkVec in Hz by auto. exists z. fold D.
  replace (nth i (mv s r) 0) with (z * nth i dims 0 + zsum D (fun j => Rm s i j * nth j r 0) + Qnum (tr s i) * (nth i dims 0 / Zpos (Qden (tr s i)))) by lia.
  assert (DN : (IZR (nth i dims 0%Z) <> 0)%R) by (apply not_0_IZR; lia).
  destruct (A1 i Hi) as [q Hq]. assert (EQ : nth i dims 0 / Zpos (Qden (tr s i)) = q) by (rewrite Hq; apply Z.div_mul; lia). rewrite EQ.
  assert (T : (Q2R (this (tr s i)) = IZR (Qnum (tr s i) * q) / IZR (nth i dims 0%Z))%R).
  { unfold Q2R. rewrite Hq, !mult_IZR. assert ((IZR (Zpos (Qden (tr s i))) <> 0)%R) by (apply not_0_IZR; lia).
    assert ((IZR q <> 0)%R) by (apply not_0_IZR; nia). field. auto. }
  rewrite T, !plus_IZR, mult_IZR. unfold Rdiv. rewrite !Rmult_plus_distr_r.
  assert (S0 : (IZR (zsum D (fun j => (Rm s i j * nth j r 0)%Z)) * / IZR (nth i dims 0%Z) = rsum D (fun j => IZR (Rm s i j) * (IZR (nth j r 0%Z) * / IZR (nth j dims 0%Z))))%R).
  { rewrite IZR_zsum, <- rsum_scal_r. apply rsum_ext. intros j Hj. rewrite mult_IZR. destruct (Z.eq_dec (Rm s i j) 0) as [->|NZ]; [ring|]. rewrite (A2 i j Hi Hj NZ). ring. }
  rewrite S0, Rmult_assoc, Rinv_r by auto. ring.
Qed.
Lemma unit_pairing : forall r i, (i < D)%nat -> pairing dims (mkVec D (fun j => if Nat.eqb j i then 1 else 0)) r = (IZR (nth i r 0%Z) / IZR (nth i dims 0%Z))%R.
Proof.
  intros r i Hi. unfold pairing. fold D. rewrite (rsum_ext D _ (fun j => if Nat.eqb j i then (IZR (nth j r 0%Z) / IZR (nth j dims 0%Z))%R else 0%R)).
  - rewrite (rsum_single D i); auto.
    + rewrite Nat.eqb_refl. reflexivity.
    + intros j Hj NE. destruct (Nat.eqb_spec j i); [contradiction|reflexivity].
  - intros j Hj. rewrite nth_mkVec by auto. destruct (Nat.eqb j i); ring.
Qed.
Lemma moves_inj : forall s r q r', In s g -> in_box dims r -> in_box dims q -> moves dims s r r' -> moves dims s q r' -> r = q.
Proof.
  intros s r q r' Hs Hr Hq M1 M2. destruct (group_inverse dims g HG HN HD s Hs) as [c [C1 [C2 C3]]].
  assert (E : forall e, length e = D -> modZ (pairing dims e r) (pairing dims e q)).
  { intros e He. assert (X : rot dims (rot dims e c) s = e) by (rewrite rot_mul, C3; apply rot_id; auto).
    pose proof (moves_pairing dims s (rot dims e c) r r' HP M1) as A. pose proof (moves_pairing dims s (rot dims e c) q r' HP M2) as B. rewrite X in A, B.
    eapply modZ_cancel; [|apply modZ_refl]. eapply modZ_trans; [apply modZ_sym; exact A|exact B]. }
  apply (box_unique dims); auto. intros i Hi. specialize (E _ (mkVec_length D (fun j => if Nat.eqb j i then 1 else 0))). rewrite !unit_pairing in E by auto.
  destruct E as [z E]. pose proof (dims_pos dims HP i Hi) as P. exists (- z). apply eq_IZR. rewrite minus_IZR, mult_IZR, opp_IZR.
  assert (DN : (IZR (nth i dims 0%Z) <> 0)%R) by (apply not_0_IZR; lia).
  apply (f_equal (fun x => x * IZR (nth i dims 0%Z))%R) in E. replace (IZR (nth i r 0%Z) / IZR (nth i dims 0%Z) * IZR (nth i dims 0%Z))%R with (IZR (nth i r 0%Z)) in E by (field; auto).
  rewrite E. field. auto.
Qed.
Lemma moves_unique : forall s r r' r'', In s g -> in_box dims r' -> in_box dims r'' -> moves dims s r r' -> moves dims s r r'' -> r' = r''.
Proof.
  intros s r r' r'' Hs H1 H2 M1 M2. apply (box_unique dims); auto. intros i Hi. destruct (M1 i Hi) as [a A], (M2 i Hi) as [c C]. pose proof (dims_pos dims HP i Hi) as P.
  assert (DN : (IZR (nth i dims 0%Z) <> 0)%R) by (apply not_0_IZR; lia). exists (c - a). apply eq_IZR. rewrite minus_IZR, mult_IZR, minus_IZR.
  assert (E : (IZR (nth i r'' 0%Z) / IZR (nth i dims 0%Z) - IZR (nth i r' 0%Z) / IZR (nth i dims 0%Z) = IZR c - IZR a)%R) by lra.
  rewrite <- E. field. auto.
Qed.
Definition wm (s : symm) (p : list Z) : list Z := fst (shift dims (rot dims p s)).
Lemma wm_box : forall s p, in_box dims (wm s p).
Proof. intros s p. apply (shift_cong dims HP). apply rot_length. Qed.
Lemma wm_turns : forall s p, turns dims s p (wm s p).
Proof. intros s p. apply turns_rot. apply (shift_cong dims HP). apply rot_length. Qed.
Lemma wm_inj : forall s p q, In s g -> in_box dims p -> in_box dims q -> wm s p = wm s q -> p = q.
Proof.
  intros s p q Hs Hp Hq E. apply (shift_eq dims HP) in E; try apply rot_length. destruct (group_inverse dims g HG HN HD s Hs) as [c [C1 [C2 C3]]].
  apply (rot_cong dims g HA c _ _ C1) in E. rewrite !rot_mul, C2, !rot_id in E by (apply in_box_length; auto). apply (box_unique dims); auto.
Qed.

(** ** Fourier components *)
Definition vol : R := IZR (prodZ dims).
Lemma vol_pos : (0 < vol)%R. Proof. apply IZR_lt. apply prodZ_pos. auto. Qed.
Definition spectrum (f : list Z -> R) (p : list Z) : C :=
  Cmult (RtoC (/ vol)) (csum dims (fun r => Cmult (RtoC (f r)) (turn (- pairing dims p r)))).
Definition covariant (K : list Z -> C) : Prop := forall s p p', In s g -> in_box dims p -> in_box dims p' -> turns dims s p p' ->
  K p' = Cmult (K p) (turn (shiftPhase dims s p)).
Lemma spectrum_covariant : forall f, invariant dims g f -> covariant (spectrum f).
Proof.
  intros f HF s p p' Hs Hp Hp' HT. unfold spectrum. rewrite <- Cmult_assoc. f_equal. rewrite Cmult_comm, <- csum_scal.
  rewrite <- (csum_bij dims (mv s) (fun r => Cmult (turn (shiftPhase dims s p)) (Cmult (RtoC (f r)) (turn (- pairing dims p r))))).
  - apply csum_ext. intros r Hr. rewrite (HF s r (mv s r) Hs Hr (mv_box s r) (mv_moves s r Hs)). rewrite !turn_opp.
    rewrite (moves_turn dims s p p' r (mv s r) HP (mv_moves s r Hs) HT).
    set (a := turn (pairing dims p' r)). set (t := shiftPhase dims s p). set (c := RtoC (f r)).
    assert (U : Cmult (turn t) (Cconj (turn t)) = RtoC 1) by (rewrite <- turn_opp, <- turn_plus, Rplus_opp_r; apply turn_0).
    assert (CM : Cconj (Cmult a (turn t)) = Cmult (Cconj a) (Cconj (turn t))) by (destruct a, (turn t); unfold Cconj, Cmult; cbn [fst snd]; f_equal; ring).
    rewrite CM. transitivity (Cmult (Cmult c (Cconj a)) (Cmult (turn t) (Cconj (turn t)))); [rewrite U; ring|ring].
  - exact HP.
  - intros r _. apply mv_box.
  - intros r q Hr Hq E. apply (moves_inj s r q (mv s r) Hs Hr Hq); [apply mv_moves; auto|rewrite E; apply mv_moves; auto].
Qed.
(** Field with given components *)
Definition synth (K : list Z -> C) (r : list Z) : C := csum dims (fun p => Cmult (K p) (turn (pairing dims p r))).
Lemma synth_invariant : forall K, covariant K -> forall s r r', In s g -> moves dims s r r' -> synth K r' = synth K r.
Proof.
  intros K HK s r r' Hs HM. unfold synth. rewrite <- (csum_bij dims (wm s) (fun p => Cmult (K p) (turn (pairing dims p r)))).
  - apply csum_ext. intros p Hp. rewrite (moves_turn dims s p (wm s p) r r' HP HM (wm_turns s p)), (HK s p (wm s p) Hs Hp (wm_box s p) (wm_turns s p)). ring.
  - exact HP.
  - intros p _. apply wm_box.
  - intros p q Hp Hq E. apply (wm_inj s); auto.
Qed.
Lemma csum_turn : forall r q, in_box dims r -> in_box dims q ->
  csum dims (fun p => turn (pairing dims p r - pairing dims p q)) = if list_eq_dec Z.eq_dec r q then RtoC vol else RtoC 0.
Proof.
  intros r q Hr Hq. pose proof (in_box_length _ _ Hr) as Lr. pose proof (in_box_length _ _ Hq) as Lq.
  assert (LS : length (subZ r q) = length dims) by (rewrite subZ_length; congruence).
  assert (PH : forall p, in_box dims p -> (2 * PI * (pairing dims p r - pairing dims p q) = phase dims p (subZ r q))%R).
  { intros p Hp. pose proof (in_box_length _ _ Hp) as Lp. rewrite phase_sub, !phase_pairing by auto. ring. }
  assert (Z0 : zero_mod dims (subZ r q) = if list_eq_dec Z.eq_dec r q then true else false).
  { destruct (list_eq_dec Z.eq_dec r q) as [E|NE]; [apply zero_mod_sub; auto|]. destruct (zero_mod dims (subZ r q)) eqn:EZ; auto. apply zero_mod_sub in EZ; auto. contradiction. }
  unfold csum, turn. cbn [fst snd].
  rewrite (msum_ext dims (fun p => cos _) (fun p => cos (phase dims p (subZ r q) + 0))) by (intros p Hp; rewrite (PH p Hp), Rplus_0_r; reflexivity).
  rewrite (msum_ext dims (fun p => sin _) (fun p => cos (phase dims p (subZ r q) + - (PI / 2)))).
  2:{ intros p Hp. rewrite (PH p Hp). replace (phase dims p (subZ r q) + - (PI / 2))%R with (- (PI / 2 - phase dims p (subZ r q)))%R by ring. rewrite cos_neg, cos_shift. reflexivity. }
  rewrite !cos_sum, Z0 by auto. unfold vol. destruct (list_eq_dec Z.eq_dec r q); unfold RtoC; f_equal.
  - rewrite cos_0. ring.
  - rewrite cos_neg, cos_PI2. ring.
Qed.
Lemma csum_swap : forall (h : list Z -> list Z -> C), csum dims (fun p => csum dims (fun q => h p q)) = csum dims (fun q => csum dims (fun p => h p q)).
Proof.
  intros h. assert (S0 : forall k : list Z -> list Z -> R, msum dims (fun p => msum dims (k p)) = msum dims (fun q => msum dims (fun p => k p q))).
  { intros k. rewrite (msum_ext dims (fun p => msum dims (k p)) (fun p => rsum (nR dims) (fun j => k p (gridPos dims j)))) by (intros; symmetry; apply (nR_msum dims (k p)); auto).
    rewrite msum_rsum. apply (nR_msum dims (fun q => msum dims (fun p => k p q))). auto. }
  unfold csum. cbn [fst snd]. f_equal; [apply (S0 (fun p q => fst (h p q)))|apply (S0 (fun p q => snd (h p q)))].
Qed.
Lemma csum_pick : forall (h : list Z -> C) r, in_box dims r -> csum dims (fun q => if list_eq_dec Z.eq_dec q r then h q else RtoC 0) = h r.
Proof.
  intros h r Hr. assert (G : forall k : list Z -> R, msum dims (fun q => if list_eq_dec Z.eq_dec q r then k q else 0%R) = k r).
  { intros k. rewrite msum_points by auto. pose proof (points_nodup dims HP) as ND. pose proof (proj2 (points_in dims r HP) Hr) as IN. revert ND IN. generalize (points dims). induction l as [|x l IH]; intros ND IN; [destruct IN|].
    inversion ND; subst. cbn [lsum]. destruct (list_eq_dec Z.eq_dec x r) as [->|NE].
    - assert (Z1 : lsum (fun q => if list_eq_dec Z.eq_dec q r then k q else 0%R) l = 0%R); [|rewrite Z1; ring].
      clear - H1. induction l as [|y l IH]; cbn [lsum]; auto. destruct (list_eq_dec Z.eq_dec y r) as [->|NE]; [exfalso; apply H1; left; auto|]. rewrite IH; [ring|]. intros X. apply H1. right. auto.
    - destruct IN as [->|IN]; [congruence|]. rewrite (IH H2 IN). ring. }
  unfold csum. rewrite (msum_ext dims _ (fun q => if list_eq_dec Z.eq_dec q r then fst (h q) else 0%R)) by (intros q Hq; destruct (list_eq_dec Z.eq_dec q r); reflexivity).
  rewrite (msum_ext dims (fun q => snd _) (fun q => if list_eq_dec Z.eq_dec q r then snd (h q) else 0%R)) by (intros q Hq; destruct (list_eq_dec Z.eq_dec q r); reflexivity).
  rewrite (G (fun q => fst (h q))), (G (fun q => snd (h q))). destruct (h r); reflexivity.
Qed.
Lemma synth_spectrum : forall f r, in_box dims r -> synth (spectrum f) r = RtoC (f r).
Proof.
  intros f r Hr. unfold synth, spectrum.
  rewrite (csum_ext dims _ (fun p => Cmult (RtoC (/ vol)) (csum dims (fun q => Cmult (RtoC (f q)) (turn (pairing dims p r - pairing dims p q)))))).
  2:{ intros p Hp. rewrite <- Cmult_assoc. f_equal. rewrite Cmult_comm, <- csum_scal. apply csum_ext. intros q Hq. unfold Rminus. rewrite turn_plus. ring. }
  rewrite csum_scal, csum_swap.
  rewrite (csum_ext dims _ (fun q => Cmult (RtoC (f q)) (if list_eq_dec Z.eq_dec r q then RtoC vol else RtoC 0))).
  2:{ intros q Hq. rewrite csum_scal, csum_turn by auto. reflexivity. }
  assert (G : forall h : list Z -> R, msum dims (fun q => if list_eq_dec Z.eq_dec r q then h q else 0%R) = h r).
  { intros h. rewrite msum_points by auto. pose proof (points_nodup dims HP) as ND. pose proof (proj2 (points_in dims r HP) Hr) as IN. revert ND IN. generalize (points dims). induction l as [|x l IH]; intros ND IN; [destruct IN|].
    inversion ND; subst. cbn [lsum]. destruct (list_eq_dec Z.eq_dec r x) as [->|NE].
    - assert (Z1 : lsum (fun q => if list_eq_dec Z.eq_dec x q then h q else 0%R) l = 0%R); [|rewrite Z1; ring].
      clear - H1. induction l as [|y l IH]; cbn [lsum]; auto. destruct (list_eq_dec Z.eq_dec x y) as [->|NE]; [exfalso; apply H1; left; auto|]. rewrite IH; [ring|]. intros X. apply H1. right. auto.
    - destruct IN as [->|IN]; [congruence|]. rewrite (IH H2 IN). ring. }
  unfold csum. rewrite (msum_ext dims _ (fun q => if list_eq_dec Z.eq_dec r q then (f q * vol)%R else 0%R)).
  2:{ intros q Hq. destruct (list_eq_dec Z.eq_dec r q); unfold Cmult, RtoC; cbn [fst snd]; ring. }
  rewrite G. rewrite (msum_ext dims _ (fun q => if list_eq_dec Z.eq_dec r q then 0%R else 0%R)).
  2:{ intros q Hq. destruct (list_eq_dec Z.eq_dec r q); unfold Cmult, RtoC; cbn [fst snd]; ring. }
  rewrite (G (fun _ => 0%R)). pose proof vol_pos. unfold Cmult, RtoC. cbn [fst snd]. f_equal; field; lra.
Qed.
Lemma invariant_covariant : forall f, invariant dims g f <-> covariant (spectrum f).
Proof.
  intros f. split; [apply spectrum_covariant|]. intros HC s r r' Hs Hr Hr' HM. pose proof (synth_invariant _ HC s r r' Hs HM) as E. rewrite !synth_spectrum in E by auto.
  injection E as E. exact E.
Qed.
End Images.
