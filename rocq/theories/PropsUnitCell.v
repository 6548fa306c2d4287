(** C19, C20, C21, C22, C58: crystallographic unit cells. *)
From Coq Require Import Reals List Arith ZArith Bool Lia Lra FunctionalExtensionality.
From Coquelicot Require Import Coquelicot.
From Verif Require Import Base RSum UnitCell UnitCellProofs.
Import ListNotations.
Local Open Scope R_scope.

(* ---------- specification ---------- *)
Definition dot (D : nat) (u v : nat -> R) : R := rsum D (fun m => u m * v m).
(** Partial derivative with respect to parameter k. *)
Definition partial_derivative (f : (nat -> R) -> R) (p : nat -> R) (k : nat) (d : R) : Prop :=
  is_derive (fun x : R => f (fun i => if Nat.eqb i k then x else p i)) (p k) d.

(* ---------- C19 ---------- *)
(** Nondegenerate: nonzero volume.  (For a rhombohedral angle outside the
    domain of acos or sqrt the C++ functions return NaN; the total functions
    of Coq do not, so the theorem is meant for angles with cos(beta) >= -1/2.) *)
Theorem unit_cell_bases_dual : forall l p i j, (i < dim l)%nat -> (j < dim l)%nat -> volume l p <> 0 ->
  dot (dim l) (rBasis l p i) (kBasis l p j) = if Nat.eqb i j then 2 * PI else 0.
Proof. intros. apply basis_dual; auto. Qed.

(** The volume vanishes only for degenerate parameters. *)
Theorem unit_cell_volume_formula : forall l p, in_domain l p ->
  volume l p =
    match l with
    | Lamellar => p 0%nat
    | Square => p 0%nat ^ 2
    | Rectangular => p 0%nat * p 1%nat
    | Rhombic => p 0%nat ^ 2 * sin (p 1%nat)
    | Hexagonal2 => p 0%nat ^ 2 * (sqrt 3 / 2)
    | Oblique => p 0%nat * p 1%nat * sin (p 2%nat)
    | Cubic => p 0%nat ^ 3
    | Tetragonal => p 0%nat ^ 2 * p 1%nat
    | Orthorhombic => p 0%nat * p 1%nat * p 2%nat
    | Monoclinic => p 0%nat * p 1%nat * p 2%nat * sin (p 3%nat)
    | Triclinic => p 0%nat * p 1%nat * p 2%nat * sin (p 5%nat) * cos (p 4%nat)
    | Rhombohedral => p 0%nat ^ 3 * ((1 - cos (p 1%nat)) * sqrt (1 + 2 * cos (p 1%nat)))
    | Hexagonal3 => p 0%nat ^ 2 * p 1%nat * (sqrt 3 / 2)
    end.
Proof.
  intros l p HD. destruct l; ccell; try field.
  cbn [in_domain] in HD. rewrite rh_cos, rh_sin by auto. destruct (rh_u _ HD) as [A B].
  set (u := (2 * cos (p 1%nat) + 1) / 3) in *.
  assert (E1 : sqrt (1 - u) * sqrt (1 - u) = 1 - u) by (apply sqrt_def; lra).
  assert (E2 : sqrt (1 + 2 * cos (p 1%nat)) = sqrt 3 * sqrt u).
  { rewrite <- sqrt_mult by lra. f_equal. unfold u. field. }
  rewrite E2. replace (1 - cos (p 1%nat)) with (3 / 2 * (1 - u)) by (unfold u; field).
  set (w := sqrt (1 - u)) in *. rewrite <- E1. field.
Qed.

(* ---------- C20 ---------- *)
Lemma pd_upd : forall f p k d, partial_derivative f p k d <-> is_derive (fun x : R => f (upd p k x)) (p k) d.
Proof. intros. unfold partial_derivative, upd. tauto. Qed.
Lemma pd_unique : forall f p k d e, partial_derivative f p k d -> partial_derivative f p k e -> d = e.
Proof. intros f p k d e H1 H2. apply is_derive_unique in H1. apply is_derive_unique in H2. congruence. Qed.
Lemma upd_same : forall p k, upd p k (p k) = p.
Proof. intros p k. apply functional_extensionality. intros i. unfold upd. destruct (Nat.eqb_spec i k); subst; auto. Qed.

(** Right for every parameter of every lattice but five rows. *)
Theorem drBasis_correct_partial : forall l p k i j, (k < nParam l)%nat -> (i < dim l)%nat -> (j < dim l)%nat ->
  match l with
  | Oblique => k = 0%nat
  | Monoclinic => k <> 3%nat
  | Rhombohedral => k = 0%nat
  | _ => True
  end ->
  partial_derivative (fun q => rBasis l q i j) p k (drBasis l p k i j).
Proof. intros. apply pd_upd. apply drBasis_derive; auto. Qed.

(** Oblique: row 1 holds the derivative with respect to the angle (parameter 2)
    and row 2 is zero. *)
Theorem oblique_drBasis_misplaced : forall p i j, (i < 2)%nat -> (j < 2)%nat ->
  partial_derivative (fun q => rBasis Oblique q i j) p 2 (drBasis Oblique p 1 i j) /\
  drBasis Oblique p 2 i j = 0.
Proof.
  intros p i j Hi Hj. split.
  - apply pd_upd. destruct i as [|[|i]]; [| |lia]; (destruct j as [|[|j]]; [| |lia]);
    ccell; unfold upd; cbn [Nat.eqb]; auto_derive; trivial; ring.
  - destruct i as [|[|i]]; [| |lia]; (destruct j as [|[|j]]; [| |lia]); reflexivity.
Qed.
(** Monoclinic: the derivative with respect to the angle has the wrong sign. *)
Theorem monoclinic_drBasis_negated : forall p i j, (i < 3)%nat -> (j < 3)%nat ->
  partial_derivative (fun q => rBasis Monoclinic q i j) p 3 (- drBasis Monoclinic p 3 i j).
Proof.
  intros p i j Hi Hj. apply pd_upd. destruct i as [|[|[|i]]]; [| | |lia]; (destruct j as [|[|[|j]]]; [| | |lia]);
  ccell; unfold upd; cbn [Nat.eqb]; auto_derive; trivial; ring.
Qed.
(** Rhombohedral: likewise. *)
Theorem rhombohedral_drBasis_negated : forall p i j, (i < 3)%nat -> (j < 3)%nat ->
  0 < 2 * cos (p 1%nat) + 1 -> cos (p 1%nat) < 1 ->
  partial_derivative (fun q => rBasis Rhombohedral q i j) p 1 (- drBasis Rhombohedral p 1 i j).
Proof.
  intros p i j Hi Hj H1 H2. apply pd_upd.
  assert (C := rh_cos_derive _ H1 H2). assert (S := rh_sin_derive _ H1 H2).
  assert (N1 : cos (rhTheta (p 1%nat)) <> 0).
  { rewrite rh_cos by lra. apply Rgt_not_eq. apply sqrt_lt_R0. lra. }
  assert (N2 : sin (rhTheta (p 1%nat)) <> 0).
  { rewrite rh_sin by lra. apply Rgt_not_eq. apply sqrt_lt_R0. lra. }
  assert (GS : forall c d (F : R -> R), (forall x, c * sin (rhTheta x) = F x) ->
     c * (sin (p 1%nat) / (3 * sin (rhTheta (p 1%nat)))) = d -> is_derive F (p 1%nat) d).
  { intros c d F HF <-. apply is_derive_ext with (fun x => c * sin (rhTheta x)); auto.
    apply (is_derive_scal (fun x => sin (rhTheta x)) _ c _ S). }
  assert (GC : forall c d (F : R -> R), (forall x, c * cos (rhTheta x) = F x) ->
     c * (- sin (p 1%nat) / (3 * cos (rhTheta (p 1%nat)))) = d -> is_derive F (p 1%nat) d).
  { intros c d F HF <-. apply is_derive_ext with (fun x => c * cos (rhTheta x)); auto.
    apply (is_derive_scal (fun x => cos (rhTheta x)) _ c _ C). }
  destruct i as [|[|[|i]]]; [| | |lia]; (destruct j as [|[|[|j]]]; [| | |lia]);
  ccell; unfold upd; cbn [Nat.eqb]; unfold rhAlpha.
  - apply (GS (p 0%nat)); [intros; ring|field; auto].
  - apply (GS 0); [intros; ring|ring].
  - apply (GC (p 0%nat)); [intros; ring|field; auto].
  - apply (GS (- (1 / 2) * p 0%nat)); [intros; ring|field; auto].
  - apply (GS (1 / 2 * sqrt 3 * p 0%nat)); [intros; ring|field; auto].
  - apply (GC (p 0%nat)); [intros; ring|field; auto].
  - apply (GS (- (1 / 2) * p 0%nat)); [intros; ring|field; auto].
  - apply (GS (- (1 / 2 * sqrt 3) * p 0%nat)); [intros; ring|field; auto].
  - apply (GC (p 0%nat)); [intros; ring|field; auto].
Qed.

(** So the stated property fails, in five rows of three lattices. *)
Theorem drBasis_correct_refuted :
  (exists p i j, (i < 2)%nat /\ (j < 2)%nat /\ volume Oblique p <> 0 /\
     ~ partial_derivative (fun q => rBasis Oblique q i j) p 1 (drBasis Oblique p 1 i j)) /\
  (exists p i j, (i < 2)%nat /\ (j < 2)%nat /\ volume Oblique p <> 0 /\
     ~ partial_derivative (fun q => rBasis Oblique q i j) p 2 (drBasis Oblique p 2 i j)) /\
  (exists p i j, (i < 3)%nat /\ (j < 3)%nat /\ volume Monoclinic p <> 0 /\
     ~ partial_derivative (fun q => rBasis Monoclinic q i j) p 3 (drBasis Monoclinic p 3 i j)) /\
  (exists p i j, (i < 3)%nat /\ (j < 3)%nat /\ volume Rhombohedral p <> 0 /\ in_domain Rhombohedral p /\
     ~ partial_derivative (fun q => rBasis Rhombohedral q i j) p 1 (drBasis Rhombohedral p 1 i j)).
Proof.
  assert (C3 : cos (PI / 3) = 1 / 2) by apply cos_PI3.
  assert (S3 : sin (PI / 3) = sqrt 3 / 2) by apply sin_PI3.
  assert (P3 := sqrt3_pos).
  split; [|split; [|split]].
  - exists (fun i => match i with 2%nat => PI / 3 | _ => 1 end), 1%nat, 0%nat. split; [lia|]. split; [lia|]. split.
    + ccell. rewrite S3. lra.
    + intros H. unfold partial_derivative in H. revert H. ccell. cbn [Nat.eqb]. rewrite C3, S3. intros H.
      assert (E := is_derive_unique _ _ _ H).
      assert (X : is_derive (fun x : R => 1 / 2 * x) 1 (1 / 2)) by (auto_derive; trivial; ring).
      assert (E2 := is_derive_unique _ _ _ X). rewrite E in E2. lra.
  - exists (fun i => match i with 2%nat => PI / 3 | _ => 1 end), 1%nat, 0%nat. split; [lia|]. split; [lia|]. split.
    + ccell. rewrite S3. lra.
    + intros H. destruct (oblique_drBasis_misplaced (fun i => match i with 2%nat => PI / 3 | _ => 1 end) 1 0 ltac:(lia) ltac:(lia)) as [A _].
      assert (E2 := pd_unique _ _ _ _ _ H A).
      revert E2. ccell. rewrite S3. lra.
  - exists (fun i => match i with 3%nat => PI / 3 | _ => 1 end), 2%nat, 0%nat. split; [lia|]. split; [lia|]. split.
    + ccell. rewrite S3. lra.
    + intros H. assert (A := monoclinic_drBasis_negated (fun i => match i with 3%nat => PI / 3 | _ => 1 end) 2 0 ltac:(lia) ltac:(lia)).
      assert (E2 := pd_unique _ _ _ _ _ H A).
      revert E2. ccell. rewrite S3. lra.
  - set (p := fun i => match i with 1%nat => PI / 3 | _ => 1 end : R).
    assert (Dm : in_domain Rhombohedral p) by (cbn [in_domain]; unfold p; rewrite C3; lra).
    exists p, 0%nat, 2%nat. split; [lia|]. split; [lia|]. split; [|split; auto].
    + rewrite unit_cell_volume_formula by auto. unfold p. rewrite C3.
      assert (Q : 0 < sqrt (1 + 2 * (1 / 2))) by (apply sqrt_lt_R0; lra). lra.
    + intros H. assert (A := rhombohedral_drBasis_negated p 0 2 ltac:(lia) ltac:(lia)).
      assert (C : cos (p 1%nat) = 1 / 2) by (unfold p; auto). specialize (A ltac:(lra) ltac:(lra)).
      assert (E2 := pd_unique _ _ _ _ _ H A).
      assert (B1 : 0 < cos (rhTheta (p 1%nat))) by (rewrite rh_cos by lra; apply sqrt_lt_R0; lra).
      assert (B2 : 0 < sin (rhTheta (p 1%nat))) by (rewrite rh_sin by lra; apply sqrt_lt_R0; lra).
      revert E2. ccell. unfold rhAlpha. change (p 0%nat) with 1. intros E2.
      assert (S4 : sin (p 1%nat) = sqrt 3 / 2) by (unfold p; auto). rewrite S4 in E2.
      set (cT := cos (rhTheta (p 1%nat))) in *. set (sT := sin (rhTheta (p 1%nat))) in *.
      assert (E3 : - sT * (- (sqrt 3 / 2) / (3 * cT * sT)) * 1 = sqrt 3 / (6 * cT)) by (field; lra).
      rewrite E3 in E2. assert (0 < sqrt 3 / (6 * cT)) by (apply Rdiv_lt_0_compat; lra). lra.
Qed.

(** Consequences for the derivatives of the reciprocal vectors, their dot
    products, and the square norms of wavevectors. *)
Theorem dksq_correct_partial : forall l p k v, (k < nParam l)%nat -> volume l p <> 0 ->
  match l with
  | Oblique => k = 0%nat
  | Monoclinic => k <> 3%nat
  | Rhombohedral => k = 0%nat
  | _ => True
  end ->
  (forall i j, (i < dim l)%nat -> (j < dim l)%nat ->
     partial_derivative (fun q => kBasis l q i j) p k (dkBasis l p k i j) /\
     partial_derivative (fun q => dot (dim l) (kBasis l q i) (kBasis l q j)) p k (dkkBasis l p k i j) /\
     partial_derivative (fun q => dot (dim l) (rBasis l q i) (rBasis l q j)) p k (drrBasis l p k i j)) /\
  partial_derivative (fun q => ksq (dim l) (kBasis l q) v) p k (dksq (dim l) (dkkBasis l p) v k).
Proof.
  intros l p k v Hk HV HO.
  assert (HD : (1 <= dim l <= 3)%nat) by (destruct l; cbn; lia).
  assert (Lk : (k <? nParam l)%nat = true) by (apply Nat.ltb_lt; auto).
  assert (DR : forall i j, (i < dim l)%nat -> (j < dim l)%nat -> is_derive (fun x : R => rBasis l (upd p k x) i j) (p k) (drBasis l p k i j))
    by (intros; apply drBasis_derive; auto).
  assert (DK : forall i j, (i < dim l)%nat -> (j < dim l)%nat -> is_derive (fun x : R => kBasis l (upd p k x) i j) (p k) (dkBasis l p k i j)).
  { intros i j Hi Hj. unfold dkBasis, dkOf. rewrite Lk.
    assert (X := dk_derive (dim l) (fun x => rBasis l (upd p k x)) (fun x => kBasis l (upd p k x)) (p k) (drBasis l p k) HD).
    cbv beta in X. rewrite upd_same in X. apply X; auto. intros x Hx a b Ha Hb. apply basis_dual; auto. }
  assert (DKK : forall i j, (i < dim l)%nat -> (j < dim l)%nat ->
     is_derive (fun x : R => rsum (dim l) (fun s => kBasis l (upd p k x) i s * kBasis l (upd p k x) j s)) (p k) (dkkBasis l p k i j)).
  { intros i j Hi Hj. unfold dkkBasis, dkkOf. rewrite Lk.
    assert (X := kk_derive (dim l) (fun x => kBasis l (upd p k x)) (p k) (dkBasis l p k) DK i j Hi Hj).
    cbv beta in X. rewrite upd_same in X. exact X. }
  split.
  - intros i j Hi Hj. split; [|split].
    + apply pd_upd. auto.
    + apply pd_upd. apply DKK; auto.
    + apply pd_upd. unfold drrBasis, drrOf. rewrite Lk.
      assert (X := kk_derive (dim l) (fun x => rBasis l (upd p k x)) (p k) (drBasis l p k) DR i j Hi Hj).
      cbv beta in X. rewrite upd_same in X. exact X.
  - apply pd_upd. unfold dksq.
    apply (ksq_derive (dim l) (fun x => kBasis l (upd p k x)) (p k) (dkkBasis l p k) v DKK).
Qed.

(** Replacing drBasis_ by its negative negates dkBasis_ and dkkBasis_. *)
Lemma dksq_from_negated : forall l p k v, (k < nParam l)%nat -> volume l p <> 0 ->
  (forall i j, (i < dim l)%nat -> (j < dim l)%nat ->
     is_derive (fun x : R => rBasis l (upd p k x) i j) (p k) (- drBasis l p k i j)) ->
  partial_derivative (fun q => ksq (dim l) (kBasis l q) v) p k (- dksq (dim l) (dkkBasis l p) v k).
Proof.
  intros l p k v Hk HV DR.
  assert (HD : (1 <= dim l <= 3)%nat) by (destruct l; cbn; lia).
  assert (Lk : (k <? nParam l)%nat = true) by (apply Nat.ltb_lt; auto).
  assert (DK : forall i j, (i < dim l)%nat -> (j < dim l)%nat -> is_derive (fun x : R => kBasis l (upd p k x) i j) (p k) (- dkBasis l p k i j)).
  { intros i j Hi Hj. unfold dkBasis, dkOf. rewrite Lk.
    assert (X := dk_derive (dim l) (fun x => rBasis l (upd p k x)) (fun x => kBasis l (upd p k x)) (p k) (fun i j => - drBasis l p k i j) HD).
    cbv beta in X. rewrite upd_same in X.
    replace (- ((0 - rsum (dim l) (fun s => rsum (dim l) (fun t => kBasis l p i s * drBasis l p k t s * kBasis l p t j))) / (2 * PI)))
      with ((0 - rsum (dim l) (fun a => rsum (dim l) (fun t => kBasis l p i a * - drBasis l p k t a * kBasis l p t j))) / (2 * PI)).
    - apply X; auto. intros x Hx a b Ha Hb. apply basis_dual; auto.
    - rewrite (rsum_ext (dim l) (fun a => rsum (dim l) (fun t => kBasis l p i a * - drBasis l p k t a * kBasis l p t j))
        (fun a => - rsum (dim l) (fun t => kBasis l p i a * drBasis l p k t a * kBasis l p t j))).
      + rewrite rsum_opp. assert (P := PI_neq). field. auto.
      + intros a Ha. rewrite <- rsum_opp. apply rsum_ext. intros; ring. }
  assert (DKK : forall i j, (i < dim l)%nat -> (j < dim l)%nat ->
     is_derive (fun x : R => rsum (dim l) (fun s => kBasis l (upd p k x) i s * kBasis l (upd p k x) j s)) (p k) (- dkkBasis l p k i j)).
  { intros i j Hi Hj. unfold dkkBasis, dkkOf. rewrite Lk.
    assert (X := kk_derive (dim l) (fun x => kBasis l (upd p k x)) (p k) (fun i j => - dkBasis l p k i j) DK i j Hi Hj).
    cbv beta in X. rewrite upd_same in X. rewrite <- rsum_opp.
    rewrite (rsum_ext (dim l) (fun i0 => - (kBasis l p i i0 * dkBasis l p k j i0 + kBasis l p j i0 * dkBasis l p k i i0))
      (fun s => kBasis l p i s * - dkBasis l p k j s + kBasis l p j s * - dkBasis l p k i s)) by (intros; ring). exact X. }
  apply pd_upd. unfold dksq. rewrite <- rsum_opp.
  rewrite (rsum_ext (dim l) (fun i => - rsum (dim l) (fun q => IZR (v i) * IZR (v q) * dkkBasis l p k i q))
    (fun i => rsum (dim l) (fun q => IZR (v i) * IZR (v q) * - dkkBasis l p k i q))).
  - apply (ksq_derive (dim l) (fun x => kBasis l (upd p k x)) (p k) (fun i j => - dkkBasis l p k i j) v DKK).
  - intros i Hi. rewrite <- rsum_opp. apply rsum_ext. intros; ring.
Qed.

(** The angle derivative of every squared wavevector, from which the stress is
    computed, has the wrong sign for monoclinic and rhombohedral cells. *)
Theorem angle_dksq_negated : forall p v,
  (volume Monoclinic p <> 0 ->
   partial_derivative (fun q => ksq 3 (kBasis Monoclinic q) v) p 3 (- dksq 3 (dkkBasis Monoclinic p) v 3)) /\
  (volume Rhombohedral p <> 0 -> 0 < 2 * cos (p 1%nat) + 1 -> cos (p 1%nat) < 1 ->
   partial_derivative (fun q => ksq 3 (kBasis Rhombohedral q) v) p 1 (- dksq 3 (dkkBasis Rhombohedral p) v 1)).
Proof.
  intros p v. split.
  - intros HV. apply (dksq_from_negated Monoclinic p 3 v); [cbn; lia|auto|]. intros i j Hi Hj.
    exact (proj1 (pd_upd (fun q => rBasis Monoclinic q i j) p 3 _) (monoclinic_drBasis_negated p i j Hi Hj)).
  - intros HV H1 H2. apply (dksq_from_negated Rhombohedral p 1 v); [cbn; lia|auto|]. intros i j Hi Hj.
    exact (proj1 (pd_upd (fun q => rBasis Rhombohedral q i j) p 1 _) (rhombohedral_drBasis_negated p i j Hi Hj H1 H2)).
Qed.

Theorem dksq_correct_refuted : exists p v, volume Monoclinic p <> 0 /\
  ~ partial_derivative (fun q => ksq 3 (kBasis Monoclinic q) v) p 3 (dksq 3 (dkkBasis Monoclinic p) v 3).
Proof.
  assert (C3 : cos (PI / 3) = 1 / 2) by apply cos_PI3.
  assert (S3 : sin (PI / 3) = sqrt 3 / 2) by apply sin_PI3.
  assert (P3 := sqrt3_pos). assert (Q3 := sqrt3_sq). assert (PP := PI_RGT_0).
  set (p := fun i => match i with 3%nat => PI / 3 | _ => 1 end : R).
  exists p, (fun i => match i with 0%nat => 1%Z | _ => 0%Z end).
  assert (HV : volume Monoclinic p <> 0) by (unfold p; ccell; rewrite S3; lra).
  split; auto. intros H.
  destruct (angle_dksq_negated p (fun i => match i with 0%nat => 1%Z | _ => 0%Z end)) as [A _]. specialize (A HV).
  assert (E2 := pd_unique _ _ _ _ _ H A).
  set (v := fun i => match i with 0%nat => 1%Z | _ => 0%Z end) in *.
  assert (X : partial_derivative (fun q => ksq 3 (kBasis Monoclinic q) v) p 3 (- (2 * (2 * PI) ^ 2 * (1 / 2) / (sqrt 3 / 2) ^ 3))).
  { unfold partial_derivative. change (p 3%nat) with (PI / 3).
    apply is_derive_ext with (fun x => (2 * PI) ^ 2 * (1 + (cos x / sin x) * (cos x / sin x))).
    - intros x. unfold ksq, v. ccell. unfold p, twoPi. unfold Rdiv. match goal with |- @eq _ ?a ?b => change (@eq R a b) end. rewrite ?Rmult_1_l, ?Rinv_1. ring.
    - auto_derive; [repeat split; auto; rewrite S3; lra|]. rewrite C3, S3. field_simplify_eq; [|lra].
      replace (sqrt 3 ^ 2) with 3 by (simpl; lra). ring. }
  assert (E3 := pd_unique _ _ _ _ _ H X).
  assert (Y : 0 < 2 * (2 * PI) ^ 2 * (1 / 2) / (sqrt 3 / 2) ^ 3).
  { apply Rdiv_lt_0_compat; [|apply pow_lt; lra]. assert (0 < (2 * PI) ^ 2) by (apply pow_lt; lra). lra. }
  lra.
Qed.

(* ---------- C58: the stored vectors belong to the stored parameters ---------- *)
(** What a cell must satisfy whenever it claims to be initialized. *)
Definition cell_current (c : ucell) : Prop :=
  uInit c = true -> exists l, uLat c = Some l /\ uN c = nParam l /\
    (forall i j, uR c i j = rBasis l (uP c) i j) /\
    (forall i j, uK c i j = kBasis l (uP c) i j) /\
    (forall k i j, uDr c k i j = drBasis l (uP c) k i j) /\
    (uD c = dim l -> forall k i j, uDk c k i j = dkBasis l (uP c) k i j /\
       uDrr c k i j = drrBasis l (uP c) k i j /\ uDkk c k i j = dkkBasis l (uP c) k i j).

Inductive cell_op :=
| OpSetLat (l : lattice)
| OpSet (l : lattice) (ps : list R)
| OpSetParameters (ps : list R)
| OpAssign (o : ucell)
| OpRead (l : lattice) (ps : list R)
| OpLoad (l : option lattice) (n : nat) (ps : list R).
Definition cell_step (c : ucell) (op : cell_op) : outcome ucell :=
  match op with
  | OpSetLat l => setLat c l
  | OpSet l ps => setLatParams c l ps
  | OpSetParameters ps => setParameters c ps
  | OpAssign o => assignCell c o
  | OpRead l ps => readCell c l ps
  | OpLoad l n ps => loadCell c l n ps
  end.
Fixpoint cell_run (c : ucell) (ops : list cell_op) : outcome ucell :=
  match ops with
  | [] => Ok c
  | op :: ops' => c' <- cell_step c op ;; cell_run c' ops'
  end.
Definition not_load (op : cell_op) : Prop := match op with OpLoad _ _ _ => False | _ => True end.

Lemma setLattice_current : forall c c', setLattice c = Ok c' -> cell_current c' /\ uInit c' = true /\ uD c' = uD c /\ uLat c' = uLat c /\ uP c' = uP c.
Proof.
  intros c c' H. unfold setLattice in H. destruct (uLat c) as [l|] eqn:E; [|discriminate].
  destruct (Nat.eqb (uN c) (nParam l)) eqn:EN; [|discriminate]. cbn [check bind] in H. inversion H; subst c'. cbn.
  apply Nat.eqb_eq in EN. repeat split; auto. intros _. exists l. cbn. repeat split; auto.
  - unfold dkBasis. rewrite <- H0, EN. reflexivity.
  - unfold drrBasis. rewrite <- H0, EN. reflexivity.
  - unfold dkkBasis, dkBasis. rewrite <- H0, EN. reflexivity.
Qed.

Lemma cell_step_current : forall c op c', not_load op -> cell_current c -> cell_step c op = Ok c' -> cell_current c'.
Proof.
  intros c op c' HN HC H. destruct op; cbn [cell_step not_load] in *; try contradiction.
  - unfold setLat in H. destruct (match uLat c with Some l' => check (lattice_eqb l l') | None => Ok tt end); try discriminate.
    cbn [bind] in H. inversion H; subst. intros X; discriminate.
  - unfold setLatParams in H. destruct (setLat c l) as [c1| | |]; try discriminate. cbn [bind] in H.
    destruct (Nat.eqb (length ps) (uN c1)); try discriminate. cbn [check bind] in H. apply setLattice_current in H. tauto.
  - unfold setParameters in H. destruct (Nat.eqb (length ps) (uN c)); try discriminate. cbn [check bind] in H. apply setLattice_current in H. tauto.
  - unfold assignCell in H. destruct (uLat o) as [l|]; [|destruct (uLat c); discriminate].
    destruct (match uLat c with Some l' => check (lattice_eqb l l') | None => Ok tt end); try discriminate. cbn [bind] in H.
    destruct (Nat.eqb (nParam l) (uN o)); try discriminate. cbn [check bind] in H. apply setLattice_current in H. tauto.
  - unfold readCell in H. destruct (setLat c l) as [c1| | |]; try discriminate. cbn [bind] in H. apply setLattice_current in H. tauto.
Qed.

Theorem unit_cell_always_current : forall D junk ops c, List.Forall not_load ops ->
  cell_run (newCell D junk) ops = Ok c -> cell_current c.
Proof.
  intros D junk ops c HN.
  assert (G : forall ops c0, List.Forall not_load ops -> cell_current c0 -> cell_run c0 ops = Ok c -> cell_current c).
  { clear. induction ops as [|op ops IH]; intros c0 HN HC H; cbn [cell_run] in H.
    - inversion H; subst; auto.
    - inversion HN; subst. destruct (cell_step c0 op) as [c1| | |] eqn:E; try discriminate. cbn [bind] in H.
      apply (IH c1); auto. eapply cell_step_current; eauto. }
  apply G; auto. intros X; discriminate.
Qed.

(** Loading from an archive replaces the parameters but not the vectors. *)
Theorem unit_cell_always_current_refuted : exists D junk ops c,
  cell_run (newCell D junk) ops = Ok c /\ ~ cell_current c.
Proof.
  exists 1%nat, (fun _ => 0), [OpSet Lamellar [1]; OpLoad (Some Lamellar) 1 [2]].
  eexists. split; [cbv -[rBasis kBasis drBasis dkOf drrOf dkkOf putParams IZR Rmult]; reflexivity|]. intros H. destruct (H eq_refl) as [l [E [_ [HR _]]]].
  cbn [uLat] in E. injection E as <-. specialize (HR 0%nat 0%nat). cbn [uR uP] in HR.
  assert (X : putParams 1 [1] (fun _ => 0) 0%nat = putParams 1 [2] (putParams 1 [1] (fun _ => 0)) 0%nat) by exact HR.
  unfold putParams in X. cbn in X. lra.
Qed.

(* ---------- C21 ---------- *)
Lemma setLatParams_facts : forall c l ps c', setLatParams c l ps = Ok c' ->
  uLat c' = Some l /\ uD c' = uD c /\ length ps = nParam l /\ (forall i, (i < nParam l)%nat -> uP c' i = nth i ps 0) /\
  (forall i j, uR c' i j = rBasis l (uP c') i j).
Proof.
  intros c l ps c' H. unfold setLatParams in H. destruct (setLat c l) as [c1| | |] eqn:E; try discriminate. cbn [bind] in H.
  unfold setLat in E. destruct (match uLat c with Some l' => check (lattice_eqb l l') | None => Ok tt end); try discriminate.
  cbn [bind] in E. inversion E; subst c1. cbn [uN] in H.
  destruct (Nat.eqb (length ps) (nParam l)) eqn:EL; [|discriminate]. cbn [check bind] in H. apply Nat.eqb_eq in EL.
  unfold setLattice in H. cbn [uLat withParams uN uP uD] in H. rewrite Nat.eqb_refl in H. cbn [check bind] in H.
  inversion H; subst c'. cbn [uLat uD uP uR]. repeat split; auto.
  intros i Hi. unfold putParams. apply Nat.ltb_lt in Hi. rewrite Hi. auto.
Qed.

Definition rep_product (D : nat) (rep : nat -> Z) : R :=
  match D with
  | 1%nat => IZR (rep 0%nat) | 2%nat => IZR (rep 0%nat) * IZR (rep 1%nat)
  | _ => IZR (rep 0%nat) * IZR (rep 1%nat) * IZR (rep 2%nat)
  end.

Theorem replicate_multiplies_vectors : forall rep cin cout c l,
  uLat cin = Some l -> replicateUnitCell rep cin cout = Ok c ->
  exists l', uLat c = Some l' /\ dim l' = dim l /\
    (forall i j, (i < dim l)%nat -> (j < dim l)%nat -> uR c i j = IZR (rep i) * rBasis l (uP cin) i j) /\
    volumeOf (dim l) (uR c) = rep_product (dim l) rep * volume l (uP cin).
Proof.
  intros rep cin cout c l HL H. unfold replicateUnitCell in H. rewrite HL in H.
  destruct (Nat.eqb (uN cin) (nParam l)); [|discriminate]. cbn [check bind] in H.
  destruct (replicateChoice rep l (uP cin)) as [[l' ps]| | |] eqn:EC; try discriminate. cbn [bind] in H.
  destruct (setLat cout l') as [c1| | |] eqn:E1; try discriminate. cbn [bind] in H.
  destruct (Nat.eqb (uN c1) (length ps)); [|discriminate]. cbn [check bind] in H.
  destruct (setLatParams_facts _ _ _ _ H) as [F1 [F2 [F3 [F4 F5]]]]. clear H E1.
  assert (G : dim l' = dim l /\ forall i j, (i < dim l)%nat -> (j < dim l)%nat -> uR c i j = IZR (rep i) * rBasis l (uP cin) i j).
  { unfold replicateChoice in EC.
    destruct l; repeat match type of EC with (if ?b then _ else _) = _ => let E := fresh "E" in destruct b eqn:E end;
    inversion EC; subst l' ps; clear EC; split; auto;
    repeat match goal with
    | E : (_ && _)%bool = true |- _ => apply andb_true_iff in E; destruct E
    | E : (_ =? _)%Z = true |- _ => apply Z.eqb_eq in E end;
    intros i j Hi Hj; rewrite F5; cbn [dim] in Hi, Hj; cbn [nParam] in F4;
    try (assert (P0 := F4 0%nat ltac:(lia))); try (assert (P1 := F4 1%nat ltac:(lia))); try (assert (P2 := F4 2%nat ltac:(lia)));
    try (assert (P3 := F4 3%nat ltac:(lia))); try (assert (P4 := F4 4%nat ltac:(lia))); try (assert (P5 := F4 5%nat ltac:(lia)));
    cbn [nth] in *;
    (destruct i as [|[|[|i]]]; try (exfalso; lia)); (destruct j as [|[|[|j]]]; try (exfalso; lia));
    ccell; rewrite ?P0, ?P1, ?P2, ?P3, ?P4, ?P5;
    repeat match goal with E : rep ?a = rep ?b |- _ => rewrite E in *; clear E end; try ring. }
  destruct G as [G1 G2]. exists l'. split; auto. split; auto. split; auto.
  unfold volume, rep_product. assert (HD : (dim l = 1 \/ dim l = 2 \/ dim l = 3)%nat) by (destruct l; cbn; auto).
  destruct HD as [D|[D|D]]; rewrite D in *; cbn [volumeOf]; rewrite !G2 by lia; ring.
Qed.

(** Exactly which replications of an initialized cell into a new cell succeed. *)
Theorem replicate_succeeds_iff : forall rep cin l D junk,
  uLat cin = Some l -> uN cin = nParam l ->
  ((exists c, replicateUnitCell rep cin (newCell D junk) = Ok c) <->
   match l with
   | Hexagonal2 | Hexagonal3 => rep 0%nat = rep 1%nat
   | Rhombohedral => rep 0%nat = rep 1%nat /\ rep 1%nat = rep 2%nat
   | _ => True
   end).
Proof.
  intros rep cin l D junk HL HN. unfold replicateUnitCell. rewrite HL, HN, Nat.eqb_refl. cbn [check bind].
  assert (OK : forall l' ps, length ps = nParam l' -> exists c,
    (c1 <- setLat (newCell D junk) l';; (check (Nat.eqb (uN c1) (length ps));; setLatParams c1 l' ps)) = Ok c).
  { intros l' ps HP. unfold setLat at 1. cbn [uLat newCell bind uN]. rewrite HP, Nat.eqb_refl. cbn [check bind].
    unfold setLatParams, setLat. cbn [uLat bind uN]. unfold lattice_eqb. destruct (lattice_eq_dec l' l'); [|contradiction].
    cbn [check bind uN]. rewrite HP, Nat.eqb_refl. cbn [check bind]. unfold setLattice. cbn [withParams uLat uN].
    rewrite Nat.eqb_refl. cbn [check bind]. eauto. }
  unfold replicateChoice.
  destruct l; cbn [bind];
  repeat match goal with |- context [if ?b then _ else _] => let E := fresh "E" in destruct b eqn:E; cbn [bind] end;
  split; intros H; auto; try (apply OK; reflexivity);
  repeat match goal with
    | E : (_ && _)%bool = true |- _ => apply andb_true_iff in E; destruct E
    | E : (_ && _)%bool = false |- _ => apply andb_false_iff in E
    | E : (_ =? _)%Z = true |- _ => apply Z.eqb_eq in E
    | E : (_ =? _)%Z = false |- _ => apply Z.eqb_neq in E
    | H : exists c, _ = Ok c |- _ => let X := fresh in destruct H as [? X]; try discriminate X
    end; auto; try contradiction.
  destruct H as [H1 H2]. exfalso. destruct E as [E|E]; apply Z.eqb_neq in E; contradiction.
Qed.

(* ---------- C22 ---------- *)
Theorem param_id_roundtrip : forall l r,
  if (0 <=? r)%Z && (r <? Z.of_nat (nParam l))%Z
  then exists f, reducedToFull l r = Ok f /\ fullToReduced l f = Ok r
  else reducedToFull l r = Throw.
Proof.
  intros l r. destruct ((0 <=? r)%Z && (r <? Z.of_nat (nParam l))%Z) eqn:E.
  - apply andb_true_iff in E. destruct E as [E1 E2]. apply Z.leb_le in E1. apply Z.ltb_lt in E2.
    destruct l; cbn [nParam Z.of_nat Pos.of_succ_nat Pos.succ] in E2;
    (assert (R : (r = 0 \/ r = 1 \/ r = 2 \/ r = 3 \/ r = 4 \/ r = 5)%Z) by lia);
    destruct R as [->|[->|[->|[->|[->| ->]]]]]; try (exfalso; lia); eexists; split; reflexivity.
  - apply andb_false_iff in E.
    assert (X : (r < 0 \/ Z.of_nat (nParam l) <= r)%Z) by (destruct E as [E|E]; [apply Z.leb_gt in E|apply Z.ltb_ge in E]; lia).
    clear E. destruct l; cbn [nParam Z.of_nat Pos.of_succ_nat Pos.succ] in X; unfold reducedToFull;
    repeat match goal with
    | |- context [(?a <? ?b)%Z] => destruct (Z.ltb_spec a b)
    | |- context [(?a =? ?b)%Z] => destruct (Z.eqb_spec a b)
    end; cbn [check bind]; auto; exfalso; lia.
Qed.

(** Length of Bravais vector f, for f < D. *)
Theorem full_length_parameters : forall l p f, (f < dim l)%nat ->
  exists r, fullToReduced l (Z.of_nat f) = Ok (Z.of_nat r) /\ (r < nParam l)%nat /\
    dot (dim l) (rBasis l p f) (rBasis l p f) = p r * p r.
Proof.
  intros l p f Hf. assert (S3 := sqrt3_sq).
  assert (T : forall a b, sin b * sin b * (a * a) + cos b * cos b * (a * a) = a * a).
  { intros a b. assert (X := sin2_cos2 b). unfold Rsqr in X. rewrite <- Rmult_plus_distr_r, X. ring. }
  destruct l; cbn [dim] in Hf; (destruct f as [|[|[|f]]]; try (exfalso; lia));
  match goal with |- exists r, fullToReduced ?l ?f = _ /\ _ =>
    let v := eval vm_compute in (fullToReduced l f) in
    match v with Ok ?z => let n := eval vm_compute in (Z.to_nat z) in exists n end end;
  (split; [reflexivity|]); (split; [cbn; lia|]); unfold dot; ccell;
  try ring; try (field [S3]; fail);
  try match goal with |- context [cos ?x] => generalize (sin2_cos2 x); unfold Rsqr; intros Q end.
  - transitivity (p 0%nat * p 0%nat * (sin (p 1%nat) * sin (p 1%nat) + cos (p 1%nat) * cos (p 1%nat))); [ring|rewrite Q; ring].
  - transitivity (p 1%nat * p 1%nat * (sin (p 2%nat) * sin (p 2%nat) + cos (p 2%nat) * cos (p 2%nat))); [ring|rewrite Q; ring].
  - transitivity (p 2%nat * p 2%nat * (sin (p 3%nat) * sin (p 3%nat) + cos (p 3%nat) * cos (p 3%nat))); [ring|rewrite Q; ring].
  - transitivity (p 1%nat * p 1%nat * (sin (p 5%nat) * sin (p 5%nat) + cos (p 5%nat) * cos (p 5%nat))); [ring|rewrite Q; ring].
  - assert (Q2 := sin2_cos2 (p 4%nat)). assert (Q3 := sin2_cos2 (p 3%nat)). unfold Rsqr in Q2, Q3.
    transitivity (p 2%nat * p 2%nat * (sin (p 4%nat) * sin (p 4%nat) * (sin (p 3%nat) * sin (p 3%nat) + cos (p 3%nat) * cos (p 3%nat)) + cos (p 4%nat) * cos (p 4%nat)));
    [ring|rewrite Q3, Rmult_1_r, Q2; ring].
  - transitivity (p 0%nat * p 0%nat * (sin (rhTheta (p 1%nat)) * sin (rhTheta (p 1%nat)) + cos (rhTheta (p 1%nat)) * cos (rhTheta (p 1%nat)))); [ring|rewrite Q; ring].
  - transitivity (p 0%nat * p 0%nat * (sin (rhTheta (p 1%nat)) * sin (rhTheta (p 1%nat)) * (1 / 4 + 1 / 4 * (sqrt 3 * sqrt 3)) + cos (rhTheta (p 1%nat)) * cos (rhTheta (p 1%nat)))); [field|rewrite S3].
    replace (1 / 4 + 1 / 4 * 3) with 1 by field. rewrite Rmult_1_r, Q. ring.
  - transitivity (p 0%nat * p 0%nat * (sin (rhTheta (p 1%nat)) * sin (rhTheta (p 1%nat)) * (1 / 4 + 1 / 4 * (sqrt 3 * sqrt 3)) + cos (rhTheta (p 1%nat)) * cos (rhTheta (p 1%nat)))); [field|rewrite S3].
    replace (1 / 4 + 1 / 4 * 3) with 1 by field. rewrite Rmult_1_r, Q. ring.
Qed.

(** The pair of vectors that a full angle index refers to: gamma in two
    dimensions; alpha, beta, gamma in three. *)
Definition angle_pair (D f : nat) : option (nat * nat) :=
  match D, f with
  | 2, 2 => Some (0, 1)
  | 3, 3 => Some (1, 2)
  | 3, 4 => Some (0, 2)
  | 3, 5 => Some (0, 1)
  | _, _ => None
  end%nat.
(** The parameter that gives the length of Bravais vector i. *)
Definition length_param (l : lattice) (i : nat) : nat :=
  match fullToReduced l (Z.of_nat i) with Ok z => Z.to_nat z | _ => O end.

(** Angles: a reduced index gives the angle between the two vectors, and -1
    means that the angle is the same in all cells of the lattice system.
    The angles alpha and beta of a triclinic cell are excepted: its
    parameters 3 and 4 are the different angles phi and theta. *)
Theorem full_angle_parameters_partial : forall l p f i j, angle_pair (dim l) f = Some (i, j) ->
  in_domain l p -> ~ (l = Triclinic /\ f <> 5%nat) ->
  (exists r, fullToReduced l (Z.of_nat f) = Ok (Z.of_nat r) /\ (r < nParam l)%nat /\
     dot (dim l) (rBasis l p i) (rBasis l p j) = p (length_param l i) * p (length_param l j) * cos (p r)) \/
  (fullToReduced l (Z.of_nat f) = Ok (-1)%Z /\ exists c, (c = 0 \/ c = - (1 / 2)) /\ forall q,
     dot (dim l) (rBasis l q i) (rBasis l q j) = q (length_param l i) * q (length_param l j) * c).
Proof.
  intros l p f i j HA HD HT. assert (S3 := sqrt3_sq).
  assert (RH : l = Rhombohedral -> cos (p 1%nat) = cos (rhTheta (p 1%nat)) * cos (rhTheta (p 1%nat)) - 1 / 2 * (sin (rhTheta (p 1%nat)) * sin (rhTheta (p 1%nat)))).
  { intros ->. cbn [in_domain] in HD. rewrite rh_cos, rh_sin by auto. destruct (rh_u _ HD). rewrite !sqrt_def by lra. field. }
  destruct l; cbn [dim] in HA; (destruct f as [|[|[|[|[|[|f]]]]]]; cbn [angle_pair] in HA; try discriminate);
  inversion HA; subst i j; try (exfalso; apply HT; split; [reflexivity|lia]);
  match goal with |- context [fullToReduced ?l ?f] =>
    let v := eval vm_compute in (fullToReduced l f) in
    match v with
    | Ok (Zneg _) => right; split; [reflexivity|]
    | Ok ?z => left; let n := eval vm_compute in (Z.to_nat z) in exists n; split; [reflexivity|]; split; [cbn; lia|]
    end end;
  unfold dot, length_param; cbn [fullToReduced dim Z.of_nat Pos.of_succ_nat Pos.succ Z.eqb Pos.eqb check bind andb orb Z.ltb Z.compare Pos.compare Pos.compare_cont CompOpp Z.to_nat Pos.to_nat Pos.iter_op Nat.add]; 
  try (rewrite RH by reflexivity); ccell;
  try (exists 0; split; [auto|]; intros q; ring);
  try (exists (- (1 / 2)); split; [auto|]; intros q; field); try ring; try field; try (field [S3]; fail).
  all: change (Pos.to_nat 1) with 1%nat; change (Pos.to_nat 2) with 2%nat; ring.
Qed.

Theorem full_angle_parameters_refuted : exists p, volume Triclinic p <> 0 /\
  fullToReduced Triclinic 3 = Ok 3%Z /\
  dot 3 (rBasis Triclinic p 1) (rBasis Triclinic p 2) <> p 1%nat * p 2%nat * cos (p 3%nat).
Proof.
  exists (fun i => match i with 3%nat => 0 | 4%nat => 0 | 5%nat => PI / 2 | _ => 1 end).
  unfold dot. ccell. rewrite cos_0, sin_0, cos_PI2, sin_PI2. repeat split; lra.
Qed.

(* ---------- examples ---------- *)
Example ex_triclinic : volume Triclinic (fun i => match i with 3%nat => PI / 3 | 4%nat => PI / 6 | 5%nat => PI / 2 | _ => 2 end) <> 0.
Proof. rewrite unit_cell_volume_formula by (cbn; auto). rewrite sin_PI2, cos_PI6. assert (X := sqrt3_pos). lra. Qed.
Example ex_rhombohedral : exists p, in_domain Rhombohedral p /\ volume Rhombohedral p <> 0 /\ (0 < 2 * cos (p 1%nat) + 1) /\ cos (p 1%nat) < 1.
Proof.
  exists (fun i => match i with 1%nat => PI / 3 | _ => 1 end). cbn [in_domain]. rewrite cos_PI3.
  split; [lra|]. split; [|lra]. rewrite unit_cell_volume_formula by (cbn [in_domain]; rewrite cos_PI3; lra).
  rewrite cos_PI3. assert (Q : 0 < sqrt (1 + 2 * (1 / 2))) by (apply sqrt_lt_R0; lra). lra.
Qed.
Example ex_replicate : exists c, replicateUnitCell (fun i => match i with 0%nat => 2 | _ => 3 end)%Z
   (mkUcell 2 (Some Rhombic) 2 (fun _ => 1) true (rBasis Rhombic (fun _ => 1)) (kBasis Rhombic (fun _ => 1)) (fun _ _ _ => 0) (fun _ _ _ => 0) (fun _ _ _ => 0) (fun _ _ _ => 0))
   (newCell 2 (fun _ => 0)) = Ok c /\ uLat c = Some Oblique.
Proof. eexists. split; [cbv -[rBasis kBasis drBasis dkOf drrOf dkkOf putParams IZR Rmult]; reflexivity|reflexivity]. Qed.
Example ex_cell_run : exists c, cell_run (newCell 3 (fun _ => 0)) [OpSetLat Cubic; OpSetParameters [2]; OpRead Cubic [3]] = Ok c /\ uInit c = true.
Proof. eexists. split; [cbv -[rBasis kBasis drBasis dkOf drrOf dkkOf putParams IZR Rmult]; reflexivity|reflexivity]. Qed.

Print Assumptions unit_cell_bases_dual.
Print Assumptions unit_cell_volume_formula.
Print Assumptions drBasis_correct_partial.
Print Assumptions drBasis_correct_refuted.
Print Assumptions oblique_drBasis_misplaced.
Print Assumptions monoclinic_drBasis_negated.
Print Assumptions rhombohedral_drBasis_negated.
Print Assumptions dksq_correct_partial.
Print Assumptions angle_dksq_negated.
Print Assumptions dksq_correct_refuted.
Print Assumptions unit_cell_always_current.
Print Assumptions unit_cell_always_current_refuted.
Print Assumptions replicate_multiplies_vectors.
Print Assumptions replicate_succeeds_iff.
Print Assumptions param_id_roundtrip.
Print Assumptions full_length_parameters.
Print Assumptions full_angle_parameters_partial.
Print Assumptions full_angle_parameters_refuted.
