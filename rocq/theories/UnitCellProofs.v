(** Proofs about UnitCell.v. *)
From Coq Require Import Reals List Arith ZArith Bool Lia Lra.
From Coquelicot Require Import Coquelicot.
From Verif Require Import Base RSum UnitCell.
Import ListNotations.
Local Open Scope R_scope.

Ltac ccell := cbv beta iota zeta delta [rBasis kBasis drBasis rWrites kWrites drWrites get2 get3 e2 e3 fold_left Nat.eqb andb rsum dim nParam volume volumeOf Nat.ltb Nat.leb];
  try (fold PI).

(** The arguments of the trigonometric functions lie in their real domain. *)
Definition in_domain (l : lattice) (p : nat -> R) : Prop :=
  match l with Rhombohedral => 0 <= 2 * cos (p 1%nat) + 1 | _ => True end.

Lemma sqrt3_pos : 0 < sqrt 3. Proof. apply sqrt_lt_R0; lra. Qed.
Lemma sqrt3_sq : sqrt 3 * sqrt 3 = 3. Proof. apply sqrt_def; lra. Qed.
Lemma PI_neq : PI <> 0. Proof. assert (H := PI_RGT_0); lra. Qed.

Ltac nz := repeat match goal with
  | H : _ /\ _ |- _ => destruct H
  end.

Lemma basis_dual : forall l p i j, (i < dim l)%nat -> (j < dim l)%nat -> volume l p <> 0 ->
  rsum (dim l) (fun k => rBasis l p i k * kBasis l p j k) = if Nat.eqb i j then 2 * PI else 0.
Proof.
  intros l p i j Hi Hj HV. assert (S3 := sqrt3_sq). assert (N3 := Rgt_not_eq _ _ sqrt3_pos).
  destruct l; unfold dim in Hi, Hj;
  (destruct i as [|[|[|i]]]; try (exfalso; lia)); (destruct j as [|[|[|j]]]; try (exfalso; lia));
  revert HV; ccell; unfold twoPi; intros HV;
  repeat match goal with
  | |- context [p ?n] => let x := fresh "x" in set (x := p n) in *; clearbody x
  end; try (rewrite ?Rmult_0_l, ?Rmult_0_r; lra).
  all: try (field [S3]; repeat split; try exact N3; try lra; intros E; apply HV; rewrite E; ring).
Qed.

(* ---------- derivatives of the Bravais vectors ---------- *)
Definition upd (p : nat -> R) (k : nat) (x : R) (i : nat) : R := if Nat.eqb i k then x else p i.

(** Rows of drBasis_ that are not affected by the defects found below. *)
Definition dr_ok (l : lattice) (k : nat) : Prop :=
  match l with
  | Oblique => k = 0%nat
  | Monoclinic => k <> 3%nat
  | Rhombohedral => k = 0%nat
  | _ => True
  end.

Lemma drBasis_derive : forall l p k i j, (k < nParam l)%nat -> (i < dim l)%nat -> (j < dim l)%nat -> dr_ok l k ->
  is_derive (fun x => rBasis l (upd p k x) i j) (p k) (drBasis l p k i j).
Proof.
  intros l p k i j Hk Hi Hj HO.
  destruct l; cbn [dim nParam] in Hi, Hj, Hk; cbn [dr_ok] in HO;
  try (rewrite HO in *);
  (destruct k as [|[|[|[|[|[|k]]]]]]; try (exfalso; lia));
  (destruct i as [|[|[|i]]]; try (exfalso; lia)); (destruct j as [|[|[|j]]]; try (exfalso; lia));
  ccell; unfold upd; cbn [Nat.eqb]; try (auto_derive; [trivial|ring]).
Qed.

(** Rhombohedral angle. *)
Lemma rh_u : forall b, 0 <= 2 * cos b + 1 -> 0 <= (2 * cos b + 1) / 3 <= 1.
Proof. intros b H. assert (C := COS_bound b). lra. Qed.
Lemma rh_cos : forall b, 0 <= 2 * cos b + 1 -> cos (rhTheta b) = sqrt ((2 * cos b + 1) / 3).
Proof.
  intros b H. unfold rhTheta. destruct (rh_u b H) as [A B]. apply cos_acos. split.
  - apply Rle_trans with 0; [lra|apply sqrt_pos].
  - apply Rle_trans with (sqrt 1); [apply sqrt_le_1_alt; lra|rewrite sqrt_1; lra].
Qed.
Lemma rh_sin : forall b, 0 <= 2 * cos b + 1 -> sin (rhTheta b) = sqrt (1 - (2 * cos b + 1) / 3).
Proof.
  intros b H. unfold rhTheta. destruct (rh_u b H) as [A B]. rewrite sin_acos.
  - f_equal. unfold Rsqr. rewrite sqrt_def by auto. auto.
  - split.
    + apply Rle_trans with 0; [lra|apply sqrt_pos].
    + apply Rle_trans with (sqrt 1); [apply sqrt_le_1_alt; lra|rewrite sqrt_1; lra].
Qed.

Lemma rh_locally : forall b, 0 < 2 * cos b + 1 -> locally b (fun y => 0 <= 2 * cos y + 1).
Proof.
  intros b H.
  assert (C : continuous (fun y => 2 * cos y + 1) b).
  { apply (ex_derive_continuous (fun y => 2 * cos y + 1)). auto_derive. trivial. }
  specialize (C (fun z => 0 < z)). apply filter_imp with (fun y => 0 < 2 * cos y + 1); [intros; lra|].
  apply C. apply (open_gt 0). auto.
Qed.

Lemma rh_cos_derive : forall b, 0 < 2 * cos b + 1 -> cos b < 1 ->
  is_derive (fun y => cos (rhTheta y)) b (- sin b / (3 * cos (rhTheta b))).
Proof.
  intros b H1 H2. apply is_derive_ext_loc with (fun y => sqrt ((2 * cos y + 1) / 3)).
  - apply filter_imp with (2 := rh_locally b H1). intros y Hy. symmetry. apply rh_cos; auto.
  - rewrite rh_cos by lra. assert (P : 0 < sqrt ((2 * cos b + 1) / 3)) by (apply sqrt_lt_R0; lra).
    unfold Rminus, Rdiv in *. auto_derive; [lra|]. match goal with |- context [sqrt ?u] => generalize dependent (sqrt u) end. intros. field. lra.
Qed.
Lemma rh_sin_derive : forall b, 0 < 2 * cos b + 1 -> cos b < 1 ->
  is_derive (fun y => sin (rhTheta y)) b (sin b / (3 * sin (rhTheta b))).
Proof.
  intros b H1 H2. apply is_derive_ext_loc with (fun y => sqrt (1 - (2 * cos y + 1) / 3)).
  - apply filter_imp with (2 := rh_locally b H1). intros y Hy. symmetry. apply rh_sin; auto.
  - rewrite rh_sin by lra. assert (P : 0 < sqrt (1 - (2 * cos b + 1) / 3)) by (apply sqrt_lt_R0; lra).
    unfold Rminus, Rdiv in *. auto_derive; [lra|]. match goal with |- context [sqrt ?u] => generalize dependent (sqrt u) end. intros. field. lra.
Qed.

(* ---------- derivatives of the reciprocal vectors ---------- *)
(** Matrix inversion, D = 1, 2, 3: duality determines the reciprocal vectors. *)
Definition cof (D : nat) (r : nat -> nat -> R) (i j : nat) : R :=
  match D with
  | 1%nat => 1
  | 2%nat => (if Nat.eqb i j then 1 else -1) * r (1 - i)%nat (1 - j)%nat
  | _ => r ((i + 1) mod 3)%nat ((j + 1) mod 3)%nat * r ((i + 2) mod 3)%nat ((j + 2) mod 3)%nat
         - r ((i + 1) mod 3)%nat ((j + 2) mod 3)%nat * r ((i + 2) mod 3)%nat ((j + 1) mod 3)%nat
  end.

Lemma dual_cof : forall D r k, (1 <= D <= 3)%nat -> volumeOf D r <> 0 ->
  (forall i j, (i < D)%nat -> (j < D)%nat -> rsum D (fun m => r i m * k j m) = if Nat.eqb i j then 2 * PI else 0) ->
  forall j m, (j < D)%nat -> (m < D)%nat -> k j m = 2 * PI * cof D r j m / volumeOf D r.
Proof.
  intros D r k HD HV HK j m Hj Hm.
  assert (E : volumeOf D r * k j m = 2 * PI * cof D r j m); [|rewrite <- E; field; auto].
  assert (D = 1 \/ D = 2 \/ D = 3)%nat as [-> | [-> | ->]] by lia.
  - assert (j = 0)%nat by lia. assert (m = 0)%nat by lia. subst.
    specialize (HK 0 0 ltac:(lia) ltac:(lia))%nat. cbn in HK |- *. lra.
  - assert (A := HK 0%nat j ltac:(lia) ltac:(lia)). assert (B := HK 1%nat j ltac:(lia) ltac:(lia)).
    cbn [rsum] in A, B.
    assert (C : volumeOf 2 r * k j m = cof 2 r 0 m * (0 + r 0%nat 0%nat * k j 0%nat + r 0%nat 1%nat * k j 1%nat)
        + cof 2 r 1 m * (0 + r 1%nat 0%nat * k j 0%nat + r 1%nat 1%nat * k j 1%nat)).
    { assert (m = 0 \/ m = 1)%nat as [-> | ->] by lia; cbn [volumeOf cof Nat.eqb Nat.sub]; ring. }
    rewrite C, A, B. assert (j = 0 \/ j = 1)%nat as [-> | ->] by lia; cbn [Nat.eqb]; ring.
  - assert (A := HK 0%nat j ltac:(lia) ltac:(lia)). assert (B := HK 1%nat j ltac:(lia) ltac:(lia)). assert (C := HK 2%nat j ltac:(lia) ltac:(lia)).
    cbn [rsum] in A, B, C.
    assert (E : volumeOf 3 r * k j m = cof 3 r 0 m * (0 + r 0%nat 0%nat * k j 0%nat + r 0%nat 1%nat * k j 1%nat + r 0%nat 2%nat * k j 2%nat)
        + cof 3 r 1 m * (0 + r 1%nat 0%nat * k j 0%nat + r 1%nat 1%nat * k j 1%nat + r 1%nat 2%nat * k j 2%nat)
        + cof 3 r 2 m * (0 + r 2%nat 0%nat * k j 0%nat + r 2%nat 1%nat * k j 1%nat + r 2%nat 2%nat * k j 2%nat)).
    { assert (m = 0 \/ m = 1 \/ m = 2)%nat as [-> | [-> | ->]] by lia; cbn [volumeOf]; unfold cof;
      cbn [Nat.add Nat.modulo Nat.divmod fst snd Nat.sub]; ring. }
    rewrite E, A, B, C. assert (j = 0 \/ j = 1 \/ j = 2)%nat as [-> | [-> | ->]] by lia; cbn [Nat.eqb]; ring.
Qed.

Lemma dual_transpose : forall D r k, (1 <= D <= 3)%nat -> volumeOf D r <> 0 ->
  (forall i j, (i < D)%nat -> (j < D)%nat -> rsum D (fun m => r i m * k j m) = if Nat.eqb i j then 2 * PI else 0) ->
  forall a b, (a < D)%nat -> (b < D)%nat -> rsum D (fun i => k i a * r i b) = if Nat.eqb a b then 2 * PI else 0.
Proof.
  intros D r k HD HV HK a b Ha Hb.
  rewrite (rsum_ext D _ (fun i => 2 * PI * cof D r i a / volumeOf D r * r i b)).
  2:{ intros i Hi. rewrite (dual_cof D r k HD HV HK i a Hi Ha). auto. }
  assert (D = 1 \/ D = 2 \/ D = 3)%nat as [-> | [-> | ->]] by lia.
  - assert (a = 0)%nat by lia. assert (b = 0)%nat by lia. subst. cbn in *. field. auto.
  - assert (a = 0 \/ a = 1)%nat as [-> | ->] by lia; assert (b = 0 \/ b = 1)%nat as [-> | ->] by lia;
    cbn [rsum volumeOf cof Nat.eqb Nat.sub] in *; field; auto.
  - assert (a = 0 \/ a = 1 \/ a = 2)%nat as [-> | [-> | ->]] by lia; assert (b = 0 \/ b = 1 \/ b = 2)%nat as [-> | [-> | ->]] by lia;
    cbn [rsum volumeOf Nat.eqb] in *; unfold cof; cbn [Nat.add Nat.modulo Nat.divmod fst snd Nat.sub]; field; auto.
Qed.

Lemma volume_ex_derive : forall D (r : R -> nat -> nat -> R) (x0 : R), (1 <= D <= 3)%nat ->
  (forall i j, (i < D)%nat -> (j < D)%nat -> ex_derive (fun x : R => r x i j) x0) ->
  ex_derive (fun x : R => volumeOf D (r x)) x0.
Proof.
  intros D r x0 HD H.
  assert (D = 1 \/ D = 2 \/ D = 3)%nat as [-> | [-> | ->]] by lia; cbn [volumeOf].
  - apply H; lia.
  - set (f := fun i j x => r x i j).
    change (ex_derive (fun x => f 0%nat 0%nat x * f 1%nat 1%nat x - f 0%nat 1%nat x * f 1%nat 0%nat x) x0).
    assert (F : forall i j, (i < 2)%nat -> (j < 2)%nat -> ex_derive (f i j) x0) by (intros; apply H; auto).
    generalize (F 0 0 ltac:(lia) ltac:(lia))%nat (F 0 1 ltac:(lia) ltac:(lia))%nat (F 1 0 ltac:(lia) ltac:(lia))%nat (F 1 1 ltac:(lia) ltac:(lia))%nat.
    generalize (f 0 0)%nat (f 0 1)%nat (f 1 0)%nat (f 1 1)%nat. intros. auto_derive. repeat split; auto.
  - set (f := fun i j x => r x i j).
    change (ex_derive (fun x => f 0%nat 0%nat x * f 1%nat 1%nat x * f 2%nat 2%nat x - f 0%nat 0%nat x * f 1%nat 2%nat x * f 2%nat 1%nat x
      + f 0%nat 1%nat x * f 1%nat 2%nat x * f 2%nat 0%nat x - f 0%nat 1%nat x * f 1%nat 0%nat x * f 2%nat 2%nat x
      + f 0%nat 2%nat x * f 1%nat 0%nat x * f 2%nat 1%nat x - f 0%nat 2%nat x * f 1%nat 1%nat x * f 2%nat 0%nat x) x0).
    assert (F : forall i j, (i < 3)%nat -> (j < 3)%nat -> ex_derive (f i j) x0) by (intros; apply H; auto).
    generalize (F 0 0 ltac:(lia) ltac:(lia))%nat (F 0 1 ltac:(lia) ltac:(lia))%nat (F 0 2 ltac:(lia) ltac:(lia))%nat
      (F 1 0 ltac:(lia) ltac:(lia))%nat (F 1 1 ltac:(lia) ltac:(lia))%nat (F 1 2 ltac:(lia) ltac:(lia))%nat
      (F 2 0 ltac:(lia) ltac:(lia))%nat (F 2 1 ltac:(lia) ltac:(lia))%nat (F 2 2 ltac:(lia) ltac:(lia))%nat.
    generalize (f 0 0)%nat (f 0 1)%nat (f 0 2)%nat (f 1 0)%nat (f 1 1)%nat (f 1 2)%nat (f 2 0)%nat (f 2 1)%nat (f 2 2)%nat.
    intros. auto_derive. repeat split; auto.
Qed.

Lemma cof_ex_derive : forall D (r : R -> nat -> nat -> R) (x0 : R) i j, (1 <= D <= 3)%nat -> (i < D)%nat -> (j < D)%nat ->
  (forall i j, (i < D)%nat -> (j < D)%nat -> ex_derive (fun x : R => r x i j) x0) ->
  ex_derive (fun x : R => cof D (r x) i j) x0.
Proof.
  intros D r x0 i j HD Hi Hj H.
  assert (D = 1 \/ D = 2 \/ D = 3)%nat as [-> | [-> | ->]] by lia; unfold cof.
  - apply ex_derive_const.
  - assert (F := H (1 - i)%nat (1 - j)%nat ltac:(lia) ltac:(lia)). 
    set (c := if Nat.eqb i j then 1 else -1). clearbody c.
    set (f := fun x => r x (1 - i)%nat (1 - j)%nat) in *. change (ex_derive (fun x => c * f x) x0). clearbody f. auto_derive; repeat split; auto.
  - assert (M : forall n, (n mod 3 < 3)%nat) by (intros; apply Nat.mod_upper_bound; lia).
    assert (F1 := H ((i + 1) mod 3)%nat ((j + 1) mod 3)%nat (M _) (M _)).
    assert (F2 := H ((i + 2) mod 3)%nat ((j + 2) mod 3)%nat (M _) (M _)).
    assert (F3 := H ((i + 1) mod 3)%nat ((j + 2) mod 3)%nat (M _) (M _)).
    assert (F4 := H ((i + 2) mod 3)%nat ((j + 1) mod 3)%nat (M _) (M _)).
    set (f1 := fun x => r x ((i + 1) mod 3)%nat ((j + 1) mod 3)%nat) in *.
    set (f2 := fun x => r x ((i + 2) mod 3)%nat ((j + 2) mod 3)%nat) in *.
    set (f3 := fun x => r x ((i + 1) mod 3)%nat ((j + 2) mod 3)%nat) in *.
    set (f4 := fun x => r x ((i + 2) mod 3)%nat ((j + 1) mod 3)%nat) in *.
    change (ex_derive (fun x => f1 x * f2 x - f3 x * f4 x) x0). clearbody f1 f2 f3 f4. auto_derive. repeat split; auto.
Qed.

Lemma is_derive_rsum : forall n (f : nat -> R -> R) (x0 : R) (d : nat -> R),
  (forall i, (i < n)%nat -> is_derive (f i) x0 (d i)) ->
  is_derive (fun x => rsum n (fun i => f i x)) x0 (rsum n d).
Proof.
  induction n; intros f x0 d H; cbn [rsum].
  - apply (is_derive_const 0).
  - apply (is_derive_plus (fun x => rsum n (fun i => f i x)) (f n)); auto.
Qed.
Lemma is_derive_Rmult : forall (f g : R -> R) x df dg, is_derive f x df -> is_derive g x dg ->
  is_derive (fun x => f x * g x) x (df * g x + f x * dg).
Proof. intros f g x df dg Hf Hg. apply (is_derive_mult f g x df dg Hf Hg). intros; apply Rmult_comm. Qed.

Lemma volume_locally : forall D (r : R -> nat -> nat -> R) (x0 : R), (1 <= D <= 3)%nat -> volumeOf D (r x0) <> 0 ->
  (forall i j, (i < D)%nat -> (j < D)%nat -> ex_derive (fun x : R => r x i j) x0) ->
  locally x0 (fun x : R => volumeOf D (r x) <> 0).
Proof.
  intros D r x0 HD HV H. assert (C := ex_derive_continuous _ _ (volume_ex_derive D r x0 HD H)).
  apply (C (fun z => z <> 0)). apply (open_neq 0). auto.
Qed.

(** If the derivatives of the Bravais vectors are right, so is dkBasis. *)
Lemma dk_derive : forall D (r k : R -> nat -> nat -> R) (x0 : R) (dr : nat -> nat -> R), (1 <= D <= 3)%nat ->
  volumeOf D (r x0) <> 0 ->
  (forall i j, (i < D)%nat -> (j < D)%nat -> is_derive (fun x : R => r x i j) x0 (dr i j)) ->
  (forall x, volumeOf D (r x) <> 0 -> forall i j, (i < D)%nat -> (j < D)%nat ->
     rsum D (fun m => r x i m * k x j m) = if Nat.eqb i j then 2 * PI else 0) ->
  forall q s, (q < D)%nat -> (s < D)%nat ->
    is_derive (fun x : R => k x q s) x0
      ((0 - rsum D (fun a => rsum D (fun t => k x0 q a * dr t a * k x0 t s))) / (2 * PI)).
Proof.
  intros D r k x0 dr HD HV Hr HK.
  assert (EX : forall i j, (i < D)%nat -> (j < D)%nat -> ex_derive (fun x : R => r x i j) x0) by (intros i j Hi Hj; eexists; apply Hr; auto).
  assert (LV := volume_locally D r x0 HD HV EX).
  assert (EK : forall q s, (q < D)%nat -> (s < D)%nat -> ex_derive (fun x : R => k x q s) x0).
  { intros q s Hq Hs. apply ex_derive_ext_loc with (fun x => 2 * PI * cof D (r x) q s / volumeOf D (r x)).
    - apply filter_imp with (2 := LV). intros x Hx. symmetry. apply dual_cof; auto.
    - assert (C1 := cof_ex_derive D r x0 q s HD Hq Hs EX). assert (C2 := volume_ex_derive D r x0 HD EX).
      set (f := fun x => cof D (r x) q s) in *. set (g := fun x => volumeOf D (r x)) in *.
      change (ex_derive (fun x => 2 * PI * f x / g x) x0). change (g x0 <> 0) in HV. clearbody f g. auto_derive. repeat split; auto. }
  intros q s Hq Hs.
  set (dk := fun a => Derive (fun x : R => k x q a) x0).
  assert (HD1 : forall a, (a < D)%nat -> is_derive (fun x : R => k x q a) x0 (dk a)) by (intros a Ha; apply Derive_correct; auto).
  (* differentiate the duality relation *)
  assert (ID : forall t, (t < D)%nat -> rsum D (fun m => dr t m * k x0 q m + r x0 t m * dk m) = 0).
  { intros t Ht.
    assert (A : is_derive (fun x => rsum D (fun m => r x t m * k x q m)) x0 (rsum D (fun m => dr t m * k x0 q m + r x0 t m * dk m))).
    { apply (is_derive_rsum D (fun m x => r x t m * k x q m)). intros m Hm.
      apply (is_derive_Rmult (fun x => r x t m) (fun x => k x q m)); auto. }
    assert (B : is_derive (fun x => rsum D (fun m => r x t m * k x q m)) x0 0).
    { apply is_derive_ext_loc with (fun _ => if Nat.eqb t q then 2 * PI else 0).
      - apply filter_imp with (2 := LV). intros x Hx. symmetry. apply HK; auto.
      - apply (is_derive_const (if Nat.eqb t q then 2 * PI else 0)). }
    apply is_derive_unique in A. apply is_derive_unique in B. rewrite <- A, <- B. reflexivity. }
  assert (T := dual_transpose D (r x0) (k x0) HD HV (HK x0 HV)).
  assert (X : dk s = (0 - rsum D (fun a => rsum D (fun t => k x0 q a * dr t a * k x0 t s))) / (2 * PI)).
  { assert (S : rsum D (fun t => k x0 t s * rsum D (fun m => dr t m * k x0 q m + r x0 t m * dk m)) = 0).
    { rewrite (rsum_ext D _ (fun _ => 0)); [apply rsum_zero|]. intros t Ht. rewrite ID by auto. ring. }
    rewrite (rsum_ext D _ (fun t => rsum D (fun m => k x0 q m * dr t m * k x0 t s) + rsum D (fun m => k x0 t s * r x0 t m * dk m))) in S.
    2:{ intros t Ht. rewrite <- rsum_scal, <- rsum_plus. apply rsum_ext. intros; ring. }
    rewrite rsum_plus in S.
    rewrite (rsum_swap D D (fun t m => k x0 t s * r x0 t m * dk m)) in S.
    rewrite (rsum_ext D (fun j => rsum D (fun i => k x0 i s * r x0 i j * dk j)) (fun j => (if Nat.eqb s j then 2 * PI else 0) * dk j)) in S.
    2:{ intros j Hj. rewrite rsum_scal_r. rewrite T by auto. auto. }
    assert (DL : rsum D (fun j => (if Nat.eqb s j then 2 * PI else 0) * dk j) = 2 * PI * dk s).
    { clear - Hs. revert Hs. generalize dk. induction D as [|n IH]; intros g Hs; [lia|]. cbn [rsum].
      destruct (Nat.eq_dec s n) as [->|N].
      - rewrite Nat.eqb_refl. rewrite (rsum_ext n _ (fun _ => 0)), rsum_zero; [ring|].
        intros i Hi. destruct (Nat.eqb_spec n i); [lia|ring].
      - rewrite IH by lia. destruct (Nat.eqb_spec s n); [lia|ring]. }
    rewrite DL in S. rewrite (rsum_swap D D (fun a t => k x0 q a * dr t a * k x0 t s)).
    assert (P := PI_neq). apply (Rmult_eq_reg_l (2 * PI)); [|lra]. 
    replace (2 * PI * ((0 - rsum D (fun j => rsum D (fun i => k x0 q i * dr j i * k x0 j s))) / (2 * PI)))
      with (0 - rsum D (fun j => rsum D (fun i => k x0 q i * dr j i * k x0 j s))) by (field; auto). lra. }
  rewrite <- X. apply HD1; auto.
Qed.

(** ... and so are the derivatives of products and of ksq. *)
Lemma kk_derive : forall D (k : R -> nat -> nat -> R) (x0 : R) (dk : nat -> nat -> R),
  (forall i j, (i < D)%nat -> (j < D)%nat -> is_derive (fun x : R => k x i j) x0 (dk i j)) ->
  forall q t, (q < D)%nat -> (t < D)%nat ->
  is_derive (fun x => rsum D (fun s => k x q s * k x t s)) x0 (rsum D (fun s => k x0 q s * dk t s + k x0 t s * dk q s)).
Proof.
  intros D k x0 dk H q t Hq Ht.
  rewrite (rsum_ext D (fun s => k x0 q s * dk t s + k x0 t s * dk q s) (fun s => dk q s * k x0 t s + k x0 q s * dk t s)) by (intros; ring).
  apply (is_derive_rsum D (fun s x => k x q s * k x t s)). intros s Hs.
  apply (is_derive_Rmult (fun x : R => k x q s) (fun x => k x t s)); auto.
Qed.

Lemma ksq_expand : forall D k v, ksq D k v = rsum D (fun p => rsum D (fun q => IZR (v p) * IZR (v q) * rsum D (fun s => k p s * k q s))).
Proof.
  intros D k v. unfold ksq.
  transitivity (rsum D (fun j => rsum D (fun p => rsum D (fun q => IZR (v p) * IZR (v q) * (k p j * k q j))))).
  { apply rsum_ext. intros j Hj. cbv zeta. rewrite <- rsum_scal_r. apply rsum_ext. intros p Hp. rewrite <- rsum_scal. apply rsum_ext. intros; ring. }
  rewrite rsum_swap. apply rsum_ext. intros p Hp. rewrite rsum_swap. apply rsum_ext. intros q Hq. rewrite rsum_scal. auto.
Qed.

Lemma ksq_derive : forall D (k : R -> nat -> nat -> R) (x0 : R) (dkk : nat -> nat -> R) v,
  (forall q t, (q < D)%nat -> (t < D)%nat -> is_derive (fun x => rsum D (fun s => k x q s * k x t s)) x0 (dkk q t)) ->
  is_derive (fun x => ksq D (k x) v) x0 (rsum D (fun p => rsum D (fun q => IZR (v p) * IZR (v q) * dkk p q))).
Proof.
  intros D k x0 dkk v H.
  apply is_derive_ext with (fun x => rsum D (fun p => rsum D (fun q => IZR (v p) * IZR (v q) * rsum D (fun s => k x p s * k x q s)))).
  { intros x. symmetry. apply ksq_expand. }
  apply (is_derive_rsum D (fun p x => rsum D (fun q => IZR (v p) * IZR (v q) * rsum D (fun s => k x p s * k x q s)))).
  intros p Hp. apply (is_derive_rsum D (fun q x => IZR (v p) * IZR (v q) * rsum D (fun s => k x p s * k x q s))).
  intros q Hq. apply (is_derive_scal (fun x => rsum D (fun s => k x p s * k x q s))). auto.
Qed.
