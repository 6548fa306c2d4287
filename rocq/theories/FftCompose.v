(** Operators that are diagonal in k with an even multiplier compose. *)
From Coq Require Import Reals ZArith List Bool Arith Lia Lra.
From Verif Require Import Base RSum MeshSpec Mesh MeshProofs Fft FftProofs Rpc.
Import ListNotations.
Local Open Scope R_scope.

(** A function of the points of the half grid that comes from an even function of
    the wavevector, as |k|^2 does. *)
Definition evenOn (dims : list Z) (e : nat -> R) : Prop :=
  exists g : list Z -> R, (forall p, in_box dims p -> g (negmod dims p) = g p) /\
    forall k, (k < nK dims)%nat -> e k = g (gridPos (computeKMesh dims) k).

Lemma phase_sym : forall dims k r, phase dims k r = phase dims r k.
Proof.
  induction dims as [|d ds IH]; intros [|a k] [|b r]; cbn [phase]; auto. rewrite (IH k r), (Z.mul_comm a b). reflexivity.
Qed.

Section F.
Variable dims : list Z.
Hypothesis Hne : dims <> [].
Hypothesis HP : positive dims.
Notation N := (nR dims).
Definition psi (p r : nat) : R := phase dims (gridPos dims p) (gridPos dims r).

Lemma pos_len : forall r, (r < N)%nat -> length (gridPos dims r) = length dims.
Proof. intros r Hr. apply in_box_length. apply gridPos_in_box; auto. Qed.

Lemma orth : forall p p' phi, (p < N)%nat -> (p' < N)%nat ->
  rsum N (fun t => cos (psi p' t - psi p t + phi)) = if (p =? p')%nat then INR N * cos phi else 0.
Proof.
  intros p p' phi Hp Hp'. assert (Lp := pos_len p Hp). assert (Lp' := pos_len p' Hp').
  rewrite (rsum_ext N _ (fun t => (fun k => cos (phase dims k (subZ (gridPos dims p') (gridPos dims p)) + phi)) (gridPos dims t))).
  2:{ intros t Ht. cbv beta. unfold psi. rewrite phase_sub by (auto; now apply pos_len).
      now rewrite (phase_sym dims (gridPos dims p')), (phase_sym dims (gridPos dims p)). }
  rewrite (nR_msum dims (fun k => cos (phase dims k (subZ (gridPos dims p') (gridPos dims p)) + phi))) by auto. rewrite cos_sum by (auto; rewrite subZ_length; congruence).
  rewrite <- (proj1 (INR_nR dims HP)).
  assert (Z := zero_mod_sub dims _ _ (gridPos_in_box dims p' HP Hp') (gridPos_in_box dims p HP Hp)).
  destruct (zero_mod dims _).
  - assert (E := proj1 Z eq_refl). apply gridPos_inj in E; auto. subst. now rewrite Nat.eqb_refl.
  - destruct (Nat.eqb_spec p p'); auto. subst. assert (true = false); [|discriminate]. symmetry. now apply Z.
Qed.

Section E.
Variable g : list Z -> R.
Hypothesis Hg : forall p, in_box dims p -> g (negmod dims p) = g p.
Definition kern (r s : nat) : R := rsum N (fun p => g (gridPos dims p) * cos (psi p r - psi p s)).

Lemma kern_even : forall r s, (r < N)%nat -> (s < N)%nat -> rsum N (fun p => g (gridPos dims p) * sin (psi p r - psi p s)) = 0.
Proof.
  intros r s Hr Hs. unfold psi.
  rewrite (nR_msum dims (fun p => g p * sin (phase dims p (gridPos dims r) - phase dims p (gridPos dims s)))) by auto.
  set (G := fun p => g p * sin (phase dims p (gridPos dims r) - phase dims p (gridPos dims s))).
  assert (A : msum dims (fun p => G (negmod dims p)) = msum dims G) by (apply msum_neg; auto).
  assert (B : msum dims (fun p => G (negmod dims p)) = msum dims (fun p => -1 * G p)).
  { apply msum_ext. intros p Hp. unfold G. rewrite Hg by auto. assert (Lp := in_box_length _ _ Hp).
    destruct (phase_neg dims p (gridPos dims r) HP Lp (pos_len r Hr)) as [z1 Z1].
    destruct (phase_neg dims p (gridPos dims s) HP Lp (pos_len s Hs)) as [z2 Z2].
    rewrite Z1, Z2.
    replace (- phase dims p (gridPos dims r) + 2 * PI * IZR z1 - (- phase dims p (gridPos dims s) + 2 * PI * IZR z2))
      with (- (phase dims p (gridPos dims r) - phase dims p (gridPos dims s)) + 2 * PI * IZR (z1 - z2))
      by (rewrite minus_IZR; lra).
    rewrite sin_2PIZ, sin_neg. ring. }
  rewrite msum_scal in B. lra.
Qed.

Lemma kern_half : forall r s, (r < N)%nat -> (s < N)%nat ->
  rsum (nK dims) (fun k => c2rWeight dims k * g (gridPos (computeKMesh dims) k) * cos (theta dims k r - theta dims k s)) = kern r s.
Proof.
  intros r s Hr Hs. unfold kern, psi, theta, c2rWeight.
  rewrite (nR_msum dims (fun p => g p * cos (phase dims p (gridPos dims r) - phase dims p (gridPos dims s)))) by auto.
  rewrite <- half_sum; auto.
  - rewrite <- nK_msum by auto. apply rsum_ext. intros k _. ring.
  - intros p Hp. rewrite Hg by auto. f_equal. assert (Lp := in_box_length _ _ Hp).
    destruct (phase_neg dims p (gridPos dims r) HP Lp (pos_len r Hr)) as [z1 Z1].
    destruct (phase_neg dims p (gridPos dims s) HP Lp (pos_len s Hs)) as [z2 Z2].
    rewrite Z1, Z2.
    replace (- phase dims p (gridPos dims r) + 2 * PI * IZR z1 - (- phase dims p (gridPos dims s) + 2 * PI * IZR z2))
      with (- (phase dims p (gridPos dims r) - phase dims p (gridPos dims s)) + 2 * PI * IZR (z1 - z2))
      by (rewrite minus_IZR; lra).
    rewrite cos_2PIZ. apply cos_neg.
Qed.

Lemma kOp_kern : forall e f r, (forall k, (k < nK dims)%nat -> e k = g (gridPos (computeKMesh dims) k)) -> (r < N)%nat ->
  kOp dims e f r = rsum N (fun s => f s * (1 / INR N) * kern r s).
Proof.
  intros e f r He Hr. unfold kOp. rewrite fft_kernel. apply rsum_ext. intros s Hs. f_equal.
  rewrite <- kern_half by auto. apply rsum_ext. intros k Hk. now rewrite He.
Qed.
End E.

Lemma kern_compose : forall g g' r s,
  (forall p, in_box dims p -> g (negmod dims p) = g p) -> (forall p, in_box dims p -> g' (negmod dims p) = g' p) ->
  (r < N)%nat -> (s < N)%nat ->
  rsum N (fun t => 1 / INR N * kern g r t * kern g' t s) = kern (fun p => g p * g' p) r s.
Proof.
  intros g g' r s Hg Hg' Hr Hs. destruct (INR_nR dims HP) as [_ PN].
  rewrite (rsum_ext N _ (fun t => rsum N (fun p => rsum N (fun p' => 1 / INR N * (g (gridPos dims p) * g' (gridPos dims p')) * cos (psi p' t - psi p t + (psi p r - psi p' s)))))).
  - rewrite rsum_swap. unfold kern. apply rsum_ext. intros p Hp. rewrite rsum_swap.
    rewrite (rsum_ext N _ (fun p' => 1 / INR N * (g (gridPos dims p) * g' (gridPos dims p')) * if (p =? p')%nat then INR N * cos (psi p r - psi p' s) else 0)).
    2:{ intros p' Hp'. rewrite rsum_scal. f_equal. now apply orth. }
    rewrite (rsum_single N p); auto.
    + rewrite Nat.eqb_refl. field. lra.
    + intros p' _ NE. destruct (Nat.eqb_spec p p'); [congruence|ring].
  - intros t Ht.
    transitivity (1 / INR N * (kern g r t * kern g' t s - rsum N (fun p => g (gridPos dims p) * sin (psi p r - psi p t)) * rsum N (fun p => g' (gridPos dims p) * sin (psi p t - psi p s)))).
    { rewrite (kern_even g Hg r t), (kern_even g' Hg' t s) by auto. ring. }
    unfold kern. rewrite <- !rsum_scal_r. rewrite <- rsum_minus, <- rsum_scal. apply rsum_ext. intros p _.
    rewrite !Rmult_assoc, <- !rsum_scal, <- rsum_minus, <- rsum_scal. apply rsum_ext. intros p' _.
    replace (psi p' t - psi p t + (psi p r - psi p' s)) with ((psi p r - psi p t) + (psi p' t - psi p' s)) by ring.
    rewrite cos_plus. ring.
Qed.

Lemma kOp_compose : forall e e' f r, evenOn dims e -> evenOn dims e' -> (r < N)%nat ->
  kOp dims e (kOp dims e' f) r = kOp dims (fun k => e k * e' k) f r.
Proof.
  intros e e' f r [g [Hg He]] [g' [Hg' He']] Hr.
  rewrite (kOp_kern g Hg e) by auto.
  rewrite (kOp_kern (fun p => g p * g' p)) by (auto; intros; rewrite ?Hg, ?Hg', ?He, ?He'; auto).
  rewrite (rsum_ext N _ (fun t => rsum N (fun s => f s * (1 / INR N) * (1 / INR N * kern g r t * kern g' t s)))).
  - rewrite rsum_swap. apply rsum_ext. intros s Hs. rewrite rsum_scal. f_equal. apply kern_compose; auto.
  - intros t Ht. rewrite (kOp_kern g' Hg' e' f t He' Ht), <- !rsum_scal_r. apply rsum_ext. intros s _. ring.
Qed.

Lemma kOp_one : forall f r, (r < N)%nat -> kOp dims (fun _ => 1) f r = f r.
Proof.
  intros f r Hr. rewrite <- (fft_inverse_forward dims f r Hne HP Hr). unfold kOp, fftInverse, mulK.
  apply rsum_ext. intros. cbn [fst snd]. ring.
Qed.
End F.

Lemma even_comp : forall dims e (h : R -> R), evenOn dims e -> evenOn dims (fun k => h (e k)).
Proof. intros dims e h [g [A B]]. exists (fun p => h (g p)). split; intros; [now rewrite A|now rewrite B]. Qed.
