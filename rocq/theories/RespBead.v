(** First-order response of the propagators of the bead model to a common change of
    all fields: amplitudes that are functions of |k|^2. *)
From Coq Require Import Reals ZArith List Bool Arith Lia Lra.
From Coquelicot Require Import Coquelicot.
From Coq Require Import List.
From Verif Require Import Base RSum MeshSpec UnitCellProofs Polymer PolymerSpec PolymerProofs PropsPolymer Solve SolveProofs Species Fft FftProofs
  R1d R1dProofs PropsR1d Rpc RpcProofs PropsRpc FftCompose Stress TreeDerivative BeadDerivative PropsUniform PropsDebye IntraSpec RespTree.
Import ListNotations.
Local Open Scope R_scope.

Section K.
Variable dims : list Z.
Hypothesis Hne : dims <> [].
Hypothesis HP : positive dims.
Notation N := (nR dims).

Lemma kOp_ext : forall e e' f f', (forall k, (k < nK dims)%nat -> e k = e' k) -> (forall i, (i < N)%nat -> f i = f' i) ->
  forall i, kOp dims e f i = kOp dims e' f' i.
Proof.
  intros e e' f f' HE HF i. unfold kOp. rewrite !fft_kernel. apply rsum_ext. intros s Hs. rewrite HF by auto. f_equal.
  apply rsum_ext. intros k Hk. now rewrite HE.
Qed.
Lemma kOp_scal : forall e c f i, kOp dims e (fun j => c * f j) i = c * kOp dims e f i.
Proof. intros. unfold kOp. rewrite !fft_kernel, <- rsum_scal. apply rsum_ext. intros. ring. Qed.
Lemma kOp_sum_e : forall e e' f i, kOp dims (fun k => e k + e' k) f i = kOp dims e f i + kOp dims e' f i.
Proof.
  intros. unfold kOp. rewrite !fft_kernel, <- rsum_plus. apply rsum_ext. intros s _. rewrite <- Rmult_plus_distr_l, <- rsum_plus. f_equal.
  apply rsum_ext. intros. ring.
Qed.
Lemma kOp_scal_e : forall c e f i, kOp dims (fun k => c * e k) f i = c * kOp dims e f i.
Proof.
  intros. unfold kOp. rewrite !fft_kernel, <- rsum_scal. apply rsum_ext. intros s _. rewrite <- Rmult_assoc, (Rmult_comm c), !Rmult_assoc. f_equal. f_equal.
  rewrite <- rsum_scal. apply rsum_ext. intros. ring.
Qed.
Lemma kOp_zero_e : forall f i, kOp dims (fun _ => 0) f i = 0.
Proof. intros. rewrite (kOp_ext (fun _ => 0) (fun k => 0 * (fun _ => 0) k) f f) by (intros; auto; ring). rewrite kOp_scal_e. ring. Qed.
Lemma kOp_uniform : forall e c f, (forall i, (i < N)%nat -> f i = c) -> forall i, kOp dims e f i = e O * c.
Proof. intros e c f Hf i. rewrite (kOp_ext e e f (fun _ => c)) by auto. apply kOp_const; auto. Qed.
(** The average of the result *)
Lemma kOp_avg : forall e f, rsum N (kOp dims e f) = e O * rsum N f.
Proof.
  intros e f. pose proof (kOp_selfadj dims e f (fun _ => 1)) as A. unfold wavg in A.
  destruct (INR_nR dims HP) as [_ PN].
  assert (Q : 1 / INR N * rsum N (kOp dims e f) = 1 / INR N * (e O * rsum N f)).
  { rewrite <- rsum_scal. etransitivity; [|etransitivity; [exact A|]].
    - apply rsum_ext. intros. ring.
    - rewrite <- !rsum_scal. apply rsum_ext. intros i _. rewrite (kOp_uniform e 1 (fun _ => 1)) by auto. ring. }
  apply Rmult_eq_reg_l in Q; auto. apply Rmult_integral_contrapositive_currified; [lra|apply Rinv_neq_0_compat; lra].
Qed.
End K.

Section P.
Variables (dims : list Z) (kSq : nat -> R) (phi : field).
Hypothesis Hne : dims <> [].
Hypothesis HP : positive dims.
Hypothesis HK : kSq O = 0.
Hypothesis HE : evenOn dims kSq.
Hypothesis HA : rsum (nR dims) phi = 0.
Notation N := (nR dims).

(** A function of |k|^2 applied to the change of the fields *)
Definition opAt (a : R -> R) (i : nat) : R := kOp dims (fun k => a (kSq k)) phi i.
Lemma opAt_ext : forall a a' i, (forall x, a x = a' x) -> opAt a i = opAt a' i.
Proof. intros a a' i H. apply kOp_ext; auto. Qed.
Lemma opAt_one : forall i, (i < N)%nat -> opAt (fun _ => 1) i = phi i.
Proof. intros. apply kOp_one; auto. Qed.
Lemma opAt_plus : forall a a' i, opAt (fun x => a x + a' x) i = opAt a i + opAt a' i.
Proof. intros. apply (kOp_sum_e dims (fun k => a (kSq k)) (fun k => a' (kSq k))). Qed.
Lemma opAt_scal : forall c a i, opAt (fun x => c * a x) i = c * opAt a i.
Proof. intros. apply (kOp_scal_e dims c (fun k => a (kSq k))). Qed.
Lemma opAt_zero : forall i, opAt (fun _ => 0) i = 0.
Proof. intros. apply kOp_zero_e. Qed.
Lemma opAt_avg : forall a, rsum N (opAt a) = 0.
Proof. intros. change (opAt a) with (kOp dims (fun k => a (kSq k)) phi). rewrite kOp_avg by auto. rewrite HA. ring. Qed.
Lemma opAt_rsum : forall n (a : nat -> R -> R) i, rsum n (fun j => opAt (a j) i) = opAt (fun x => rsum n (fun j => a j x)) i.
Proof.
  induction n; intros; cbn [rsum]; [now rewrite opAt_zero|]. rewrite IHn. symmetry. apply (opAt_plus (fun x => rsum n (fun j => a j x)) (a n)).
Qed.

(** A field that depends on a parameter, uniform at 0, with relative derivative
    opAt a there *)
Definition pert (f : R -> field) (c : R) (a : R -> R) : Prop :=
  (forall i, (i < N)%nat -> f 0 i = c) /\ forall i, (i < N)%nat -> is_derive (fun t => f t i) 0 (c * opAt a i).

Lemma pert_ext : forall f f' c a a', pert f c a -> (forall t i, f t i = f' t i) -> (forall x, a x = a' x) -> pert f' c a'.
Proof.
  intros f f' c a a' [H1 H2] HF HA'. split; [intros; rewrite <- HF; auto|]. intros i Hi.
  apply (is_derive_ext (fun t => f t i)); [intros; apply HF|]. rewrite <- (opAt_ext a a') by auto. auto.
Qed.
Lemma pert_one : pert (fun _ _ => 1) 1 (fun _ => 0).
Proof.
  split; auto. intros i _. rewrite opAt_zero, Rmult_0_r. apply (is_derive_const 1).
Qed.
Lemma pert_kOp : forall (e : R -> R) f c a, e 0 = 1 -> pert f c a ->
  pert (fun t => kOp dims (fun k => e (kSq k)) (f t)) c (fun x => e x * a x).
Proof.
  intros e f c a E1 [H1 H2]. split.
  - intros i Hi. rewrite (kOp_uniform dims Hne HP _ c) by auto. rewrite HK, E1. ring.
  - intros i Hi.
    assert (D := kOp_derive dims 0 (fun k _ => e (kSq k)) (fun _ => 0) f (fun i => c * opAt a i)
      ltac:(intros; apply (is_derive_const (e (kSq k)))) H2 i).
    rewrite kOp_zero_e, Rplus_0_l in D. cbv beta in D.
    replace (c * opAt (fun x => e x * a x) i) with (kOp dims (fun k => e (kSq k)) (fun i => c * opAt a i) i); [exact D|].
    rewrite kOp_scal. f_equal. unfold opAt.
    apply (kOp_compose dims Hne HP (fun k => e (kSq k)) (fun k => a (kSq k))); auto; apply even_comp; auto.
Qed.
Lemma pert_mult : forall f g c d a b, pert f c a -> pert g d b -> pert (fun t i => f t i * g t i) (c * d) (fun x => a x + b x).
Proof.
  intros f g c d a b [F1 F2] [G1 G2]. split; [intros; rewrite F1, G1; auto|]. intros i Hi.
  rewrite opAt_plus. replace (c * d * (opAt a i + opAt b i)) with (c * opAt a i * g 0 i + f 0 i * (d * opAt b i)).
  - apply (is_derive_Rmult (fun t => f t i) (fun t => g t i)); auto.
  - rewrite F1, G1 by auto. ring.
Qed.
Lemma pert_lprod : forall {A} (f : A -> R -> field) c a l, (forall z, In z l -> pert (f z) (c z) (a z)) ->
  pert (fun t i => lprod (fun z => f z t i) l) (lprod c l) (fun x => lsum (fun z => a z x) l).
Proof.
  induction l as [|z l IH]; intros H; cbn [lprod lsum]; [apply pert_one|].
  apply (pert_mult (f z) (fun t i => lprod (fun z => f z t i) l)); [apply H; left; auto|apply IH; intros; apply H; right; auto].
Qed.
Lemma pert_exp : forall s W, pert (fun t i => exp (- (s * (W + t * phi i)))) (exp (- (s * W))) (fun _ => - s).
Proof.
  intros s W. split; [intros; f_equal; ring|]. intros i Hi.
  replace (opAt (fun _ => - s) i) with (- s * phi i).
  - auto_derive; auto. replace (W + 0 * phi i) with W by ring. ring.
  - rewrite (opAt_ext _ (fun x => - s * 1)) by (intros; ring). rewrite (opAt_scal (- s) (fun _ => 1)), opAt_one by auto. ring.
Qed.

(** ** One block *)
Section Block.
Variables (kuhn W : R) (nb : nat) (w : R -> field).
Hypothesis Hnb : (1 <= nb)%nat.
Hypothesis Hw : forall t i, w t i = W + t * phi i.

Definition half (x : R) : R := exp (- (rate x kuhn / 2)).
Definition step (j : nat) (x : R) : R := exp (- (rate x kuhn * INR j)).
Lemma half_0 : half 0 = 1.
Proof. unfold half, rate. replace (- (0 * kuhn ^ 2 / 6 / 2)) with 0 by field. apply exp_0. Qed.
Lemma step_0 : forall j, step j 0 = 1.
Proof. intros. unfold step, rate. replace (- (0 * kuhn ^ 2 / 6 * INR j)) with 0 by field. apply exp_0. Qed.
Lemma step_S : forall j x, step (S j) x = step 1 x * step j x.
Proof. intros. unfold step. rewrite <- exp_plus. f_equal. rewrite S_INR. simpl. ring. Qed.

Lemma pert_fieldB : forall f c a, pert f c a -> pert (fun t => stepFieldB (w t) (f t)) (c * exp (- W)) (fun x => a x - 1).
Proof.
  intros f c a H. pose proof (pert_mult _ _ _ _ _ _ H (pert_exp 1 W)) as M.
  replace (- (1 * W)) with (- W) in M by ring. eapply pert_ext; [exact M| |].
  - intros t i. unfold stepFieldB, expW. rewrite Hw. f_equal. f_equal. ring.
  - intros. cbv beta. ring.
Qed.
Lemma pert_inv : pert (fun t => expWInv (w t)) (exp W) (fun _ => 1).
Proof.
  pose proof (pert_exp (-1) W) as M. replace (- (-1 * W)) with W in M by ring. eapply pert_ext; [exact M| |].
  - intros t i. unfold expWInv. rewrite Hw. replace (- (-1 * (W + t * phi i))) with (- (- (W + t * phi i))) by ring. rewrite exp_Ropp. field.
    apply Rgt_not_eq, exp_pos.
  - intros. cbv beta. ring.
Qed.
Lemma pert_bond : forall f c a, pert f c a -> pert (fun t => stepBond dims kSq kuhn (f t)) c (fun x => step 1 x * a x).
Proof.
  intros f c a H. eapply pert_ext; [apply (pert_kOp (step 1) f c a (step_0 1) H)| |]; [|auto].
  intros t i. unfold stepBond. apply kOp_ext; auto. intros k _. unfold expKsq, bSqFactor, step, rate. f_equal. simpl. field.
Qed.
Lemma pert_half : forall f c a, pert f c a -> pert (fun t => stepHalfBond dims kSq kuhn (f t)) c (fun x => half x * a x).
Proof.
  intros f c a H. eapply pert_ext; [apply (pert_kOp half f c a half_0 H)| |]; [|auto].
  intros t i. unfold stepHalfBond. apply kOp_ext; auto. intros k _. unfold expKsq2, bSqFactor, half, rate. f_equal. simpl. field.
Qed.

Variables (he : bool) (h : R -> field) (c : R) (ah : R -> R).
Hypothesis Hh : pert h c ah.
Hypothesis Hhe : he = true -> forall x, ah x = 0.

Lemma pert_end : pert (fun t => endOp dims kSq kuhn he (h t)) c (fun x => half x * ah x).
Proof.
  unfold endOp. destruct he eqn:EQ.
  - eapply pert_ext; [exact Hh|auto|]. intros x. rewrite Hhe by auto. ring.
  - apply pert_half, Hh.
Qed.
(** The amplitude at bead k *)
Definition ampl (k : nat) (x : R) : R := step k x * (half x * ah x) - rsum (S k) (fun j => step j x).
Lemma pert_bead : forall k, pert (fun t => Nat.iter k (stepBead dims kSq kuhn (w t)) (stepFieldB (w t) (endOp dims kSq kuhn he (h t))))
  (c * exp (- W) ^ S k) (ampl k).
Proof.
  induction k as [|k IH].
  - cbn [Nat.iter nat_rect]. rewrite pow_1. eapply pert_ext; [apply pert_fieldB, pert_end|auto|].
    intros x. unfold ampl, step. cbn [rsum]. simpl INR. rewrite Rmult_0_r, Ropp_0, exp_0. ring.
  - cbn [Nat.iter nat_rect].
    eapply pert_ext with (f := fun t => stepFieldB (w t) (stepBond dims kSq kuhn (Nat.iter k (stepBead dims kSq kuhn (w t)) (stepFieldB (w t) (endOp dims kSq kuhn he (h t)))))).
    + replace (c * exp (- W) ^ S (S k)) with (c * exp (- W) ^ S k * exp (- W)) by (cbn [pow]; ring). apply pert_fieldB, pert_bond, IH.
    + intros t i. reflexivity.
    + intros x. cbv beta. unfold ampl. rewrite (rsum_S_first (S k)), (step_S k x).
      rewrite (rsum_ext (S k) (fun i => step (S i) x) (fun i => step 1 x * step i x)) by (intros; apply step_S). rewrite rsum_scal.
      replace (step 0 x) with 1; [ring|]. unfold step. simpl INR. rewrite Rmult_0_r, Ropp_0, exp_0. reflexivity.
Qed.
Lemma pert_tail : forall b, b = false -> pert (fun t => last (beadSlices dims kSq nb kuhn (w t) he b (h t)) zero_field) (c * exp (- W) ^ nb)
  (fun x => step nb x * ah x - half x * beadEnd (rate x kuhn) nb).
Proof.
  intros b ->. pose proof (pert_half _ _ _ (pert_bead (nb - 1))) as M. replace (S (nb - 1)) with nb in M by lia.
  eapply pert_ext; [exact M| |].
  - intros t i. now rewrite last_beadSlices.
  - intros x. cbv beta. unfold ampl. replace (S (nb - 1)) with nb by lia.
    replace (step nb x) with (half x * half x * step (nb - 1) x); [unfold beadEnd, step; ring|].
    unfold half, step. rewrite <- !exp_plus. f_equal. replace (INR nb) with (INR (nb - 1) + 1) by (rewrite <- S_INR; f_equal; lia). field.
Qed.
End Block.
End P.
