(** Derivative of the tail of one block of beads. *)
From Coq Require Import Reals ZArith List Bool Arith Lia Lra.
From Coquelicot Require Import Coquelicot.
From Coq Require Import List.
From Verif Require Import Base RSum UnitCellProofs Polymer Solve SolveProofs Fft FftProofs R1d R1dProofs Rpc RpcProofs
  Stress TreeDerivative.
Import ListNotations.
Local Open Scope R_scope.

Section B.
Variable dims : list Z.
Notation n := (nR dims).
Notation wt := (fun _ : nat => 1 / INR (nR dims)).
Notation avg := (wavg (nR dims) (fun _ : nat => 1 / INR (nR dims))).

(** Parseval: an operator diagonal in k between two fields. *)
Lemma kOp_parseval : forall e f g,
  avg (kOp dims e f) g = waveSum dims (fun m => c2rWeight dims m * e m) f g.
Proof.
  intros e f g. unfold wavg, waveSum, kOp, fftForward, fftInverse, mulK. cbn [fst snd].
  set (C := fun (h : field) k => rsum n (fun r => h r * cos (theta dims k r))).
  set (S := fun (h : field) k => rsum n (fun r => h r * sin (theta dims k r))).
  set (a := 1 / INR n).
  rewrite (rsum_ext n _ (fun i => rsum (nK dims) (fun k =>
     a * c2rWeight dims k * e k * (C f k * a) * (g i * cos (theta dims k i)) +
     a * c2rWeight dims k * e k * (S f k * a) * (g i * sin (theta dims k i))))).
  2:{ intros i _. fold (C f) (S f). rewrite <- rsum_scal_r, <- rsum_scal. apply rsum_ext. intros k _. fold (C f k) (S f k). ring. }
  rewrite rsum_swap. apply rsum_ext. intros k _. rewrite rsum_plus, !rsum_scal.
  fold (C g k) (S g k) (C f k) (S f k). ring.
Qed.
Lemma waveSum_ext : forall e e' f g, (forall m, (m < nK dims)%nat -> e m = e' m) -> waveSum dims e f g = waveSum dims e' f g.
Proof. intros. unfold waveSum. apply rsum_ext. intros. now rewrite H. Qed.
Lemma waveSum_comm : forall e f g, waveSum dims e f g = waveSum dims e g f.
Proof. intros. unfold waveSum. apply rsum_ext. intros. ring. Qed.
Lemma waveSum_scal : forall c e f g, waveSum dims (fun m => e m * c) f g = waveSum dims e f g * c.
Proof. intros. unfold waveSum. rewrite <- rsum_scal_r. apply rsum_ext. intros. ring. Qed.

Lemma avg_plus : forall f f' g, avg (fun i => f i + f' i) g = avg f g + avg f' g.
Proof. intros. unfold wavg. rewrite <- rsum_plus. apply rsum_ext. intros. ring. Qed.
Lemma avg_opp : forall f g, avg (fun i => - f i) g = - avg f g.
Proof. intros. unfold wavg. rewrite <- rsum_opp. apply rsum_ext. intros. ring. Qed.
Lemma avg_eq : forall f g f' g', (forall i, (i < n)%nat -> f i = f' i) -> (forall i, (i < n)%nat -> g i = g' i) -> avg f g = avg f' g'.
Proof. intros. unfold wavg. apply rsum_ext. intros. now rewrite H, H0. Qed.

Variable t0 : R.

Lemma kOp_derive : forall (e : nat -> R -> R) de (f : R -> field) df,
  (forall k, (k < nK dims)%nat -> is_derive (e k) t0 (de k)) ->
  (forall i, (i < n)%nat -> is_derive (fun t => f t i) t0 (df i)) ->
  forall i, is_derive (fun t => kOp dims (fun k => e k t) (f t) i) t0
     (kOp dims de (f t0) i + kOp dims (fun k => e k t0) df i).
Proof.
  intros e de f df E F i. unfold kOp.
  apply (is_derive_ext (fun t => rsum n (fun s => f t s * (1 / INR n) *
    rsum (nK dims) (fun k => c2rWeight dims k * e k t * cos (theta dims k i - theta dims k s))))).
  { intros t. symmetry. apply fft_kernel. }
  rewrite !fft_kernel. rewrite <- rsum_plus.
  rewrite (rsum_ext n _ (fun s => df s * (1 / INR n) *
      rsum (nK dims) (fun k => c2rWeight dims k * e k t0 * cos (theta dims k i - theta dims k s))
    + f t0 s * (1 / INR n) * rsum (nK dims) (fun k => c2rWeight dims k * de k * cos (theta dims k i - theta dims k s)))).
  2:{ intros s _. ring. }
  apply (is_derive_rsum n (fun s t => f t s * (1 / INR n) * rsum (nK dims) (fun k => c2rWeight dims k * e k t * cos (theta dims k i - theta dims k s)))).
  intros s Hs.
  apply (is_derive_Rmult (fun t => f t s * (1 / INR n))).
  - apply (is_derive_ext (fun t => 1 / INR n * f t s)). { intros t. apply Rmult_comm. }
    rewrite Rmult_comm. apply (is_derive_scal (fun t => f t s)). auto.
  - apply (is_derive_rsum (nK dims) (fun k t => c2rWeight dims k * e k t * cos (theta dims k i - theta dims k s))).
    intros k Hk.
    apply (is_derive_ext (fun t => (c2rWeight dims k * cos (theta dims k i - theta dims k s)) * e k t)).
    { intros t. match goal with |- ?a = ?b => change (@eq R a b) end. ring. }
    replace (c2rWeight dims k * de k * cos (theta dims k i - theta dims k s))
      with ((c2rWeight dims k * cos (theta dims k i - theta dims k s)) * de k) by ring.
    apply (is_derive_scal (e k)). auto.
Qed.

(** One block; fields and wavenumbers depend on t. *)
Variables (kuhn : R) (w : nat -> R -> R) (dw : nat -> R) (kSq : nat -> R -> R) (dk : nat -> R) (nb : nat).
Hypothesis Hnb : (1 <= nb)%nat.
Hypothesis Hw : forall i, (i < n)%nat -> is_derive (w i) t0 (dw i).
Hypothesis Hk : forall k, (k < nK dims)%nat -> is_derive (kSq k) t0 (dk k).
Notation kAt t := (fun k => kSq k t).
Notation wAt t := (fun i => w i t).
Notation W0 := (stepFieldB (wAt t0)).
Notation B0 := (stepBond dims (kAt t0) kuhn).
Notation WB0 := (stepBead dims (kAt t0) kuhn (wAt t0)).

Definition bSq6 := kuhn * kuhn / 6.
Definition dFull (k : nat) : R := - (bSq6 * dk k) * expKsq (kAt t0) Bead kuhn 1 k.
Definition dHalf (k : nat) : R := - (1/2 * bSq6 * dk k) * expKsq2 (kAt t0) Bead kuhn 1 k.

Lemma expKsq_derive : forall k, (k < nK dims)%nat -> is_derive (fun t => expKsq (kAt t) Bead kuhn 1 k) t0 (dFull k).
Proof.
  intros k K. unfold dFull, expKsq, bSqFactor.
  replace (- (bSq6 * dk k)) with ((-1 * kuhn * kuhn / 6) * dk k) by (unfold bSq6; field).
  apply (is_derive_comp exp (fun t => kSq k t * (-1 * kuhn * kuhn / 6))); [apply is_derive_exp|].
  apply (is_derive_ext (fun t => (-1 * kuhn * kuhn / 6) * kSq k t)). { intros; apply Rmult_comm. }
  apply (is_derive_scal (kSq k)). auto.
Qed.
Lemma expKsq2_derive : forall k, (k < nK dims)%nat -> is_derive (fun t => expKsq2 (kAt t) Bead kuhn 1 k) t0 (dHalf k).
Proof.
  intros k K. unfold dHalf, expKsq2, bSqFactor.
  replace (- (1/2 * bSq6 * dk k)) with ((1/2 * (-1 * kuhn * kuhn / 6)) * dk k) by (unfold bSq6; field).
  apply (is_derive_comp exp (fun t => 1/2 * (kSq k t * (-1 * kuhn * kuhn / 6)))); [apply is_derive_exp|].
  apply (is_derive_ext (fun t => (1/2 * (-1 * kuhn * kuhn / 6)) * kSq k t)).
  { intros t. match goal with |- ?a = ?b => change (@eq R a b) end. ring. }
  apply (is_derive_scal (kSq k)). auto.
Qed.
Lemma expW_derive : forall i, (i < n)%nat -> is_derive (fun t => expW Bead 1 (wAt t) i) t0 (- dw i * exp (- w i t0)).
Proof.
  intros i I. unfold expW. apply (is_derive_comp exp (fun t => - w i t)); [apply is_derive_exp|].
  apply (is_derive_opp (w i)). auto.
Qed.

Definition dEnd (e : bool) (f : field) : field := if e then fun _ => 0 else kOp dims dHalf f.
Lemma endOp_derive : forall e (f : R -> field) df,
  (forall i, (i < n)%nat -> is_derive (fun t => f t i) t0 (df i)) ->
  forall i, (i < n)%nat -> is_derive (fun t => endOp dims (kAt t) kuhn e (f t) i) t0
     (dEnd e (f t0) i + endOp dims (kAt t0) kuhn e df i).
Proof.
  intros [] f df F i I; unfold endOp, dEnd.
  - rewrite Rplus_0_l. auto.
  - unfold stepHalfBond. apply (kOp_derive (fun k t => expKsq2 (kAt t) Bead kuhn 1 k)); auto. intros. now apply expKsq2_derive.
Qed.
Lemma bond_derive : forall (f : R -> field) df,
  (forall i, (i < n)%nat -> is_derive (fun t => f t i) t0 (df i)) ->
  forall i, (i < n)%nat -> is_derive (fun t => stepBond dims (kAt t) kuhn (f t) i) t0
     (kOp dims dFull (f t0) i + B0 df i).
Proof.
  intros f df F i I. unfold stepBond. apply (kOp_derive (fun k t => expKsq (kAt t) Bead kuhn 1 k)); auto. intros. now apply expKsq_derive.
Qed.
Lemma field_derive : forall (f : R -> field) df,
  (forall i, (i < n)%nat -> is_derive (fun t => f t i) t0 (df i)) ->
  forall i, (i < n)%nat -> is_derive (fun t => stepFieldB (wAt t) (f t) i) t0 (W0 df i + - (dw i * W0 (f t0) i)).
Proof.
  intros f df F i I. unfold stepFieldB.
  replace (df i * expW Bead 1 (wAt t0) i + - (dw i * (f t0 i * expW Bead 1 (wAt t0) i)))
    with (df i * expW Bead 1 (wAt t0) i + f t0 i * (- dw i * exp (- w i t0))) by (unfold expW; ring).
  apply (is_derive_Rmult (fun t => f t i) (fun t => expW Bead 1 (wAt t) i)); auto. now apply expW_derive.
Qed.

(** One step, paired with a field g e^w. *)
Lemma pair_field : forall f g, avg (W0 f) (fun i => g i * expWInv (wAt t0) i) = avg f g.
Proof.
  intros. apply wavg_ext. intros i. unfold stepFieldB, expW, expWInv. field.
  assert (P := exp_pos (- w i t0)). lra.
Qed.
Lemma expW_cancel : forall f i, W0 f i * expWInv (wAt t0) i = f i.
Proof.
  intros. unfold stepFieldB, expW, expWInv. field. assert (P := exp_pos (- w i t0)). lra.
Qed.

Section X.
Variables (he te : bool) (h : R -> field) (dh h' : field).
Hypothesis Hh : forall i, (i < n)%nat -> is_derive (fun t => h t i) t0 (dh i).

(** Slices of the propagator, and of its partner at t0; slice j is beadAt (j-1). *)
Definition beadAt (t : R) (k : nat) : field :=
  Nat.iter k (stepBead dims (kAt t) kuhn (wAt t)) (stepFieldB (wAt t) (endOp dims (kAt t) kuhn he (h t))).
Definition partnerAt (k : nat) : field := Nat.iter k WB0 (W0 (endOp dims (kAt t0) kuhn te h')).

Definition fieldTerm (k : nat) : R :=
  avg (fun i => dw i * beadAt t0 k i) (fun i => partnerAt (nb - 1 - k) i * expWInv (wAt t0) i).
Definition bondTerm (k : nat) : R := avg (kOp dims dFull (beadAt t0 k)) (partnerAt (nb - 2 - k)).

Lemma bead_step : forall k, (k < nb)%nat -> exists dS,
  (forall i, (i < n)%nat -> is_derive (fun t => beadAt t k i) t0 (dS i)) /\
  avg dS (fun i => partnerAt (nb - 1 - k) i * expWInv (wAt t0) i) =
    avg dh (endOp dims (kAt t0) kuhn he (partnerAt (nb - 1))) + avg (dEnd he (h t0)) (partnerAt (nb - 1))
    - rsum (S k) fieldTerm + rsum k bondTerm.
Proof.
  induction k as [|k IH]; intros K.
  - assert (D := field_derive _ _ (endOp_derive he h dh Hh)).
    exists (fun i => W0 (fun i => dEnd he (h t0) i + endOp dims (kAt t0) kuhn he dh i) i + - (dw i * W0 (endOp dims (kAt t0) kuhn he (h t0)) i)).
    split; [exact D|].
    rewrite (avg_plus (W0 _)). rewrite pair_field, avg_plus, avg_opp.
    rewrite (endOp_adj dims (kAt t0) kuhn he dh). rewrite Nat.sub_0_r. cbn [rsum].
    unfold fieldTerm. rewrite Nat.sub_0_r. unfold beadAt at 1. cbn [Nat.iter nat_rect]. ring.
  - destruct (IH ltac:(lia)) as [dS [D E]].
    assert (D2 := field_derive _ _ (bond_derive _ _ D)).
    exists (fun i => W0 (fun i => kOp dims dFull (beadAt t0 k) i + B0 dS i) i + - (dw i * W0 (B0 (beadAt t0 k)) i)).
    split; [exact D2|].
    rewrite (avg_plus (W0 _)). rewrite pair_field, avg_plus, avg_opp.
    rewrite (B_adj dims (kAt t0) kuhn dS).
    assert (SS : avg dS (B0 (partnerAt (nb - 1 - S k))) = avg dS (fun i => partnerAt (nb - 1 - k) i * expWInv (wAt t0) i)).
    { apply avg_eq; auto. intros i _. replace (nb - 1 - k)%nat with (S (nb - 1 - S k)) by lia.
      unfold partnerAt at 2. cbn [Nat.iter nat_rect]. unfold stepBead at 1. now rewrite expW_cancel. }
    rewrite SS, E.
    change (rsum (S (S k)) fieldTerm) with (rsum (S k) fieldTerm + fieldTerm (S k)).
    change (rsum (S k) bondTerm) with (rsum k bondTerm + bondTerm k).
    assert (B1 : bondTerm k = avg (kOp dims dFull (beadAt t0 k)) (partnerAt (nb - 1 - S k))).
    { unfold bondTerm. replace (nb - 2 - k)%nat with (nb - 1 - S k)%nat by lia. reflexivity. }
    assert (F1 : fieldTerm (S k) = avg (fun i => dw i * W0 (B0 (beadAt t0 k)) i) (fun i => partnerAt (nb - 1 - S k) i * expWInv (wAt t0) i)) by reflexivity.
    rewrite B1, F1. ring.
Qed.

Lemma block_derivative : exists dT,
  (forall i, (i < n)%nat -> is_derive (fun t => last (beadSlices dims (kAt t) nb kuhn (wAt t) he te (h t)) zero_field i) t0 (dT i)) /\
  avg dT h' = avg dh (last (beadSlices dims (kAt t0) nb kuhn (wAt t0) te he h') zero_field)
    + (avg (dEnd he (h t0)) (partnerAt (nb - 1)) + rsum (nb - 1) bondTerm + avg (dEnd te (beadAt t0 (nb - 1))) h'
       - rsum nb fieldTerm).
Proof.
  destruct (bead_step (nb - 1) ltac:(lia)) as [dS [D E]].
  assert (D2 := endOp_derive te _ _ D).
  exists (fun i => dEnd te (beadAt t0 (nb - 1)) i + endOp dims (kAt t0) kuhn te dS i). split.
  - intros i I. eapply is_derive_ext; [|exact (D2 i I)].
    intros t. cbv beta. rewrite last_beadSlices by auto. reflexivity.
  - rewrite avg_plus, (endOp_adj dims (kAt t0) kuhn te dS).
    assert (SS : avg dS (endOp dims (kAt t0) kuhn te h') = avg dS (fun i => partnerAt (nb - 1 - (nb - 1)) i * expWInv (wAt t0) i)).
    { apply avg_eq; auto. intros i _. rewrite Nat.sub_diag. unfold partnerAt. cbn [Nat.iter nat_rect]. now rewrite expW_cancel. }
    rewrite SS, E, last_beadSlices by auto. replace (S (nb - 1)) with nb by lia.
    fold (partnerAt (nb - 1)). ring.
Qed.
End X.
End B.
