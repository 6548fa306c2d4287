(** The step of the thread model expands like the flow of the modified diffusion
    equation through fourth order. *)
From Coq Require Import Reals ZArith QArith Qreals List Bool Arith Lia Lra.
From Coquelicot Require Import Coquelicot.
From Verif Require Import Base RSum MeshSpec Mesh MeshProofs Fft FftProofs Solve R1d Rpc UnitCellProofs FftCompose Expand ExpandProofs Convergence BeadDerivative.
Import ListNotations.
Local Open Scope R_scope.

Lemma iter_scal : forall n X K c k f i, bop n X K -> (i < n)%nat ->
  Nat.iter k (fun f i => c * X f i) f i = c ^ k * Nat.iter k X f i.
Proof.
  intros n X K c k f i bX. revert i. induction k; intros i Hi; [simpl; ring|].
  change (Nat.iter (S k) (fun f i => c * X f i) f i) with (c * X (Nat.iter k (fun f i => c * X f i) f) i).
  rewrite (bop_ext n X K _ (fun j => c ^ k * Nat.iter k X f j) i bX) by auto.
  rewrite (bop_scal n X K _ _ i bX Hi). change (Nat.iter (S k) X f i) with (X (Nat.iter k X f) i). cbn [pow]. ring.
Qed.

Lemma sexpand_flow : forall n X Y K H x c B' T, 0 <= H -> bop n X K -> bop n Y K ->
  (forall h, 0 <= h <= H -> bop n (T h) B') -> (forall f i, (i < n)%nat -> T 0 f i = f i) ->
  (forall f, solves n (fun g i => Q2R c * lett X Y x g i) (fun t => T t f)) -> sexpand n X Y H T (sexp x c).
Proof.
  intros n X Y K H x c B' T PH bX bY bT T0 S.
  assert (bL : bop n (lett X Y x) K) by now apply bop_lett.
  assert (bA : bop n (fun g i => Q2R c * lett X Y x g i) (Rabs (Q2R c) * K + Rabs 0 * 1)).
  { apply (bop_eq n (fun f i => Q2R c * lett X Y x f i + 0 * f i)).
    - apply (bop_lin n (Q2R c) (lett X Y x) K 0 (fun f => f) 1); [auto|apply bop_id].
    - intros. ring. }
  eapply oexp_eq; [apply (oexp_flow n H _ _ B' T PH bA bT T0 S)|reflexivity|].
  intros k f i Hk Hi. rewrite (peval_sexp X Y). cbv beta. rewrite (iter_scal n (lett X Y x) K (Q2R c) k f i bL Hi). unfold Rdiv. ring.
Qed.

Section T.
Variables (dims : list Z) (kSq : nat -> R) (kuhn : R) (w : field).
Hypothesis Hne : dims <> [].
Hypothesis HP : positive dims.
Hypothesis HE : evenOn dims kSq.
Notation n := (nR dims).

Definition opX (f : field) : field := fun i => - w i * f i.
Definition opY (f : field) : field := kOp dims (fun k => - (kuhn * kuhn / 6) * kSq k) f.

Lemma kOp_lin : forall e c d f g i, kOp dims e (fun j => c * f j + d * g j) i = c * kOp dims e f i + d * kOp dims e g i.
Proof.
  intros. unfold kOp. rewrite !fft_kernel. rewrite <- !rsum_scal, <- rsum_plus. apply rsum_ext. intros. ring.
Qed.
Lemma kOp_bop : forall e E, 0 <= E -> (forall k, (k < nK dims)%nat -> Rabs (e k) <= E) -> bop n (kOp dims e) (INR (nK dims) * (2 * E)).
Proof.
  intros e E PE HEb. destruct (INR_nR dims HP) as [_ PN]. split; [|split].
  - apply Rmult_le_pos; [apply pos_INR|lra].
  - intros c d f g i _. apply kOp_lin.
  - intros f M HM HF i Hi. unfold kOp. rewrite fft_kernel.
    apply Rle_trans with (rsum n (fun s => M * (1 / INR n) * (INR (nK dims) * (2 * E)))).
    2:{ rewrite rsum_const. apply Req_le. field. lra. }
    apply (bnd_rsum 1 n (fun s _ => f s * (1 / INR n) * rsum (nK dims) (fun k => c2rWeight dims k * e k * cos (theta dims k i - theta dims k s)))) with (i := 0%nat); [|lia].
    intros s Hs j _. rewrite !Rabs_mult. rewrite (Rabs_pos_eq (1 / INR n)) by (apply Rdiv_le_0_compat; lra).
    apply Rmult_le_compat.
    + apply Rmult_le_pos; [apply Rabs_pos|apply Rdiv_le_0_compat; lra].
    + apply Rabs_pos.
    + apply Rmult_le_compat_r; [apply Rdiv_le_0_compat; lra|auto].
    + rewrite <- rsum_const. apply (bnd_rsum 1 (nK dims) (fun k _ => c2rWeight dims k * e k * cos (theta dims k i - theta dims k s))) with (i := 0%nat); [|lia].
      intros k Hk l _. rewrite !Rabs_mult. rewrite <- (Rmult_1_r (2 * E)).
      assert (CW : Rabs (c2rWeight dims k) <= 2). { unfold c2rWeight. destruct (_ || _)%bool; rewrite Rabs_pos_eq; lra. }
      apply Rmult_le_compat; [apply Rmult_le_pos; apply Rabs_pos|apply Rabs_pos| |].
      * apply Rmult_le_compat; auto; apply Rabs_pos.
      * apply Rabs_le. apply COS_bound.
Qed.
Lemma fin_bound : forall m (g : nat -> R), exists E, 0 <= E /\ forall k, (k < m)%nat -> Rabs (g k) <= E.
Proof. intros m g. destruct (bnd_exists m g) as [E [A B]]. now exists E. Qed.
Lemma mul_bop : forall (g : field) E, 0 <= E -> (forall i, (i < n)%nat -> Rabs (g i) <= E) -> bop n (fun f i => g i * f i) E.
Proof.
  intros g E PE HB. split; [auto|split].
  - intros c d f h i _. ring.
  - intros f M HM HF i Hi. rewrite Rabs_mult. apply Rmult_le_compat; auto; apply Rabs_pos.
Qed.
Lemma bops : exists K, bop n opX K /\ bop n opY K.
Proof.
  destruct (fin_bound n (fun i => - w i)) as [E [PE HE1]]. destruct (fin_bound (nK dims) (fun k => - (kuhn * kuhn / 6) * kSq k)) as [E' [PE' HE']].
  assert (A := mul_bop (fun i => - w i) E PE HE1). assert (B := kOp_bop _ E' PE' HE').
  exists (Rmax E (INR (nK dims) * (2 * E'))). split.
  - eapply bop_le; [apply A|apply Rmax_l].
  - eapply bop_le; [apply B|apply Rmax_r].
Qed.

(** exp(c h X) and exp(c h Y) as the code applies them. *)
Definition flowW (c : Q) (h : R) (f : field) : field := fun i => f i * exp (- (Q2R c) * h * w i).
Definition flowK (c : Q) (h : R) (f : field) : field := kOp dims (fun k => exp (Q2R c * (kSq k * (-1 * kuhn * kuhn / 6 * h)))) f.

Lemma exp_bound : forall a h H, 0 <= h <= H -> exp (a * h) <= exp (Rabs a * H).
Proof.
  intros a h H Hh. assert (P := Rabs_pos a).
  assert (L : a * h <= Rabs a * H).
  { apply Rle_trans with (Rabs a * h). { apply Rmult_le_compat_r; [lra|apply RRle_abs]. } apply Rmult_le_compat_l; lra. }
  destruct L as [L|L]; [left; now apply exp_increasing|rewrite L; lra].
Qed.

Lemma flowW_expand : forall H c K, 0 <= H -> bop n opX K -> bop n opY K -> sexpand n opX opY H (flowW c) (sexp true c).
Proof.
  intros H c K PH bX bY. destruct (fin_bound n (fun i => exp (Rabs (- (Q2R c) * w i) * H))) as [E [PE HB]].
  apply (sexpand_flow n opX opY K H true c E (flowW c) PH bX bY).
  - intros h Hh. apply (bop_eq n (fun f i => exp (- (Q2R c) * h * w i) * f i)).
    + apply mul_bop; auto. intros i Hi. eapply Rle_trans; [|apply (HB i Hi)].
      rewrite !Rabs_pos_eq by (left; apply exp_pos). replace (- Q2R c * h * w i) with ((- Q2R c * w i) * h) by ring. now apply exp_bound.
    + intros. unfold flowW. ring.
  - intros f i _. unfold flowW. replace (- Q2R c * 0 * w i) with 0 by ring. rewrite exp_0. ring.
  - intros f t i Hi. unfold flowW, lett, opX. auto_derive; [exact I|]. ring.
Qed.

Lemma flowK_expand : forall H c K, 0 <= H -> bop n opX K -> bop n opY K -> sexpand n opX opY H (flowK c) (sexp false c).
Proof.
  intros H c K PH bX bY.
  destruct (fin_bound (nK dims) (fun k => exp (Rabs (Q2R c * (kSq k * (-1 * kuhn * kuhn / 6))) * H))) as [E [PE HB]].
  apply (sexpand_flow n opX opY K H false c (INR (nK dims) * (2 * E)) (flowK c) PH bX bY).
  - intros h Hh. unfold flowK. apply kOp_bop; auto. intros k Hk. eapply Rle_trans; [|apply (HB k Hk)].
    rewrite !Rabs_pos_eq by (left; apply exp_pos).
    replace (Q2R c * (kSq k * (-1 * kuhn * kuhn / 6 * h))) with ((Q2R c * (kSq k * (-1 * kuhn * kuhn / 6))) * h) by (unfold Rdiv; ring).
    now apply exp_bound.
  - intros f i Hi. unfold flowK. transitivity (kOp dims (fun _ => 1) f i); [|now apply kOp_one]. unfold kOp. rewrite !fft_kernel.
    apply rsum_ext. intros s _. f_equal. apply rsum_ext. intros k _. f_equal. f_equal.
    replace (Q2R c * (kSq k * (-1 * kuhn * kuhn / 6 * 0))) with 0 by (unfold Rdiv; ring). apply exp_0.
  - intros f t i Hi. unfold lett, opY.
    set (e := fun k s => exp (Q2R c * (kSq k * (-1 * kuhn * kuhn / 6 * s)))).
    set (de := fun k => Q2R c * (- (kuhn * kuhn / 6) * kSq k) * e k t).
    assert (D := kOp_derive dims t e de (fun _ => f) (fun _ => 0)
      ltac:(intros k _; unfold e, de, e; auto_derive; [exact I|]; match goal with |- ?a = ?b => change (@eq R a b) end; field)
      ltac:(intros j _; apply (is_derive_const (f j))) i).
    replace (Q2R c * kOp dims (fun k => - (kuhn * kuhn / 6) * kSq k) (flowK c t f) i)
      with (kOp dims de f i + kOp dims (fun k => e k t) (fun _ => 0) i); [exact D|].
    replace (kOp dims (fun k => e k t) (fun _ => 0) i) with 0.
    2:{ unfold kOp. rewrite fft_kernel. symmetry. transitivity (rsum n (fun _ => 0)); [|apply rsum_zero]. apply rsum_ext. intros. ring. }
    unfold flowK. rewrite (kOp_compose dims Hne HP); auto.
    + rewrite Rplus_0_r. unfold kOp. rewrite !fft_kernel, <- rsum_scal. apply rsum_ext. intros s _.
      rewrite <- !rsum_scal. apply rsum_ext. intros k _. unfold de, e. ring.
    + apply (even_comp dims kSq (fun x => - (kuhn * kuhn / 6) * x) HE).
    + apply (even_comp dims kSq (fun x => exp (Q2R c * (x * (-1 * kuhn * kuhn / 6 * t)))) HE).
Qed.

(** Richardson extrapolation of the split step, as computed by the code. *)
Lemma step_flows : forall h f i, stepThread dims kSq kuhn h w f i =
  Q2R (4#3) * flowW (1#4) h (flowK (1#2) h (flowW (1#2) h (flowK (1#2) h (flowW (1#4) h f)))) i
  + Q2R (-1#3) * flowW (1#2) h (flowK 1 h (flowW (1#2) h f)) i.
Proof.
  intros h f i.
  assert (W2 : forall g, (fun j => g j * expW Thread h w j) = flowW (1#2) h g).
  { intros g. apply FunctionalExtensionality.functional_extensionality. intros j. unfold flowW, expW. try (f_equal; try (f_equal; unfold Q2R; cbn; field)). }
  assert (W4 : forall g, (fun j => g j * expW2 h w j) = flowW (1#4) h g).
  { intros g. apply FunctionalExtensionality.functional_extensionality. intros j. unfold flowW, expW2. try (f_equal; try (f_equal; unfold Q2R; cbn; field)). }
  assert (K1 : expKsq kSq Thread kuhn h = (fun k => exp (Q2R 1 * (kSq k * (-1 * kuhn * kuhn / 6 * h))))).
  { apply FunctionalExtensionality.functional_extensionality. intros k. unfold expKsq, bSqFactor. try (f_equal; unfold Q2R; cbn; field). }
  assert (K2 : expKsq2 kSq Thread kuhn h = (fun k => exp (Q2R (1#2) * (kSq k * (-1 * kuhn * kuhn / 6 * h))))).
  { apply FunctionalExtensionality.functional_extensionality. intros k. unfold expKsq2, bSqFactor. try (f_equal; unfold Q2R; cbn; field). }
  unfold stepThread. rewrite K1, K2. rewrite !W4, !W2.
  change (kOp dims (fun k => exp (Q2R (1#2) * (kSq k * (-1 * kuhn * kuhn / 6 * h))))) with (flowK (1#2) h).
  change (kOp dims (fun k => exp (Q2R 1 * (kSq k * (-1 * kuhn * kuhn / 6 * h))))) with (flowK 1 h).
  rewrite ?W2.
  assert (E2 : forall g : field, g i * expW Thread h w i = flowW (1#2) h g i) by (intros; now rewrite <- W2).
  assert (E4 : forall g : field, g i * expW2 h w i = flowW (1#4) h g i) by (intros; now rewrite <- W4).
  rewrite ?(E4 (flowK _ _ _)), ?(E2 (flowK _ _ _)). unfold Q2R. cbn [Qnum Qden]. field.
Qed.

Lemma step_expand : forall H, 0 <= H -> oexp n H (fun h => stepThread dims kSq kuhn h w) (fun k f i => / INR (fact k) * Nat.iter k (opA opX opY) f i).
Proof.
  intros H PH. destruct bops as [K [bX bY]].
  assert (W := fun c => flowW_expand H c K PH bX bY). assert (F := fun c => flowK_expand H c K PH bX bY).
  assert (CC := sexpand_comp n opX opY K bX bY H PH).
  assert (E : sexpand n opX opY H (fun h => stepThread dims kSq kuhn h w) sRichardson).
  { eapply sexpand_eq; [apply (sexpand_lin n opX opY H (4#3) (-1#3))|intros h f i _ _; apply step_flows].
    - apply CC; [apply W|]. apply CC; [apply F|]. apply CC; [apply W|]. apply CC; [apply F|apply W].
    - apply CC; [apply W|]. apply CC; [apply F|apply W]. }
  eapply oexp_eq; [apply E|reflexivity|].
  intros k f i Hk Hi. cbv beta. rewrite (seqb_sound opX opY _ _ k f i richardson_exact Hk). symmetry. now apply (peval_exact n opX opY K).
Qed.
End T.
