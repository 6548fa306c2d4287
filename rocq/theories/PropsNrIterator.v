(** C85: the Newton-Raphson iterator of one-dimensional systems. *)
From Coq Require Import Reals List Arith Bool ZArith Lra Lia.
From Verif Require Import Base RSum Species R1d R1dProofs NrIterator.
Import ListNotations.
Local Open Scope R_scope.

Section Nr.
Variables nm nx : nat.
Variable chi : nat -> nat -> R.
Variable comp : fields -> fields.
Variable lu : (nat -> nat -> num) -> vector -> vector.
Hypothesis Hm : (0 < nm)%nat.
Hypothesis Hx : (0 < nx)%nat.
Notation eval := (evaluate nm nx chi comp).
Notation loop' := (loop nm nx chi comp lu).
Notation solve' := (solve nm nx chi comp lu).

(** The SCFT equations of an incompressible system, with tolerance [eps]: fields [w], concentrations [c]. *)
Definition predicted (c : nat -> nat -> R) (j i : nat) : R := rsum nm (fun k => chi j k * c k i).
Definition total (c : nat -> nat -> R) (i : nat) : R := rsum nm (fun j => c j i).
Definition selfConsistent (eps : R) (w c : nat -> nat -> R) : Prop :=
  forall j i, (j < nm)%nat -> (i < nx)%nat -> Rabs ((predicted c j i - w j i) - (predicted c 0%nat i - w 0%nat i)) < eps.

Lemma norm_bound : forall (r : vector) l s, 0 <= s ->
  let t := fold_left (fun s ir => keepNorm s (r ir)) l s in s <= t /\ forall k a, In k l -> r k = Some a -> Rabs a <= t.
Proof.
  intros r. induction l as [|k l IH]; intros s S; cbn [fold_left].
  - split; [lra|]. intros k a [].
  - assert (K : s <= keepNorm s (r k)) by (unfold keepNorm; destruct (r k); [destruct (Rlt_dec _ _); lra|lra]).
    destruct (IH (keepNorm s (r k)) ltac:(lra)) as [A B]. split; [lra|]. intros k' a [<-|I] E; [|eauto].
    apply Rle_trans with (keepNorm s (r k)); [|exact A]. rewrite E. cbn [keepNorm]. destruct (Rlt_dec _ _); lra.
Qed.
Lemma residual_bound : forall r k a, (k < nm * nx)%nat -> r k = Some a -> Rabs a <= residualNorm nm nx r.
Proof. intros r k a K E. unfold residualNorm. destruct (norm_bound r (seq 0 (nm * nx)) 0 ltac:(lra)) as [_ B]. apply (B k); auto. apply in_seq. lia. Qed.
Lemma nsum_some : forall n f g s, (forall k, (k < n)%nat -> f k = Some (g k)) -> nsum n f (Some s) = Some (s + rsum n g).
Proof. induction n; intros f g s H; cbn [nsum rsum]; [f_equal; lra|]. rewrite (IHn f g), (H n) by auto. cbn. f_equal. lra. Qed.

(** What holds of a point at which the iteration stands: it was evaluated from its fields, and in the canonical ensemble
    the last field has been shifted to zero at the last point. *)
Definition consistent (canon : bool) (p : point) : Prop := p = eval canon (pW p).
Definition gauged (canon : bool) (p : point) : Prop := canon = true -> forall a, pW p (nm - 1)%nat (nx - 1)%nat = Some a -> a = 0.

Lemma consistent_eval : forall canon w, consistent canon (eval canon w). Proof. reflexivity. Qed.
Lemma gauged_shift : forall canon w, gauged canon (eval canon (shiftLast nm nx canon w)).
Proof.
  intros canon w C a. subst canon. unfold evaluate. cbn [pW]. unfold shiftLast.
  destruct (w (nm - 1)%nat (nx - 1)%nat); cbn; intros E; inversion E. lra.
Qed.
Lemma gauged_incr : forall canon w d, gauged canon (eval canon (incrementWFields nm nx canon w d)).
Proof. intros. apply gauged_shift. Qed.

Lemma shrink_inv : forall canon cur k dW t dW' t' b, shrink nm nx chi comp canon cur k dW t = (dW', t', b) ->
  consistent canon t -> gauged canon t -> consistent canon t' /\ gauged canon t'.
Proof.
  intros canon cur. induction k; intros dW t dW' t' b H C G; cbn [shrink] in H.
  - inversion H; subst; auto.
  - destruct (gt (pNorm t) (pNorm cur)); [|inversion H; subst; auto].
    match type of H with (let '(_, _) := ?x in _) = _ => destruct x as [[d u] b0] eqn:E end. inversion H; subst.
    apply IHk in E; auto; [apply consistent_eval|apply gauged_incr].
Qed.

Lemma loop_inv : forall canon eps k s code s', loop' canon eps k s = (code, s') -> consistent canon (nPt s) -> gauged canon (nPt s) ->
  consistent canon (nPt s') /\ gauged canon (nPt s') /\ pNorm (nPt s') <= pNorm (nPt s) /\
  (code = 0%Z /\ pNorm (nPt s') < eps \/ code = 1%Z) /\ (nPt s' = nPt s \/ pNorm (nPt s') < pNorm (nPt s)).
Proof.
  intros canon eps. induction k; intros s code s' H C G; cbn [loop] in H.
  - inversion H; subst. repeat split; auto; lra.
  - destruct (gt eps (pNorm (nPt s))) eqn:Q.
    { inversion H; subst. unfold gt in Q. destruct (Rlt_dec (pNorm (nPt s')) eps); [|discriminate]. repeat split; auto; lra. }
    match type of H with (let '(_, _) := ?x in _) = _ => destruct x as [[dW1 t1] n1] eqn:E end.
    assert (CG : consistent canon t1 /\ gauged canon t1) by (eapply shrink_inv; [exact E|apply consistent_eval|apply gauged_incr]).
    set (t2 := if gt (pNorm t1) (pNorm (nPt s)) then eval canon (incrementWFields nm nx canon (pW (nPt s)) (scale (-1) dW1)) else t1) in H.
    assert (CG2 : consistent canon t2 /\ gauged canon t2).
    { unfold t2. destruct (gt (pNorm t1) (pNorm (nPt s))); auto. split; [apply consistent_eval|apply gauged_incr]. }
    destruct (gt (pNorm (nPt s)) (pNorm t2)) eqn:A.
    + unfold gt in A. destruct (Rlt_dec (pNorm t2) (pNorm (nPt s))) as [L|]; [|discriminate].
      apply IHk in H; cbn [nPt]; try tauto. cbn [nPt] in H. destruct H as (H1 & H2 & H3 & H4 & H5). repeat split; auto; try lra.
    + destruct (if nNeeds s then true else nNew s).
      * inversion H; subst. cbn [nPt]. repeat split; auto; lra.
      * apply IHk in H; cbn [nPt] in *; auto.
Qed.

Lemma index : forall j i, (i < nx)%nat -> ((j * nx + i) / nx = j)%nat /\ ((j * nx + i) mod nx = i)%nat.
Proof. intros j i H. split; [rewrite Nat.div_add_l, Nat.div_small by lia; lia | rewrite Nat.add_comm, Nat.mod_add, Nat.mod_small by lia; auto]. Qed.

(** Success: if fields and concentrations are numbers, the concentrations are those of the fields, the equations of
    self-consistency hold to [eps] everywhere, and incompressibility does everywhere, except that in the canonical
    ensemble (all polymers closed) the last point is left out and the last field is zero there instead. *)
Theorem C85_success : forall pols eps maxItr cont needs jac w canon s W C,
  isCanonical pols = Ok canon -> 0 < eps -> solve' pols eps maxItr cont needs jac w = Ok (0%Z, s) ->
  (forall j i, (j < nm)%nat -> (i < nx)%nat -> pW (nPt s) j i = Some (W j i)) ->
  (forall j i, (j < nm)%nat -> (i < nx)%nat -> pC (nPt s) j i = Some (C j i)) ->
  pC (nPt s) = comp (pW (nPt s)) /\ selfConsistent eps W C /\
  (forall i, (i < nx)%nat -> (canon = true -> i <> nx - 1)%nat -> Rabs (total C i - 1) < eps) /\
  (canon = true -> W (nm - 1)%nat (nx - 1)%nat = 0).
Proof.
  intros pols eps maxItr cont needs jac w canon s W C EC PE H HW HC. unfold solve in H. rewrite EC in H. cbn [bind] in H.
  assert (H' := H). injection H' as H'. clear H. apply loop_inv in H'; cbn [nPt]; [|apply consistent_eval|apply gauged_shift].
  destruct H' as (CO & GA & _ & CD & _). assert (NE : pNorm (nPt s) < eps) by (destruct CD as [[_ L]|D]; [exact L|discriminate]).
  unfold consistent, evaluate in CO. cbv zeta in CO.
  assert (EC1 : pC (nPt s) = comp (pW (nPt s))) by (rewrite CO at 1; reflexivity).
  assert (ER : pRes (nPt s) = computeResidual nm nx chi canon (pW (nPt s)) (pC (nPt s))) by (rewrite EC1; rewrite CO at 1; reflexivity).
  assert (EN : pNorm (nPt s) = residualNorm nm nx (pRes (nPt s))) by (rewrite ER, EC1; rewrite CO at 1; reflexivity).
  assert (RB : forall j i a, (j < nm)%nat -> (i < nx)%nat -> pRes (nPt s) (j * nx + i)%nat = Some a -> Rabs a < eps).
  { intros j i a J I E. apply Rle_lt_trans with (pNorm (nPt s)); [|exact NE]. rewrite EN. apply (residual_bound _ (j * nx + i)); auto. nia. }
  split; [exact EC1|]. split; [|split].
  - intros j i J I. destruct (Nat.eq_dec j 0) as [->|J0].
    { unfold Rminus. rewrite Rplus_opp_r, Rabs_R0. exact PE. }
    apply (RB j i); auto. rewrite ER. unfold computeResidual. destruct (index j i I) as [-> ->].
    replace (j =? 0)%nat with false by (symmetry; now apply Nat.eqb_neq).
    assert (R0 : forall j', (j' < nm)%nat -> residual0 nm chi (pW (nPt s)) (pC (nPt s)) j' i = Some (predicted C j' i - W j' i)).
    { intros j' J'. unfold residual0, wPredicted. rewrite (nsum_some nm _ (fun k => chi j' k * C k i)).
      - rewrite HW by auto. cbn. f_equal. unfold predicted. lra.
      - intros k K. rewrite HC by auto. reflexivity. }
    rewrite !R0 by lia. reflexivity.
  - intros i I NL. apply (RB 0%nat i); auto. rewrite ER. unfold computeResidual. destruct (index 0 i I) as [-> ->]. cbn [Nat.eqb].
    replace (canon && (i =? nx - 1)%nat)%bool with false.
    + rewrite (nsum_some nm _ (fun k => C k i)) by (intros; apply HC; auto). f_equal. unfold total. lra.
    + symmetry. destruct canon; auto. cbn. apply Nat.eqb_neq. auto.
  - intros CT. apply (GA CT). apply HW; lia.
Qed.

(** If the average of the total concentration is one, as it is if all species are closed, incompressibility follows at
    the last point too, to an accuracy given by its weight in the average. *)
Theorem C85_last_point : forall eps C (wt : nat -> R), (forall i, (i < nx)%nat -> 0 < wt i) -> rsum nx wt = 1 ->
  rsum nx (fun i => wt i * total C i) = 1 -> 0 < eps -> (forall i, (i < nx - 1)%nat -> Rabs (total C i - 1) < eps) ->
  Rabs (total C (nx - 1)%nat - 1) <= eps * (1 - wt (nx - 1)%nat) / wt (nx - 1)%nat.
Proof.
  intros eps C wt P S A E B. set (l := (nx - 1)%nat) in *.
  assert (SP : forall f, rsum nx f = rsum l f + f l). { intros f. unfold l. destruct nx as [|n]; [lia|]. cbn [rsum]. now rewrite Nat.sub_succ, Nat.sub_0_r. }
  assert (PL : 0 < wt l) by (apply P; unfold l; lia).
  assert (D : wt l * (total C l - 1) = - rsum l (fun i => wt i * (total C i - 1))).
  { rewrite (rsum_ext l _ (fun i => wt i * total C i - wt i)) by (intros; ring). rewrite rsum_minus. rewrite SP in A, S. lra. }
  assert (U : Rabs (rsum l (fun i => wt i * (total C i - 1))) <= eps * rsum l wt).
  { assert (Q : forall k, (k <= l)%nat -> Rabs (rsum k (fun i => wt i * (total C i - 1))) <= eps * rsum k wt).
    { induction k; intros K; cbn [rsum]; [rewrite Rabs_R0; lra|].
      eapply Rle_trans; [apply Rabs_triang|]. rewrite Rmult_plus_distr_l. apply Rplus_le_compat; [apply IHk; lia|].
      rewrite Rabs_mult, (Rabs_right (wt k)) by (left; apply P; unfold l in K; lia).
      rewrite Rmult_comm. apply Rmult_le_compat_r; [left; apply P; unfold l in K; lia|]. left. apply B. unfold l in K |- *. lia. }
    apply Q. lia. }
  rewrite SP in S. replace (rsum l wt) with (1 - wt l) in U by lra.
  rewrite <- Rabs_Ropp, <- D, Rabs_mult, (Rabs_right (wt l)) in U by lra.
  apply (Rmult_le_reg_l (wt l)); [exact PL|]. replace (wt l * (eps * (1 - wt l) / wt l)) with (eps * (1 - wt l)) by (field; lra). exact U.
Qed.

(** Whatever the linear solver returns: the fields at the end are consistent with their concentrations, are the starting
    ones unless the residual has become smaller, and the code is 0 or 1. *)
Theorem C85_descent : forall pols eps maxItr cont needs jac w canon code s,
  isCanonical pols = Ok canon -> solve' pols eps maxItr cont needs jac w = Ok (code, s) ->
  let start := eval canon (shiftLast nm nx canon w) in
  pC (nPt s) = comp (pW (nPt s)) /\ (code = 0%Z \/ code = 1%Z) /\
  (nPt s = start \/ residualNorm nm nx (computeResidual nm nx chi canon (pW (nPt s)) (pC (nPt s))) < residualNorm nm nx (pRes start)).
Proof.
  intros pols eps maxItr cont needs jac w canon code s EC H. unfold solve in H. rewrite EC in H. cbn [bind] in H. injection H as H'.
  apply loop_inv in H'; cbn [nPt]; [|apply consistent_eval|apply gauged_shift]. destruct H' as (CO & _ & _ & CD & ST).
  unfold consistent, evaluate in CO. cbv zeta in CO. cbv zeta.
  assert (EC1 : pC (nPt s) = comp (pW (nPt s))) by (rewrite CO at 1; reflexivity). split; [exact EC1|]. split; [destruct CD as [[? _]|?]; auto|].
  destruct ST as [ST|ST]; [left; exact ST|right]. rewrite EC1. rewrite CO in ST at 1. exact ST.
Qed.

(** A solution is recognised at once, unless no iteration is allowed. *)
Theorem C85_solution : forall pols eps maxItr cont needs jac w canon, isCanonical pols = Ok canon ->
  pNorm (eval canon (shiftLast nm nx canon w)) < eps -> (0 < maxItr)%nat ->
  exists s, solve' pols eps maxItr cont needs jac w = Ok (0%Z, s) /\ nPt s = eval canon (shiftLast nm nx canon w).
Proof.
  intros pols eps maxItr cont needs jac w canon EC L M. clear Hm Hx. unfold solve. rewrite EC. cbn [bind]. destruct maxItr as [|k]; [lia|]. cbn [loop nPt].
  unfold gt at 1. destruct (Rlt_dec _ eps) as [|N]; [|contradiction]. eexists. split; reflexivity.
Qed.

(** Concentrations that are not numbers: the norm ignores them, so that they count as converged. *)
Theorem C85_nan_refuted : forall pols eps maxItr cont needs jac w canon, isCanonical pols = Ok canon -> 0 < eps -> (0 < maxItr)%nat ->
  (forall w', comp w' = fun _ _ => None) -> exists s, solve' pols eps maxItr cont needs jac w = Ok (0%Z, s) /\ forall j i, pC (nPt s) j i = None.
Proof.
  intros pols eps maxItr cont needs jac w canon EC PE M N.
  destruct (C85_solution pols eps maxItr cont needs jac w canon EC) as (s & E & S); auto.
  - unfold evaluate. cbn [pNorm]. rewrite N. unfold residualNorm.
    assert (Q : forall l s0, (forall k, In k l -> forall a, computeResidual nm nx chi canon (shiftLast nm nx canon w) (fun _ _ => None) k = Some a -> a = 0) ->
      0 <= s0 -> fold_left (fun s1 ir => keepNorm s1 (computeResidual nm nx chi canon (shiftLast nm nx canon w) (fun _ _ => None) ir)) l s0 = s0).
    { induction l as [|k l IH]; intros s0 HL P; cbn [fold_left]; auto.
      assert (K : keepNorm s0 (computeResidual nm nx chi canon (shiftLast nm nx canon w) (fun _ _ => None) k) = s0).
      { specialize (HL k (or_introl eq_refl)). unfold keepNorm. destruct (computeResidual _ _ _ _ _ _ k) as [a|]; auto.
        rewrite (HL a eq_refl), Rabs_R0. destruct (Rlt_dec s0 0); auto. lra. }
      rewrite K. apply IH; auto. intros; eapply HL; eauto. now right. }
    assert (NS : forall n f s0, (0 < n)%nat -> (forall k, f k = None) -> nsum n f s0 = None).
    { intros [|n] f s0 L F; [lia|]. cbn [nsum]. rewrite F. unfold nadd, lift2. now destruct (nsum n f s0). }
    rewrite Q; auto; [|lra]. intros k _ a. unfold computeResidual. destruct (k / nx =? 0)%nat.
    + destruct (canon && (k mod nx =? nx - 1)%nat)%bool eqn:CB.
      * destruct canon; [|discriminate]. intros E. unfold shiftLast in E. destruct (w (nm - 1)%nat (nx - 1)%nat); inversion E. lra.
      * rewrite NS by auto. discriminate.
    + unfold residual0, wPredicted. rewrite NS; auto. discriminate.
  - exists s. split; [exact E|]. intros j i. rewrite S. unfold evaluate. cbn [pC]. now rewrite N.
Qed.
(** Newton's method: if the residual is an affine function of the fields, with matrix [A], and the linear solver is exact
    for [A], then two iterations suffice from any start, and the Jacobian of an earlier call does not matter. *)
Definition solves (A : nat -> nat -> R) : Prop := forall J v V, (forall a c, (a < nm * nx)%nat -> (c < nm * nx)%nat -> J a c = Some (A a c)) ->
  (forall a, (a < nm * nx)%nat -> v a = Some (V a)) ->
  exists X, (forall k, lu J v k = Some (X k)) /\ forall a, (a < nm * nx)%nat -> rsum (nm * nx) (fun c => A a c * X c) = V a.
Definition affine (canon : bool) (A : nat -> nat -> R) (b : nat -> R) : Prop := forall W r, (r < nm * nx)%nat ->
  let w := fun j i => Some (W j i) in
  computeResidual nm nx chi canon w (comp w) r = Some (b r + rsum (nm * nx) (fun c => A r c * W (c / nx)%nat (c mod nx)%nat)).

Lemma fields_ext : forall f g : fields, (forall j i, f j i = g j i) -> f = g.
Proof. intros f g H. apply FunctionalExtensionality.functional_extensionality; intros j. apply FunctionalExtensionality.functional_extensionality; auto. Qed.
Lemma zero_norm : forall r, (forall k, (k < nm * nx)%nat -> r k = Some 0) -> residualNorm nm nx r = 0.
Proof.
  intros r H. unfold residualNorm. assert (Q : forall l, (forall k, In k l -> r k = Some 0) -> fold_left (fun s ir => keepNorm s (r ir)) l 0 = 0).
  { induction l as [|k l IH]; intros HL; cbn [fold_left]; auto. rewrite (HL k (or_introl eq_refl)). cbn [keepNorm]. rewrite Rabs_R0.
    destruct (Rlt_dec 0 0); apply IH; intros; apply HL; now right. }
  apply Q. intros k K. apply H. apply in_seq in K. lia.
Qed.
Lemma index_eq : forall a c, (a / nx = c / nx)%nat -> (a mod nx = c mod nx)%nat -> a = c.
Proof. intros a c D M. rewrite (Nat.div_mod a nx), (Nat.div_mod c nx) by lia. now rewrite D, M. Qed.

Theorem C85_newton : forall pols eps maxItr needs jac W canon A b, isCanonical pols = Ok canon -> affine canon A b -> solves A -> 0 < eps -> (2 <= maxItr)%nat ->
  exists s, solve' pols eps maxItr false needs jac (fun j i => Some (W j i)) = Ok (0%Z, s).
Proof.
  intros pols eps maxItr needs jac W canon A b EC AF SO PE M.
  destruct maxItr as [|[|k]]; try lia. unfold solve. rewrite EC. cbn [bind].
  assert (W0 : exists W0, shiftLast nm nx canon (fun j i => Some (W j i)) = fun j i => Some (W0 j i)).
  { unfold shiftLast. destruct canon; [exists (fun j i => W j i - W (nm - 1)%nat (nx - 1)%nat)|exists W]; reflexivity. }
  destruct W0 as [W0 ->]. set (p0 := eval canon (fun j i => Some (W0 j i))).
  set (V := fun r => b r + rsum (nm * nx) (fun c => A r c * W0 (c / nx)%nat (c mod nx)%nat)).
  assert (RV : forall a, (a < nm * nx)%nat -> pRes p0 a = Some (V a)) by (intros a La; apply (AF W0 a La)).
  set (J := computeJacobian nm nx chi comp canon (pW p0) (pRes p0)).
  assert (JA : forall a c, (a < nm * nx)%nat -> (c < nm * nx)%nat -> J a c = Some (A a c)).
  { intros a c La Lc. unfold J, computeJacobian. rewrite RV by exact La.
    set (W1 := fun j i => if ((j =? c / nx) && (i =? c mod nx))%nat%bool then W0 j i + delta else W0 j i).
    assert (B : bump (pW p0) (c / nx) (c mod nx) = fun j i => Some (W1 j i)).
    { apply fields_ext. intros j i. unfold bump, W1, p0, evaluate. cbn [pW]. destruct (_ && _)%bool; reflexivity. }
    rewrite B, (AF W1 a La). cbn. f_equal. unfold V.
    assert (D : rsum (nm * nx) (fun c0 => A a c0 * W1 (c0 / nx)%nat (c0 mod nx)%nat) - rsum (nm * nx) (fun c0 => A a c0 * W0 (c0 / nx)%nat (c0 mod nx)%nat) = A a c * delta).
    { rewrite <- rsum_minus. rewrite (rsum_ext _ _ (fun c0 => if (c0 =? c)%nat then A a c * delta else 0)).
      - rewrite (rsum_single _ c); [now rewrite Nat.eqb_refl|exact Lc|]. intros i _ N. now apply Nat.eqb_neq in N as ->.
      - intros c0 _. unfold W1. destruct (Nat.eqb_spec c0 c) as [->|N].
        + rewrite !Nat.eqb_refl. cbn [andb]. ring.
        + replace ((c0 / nx =? c / nx) && (c0 mod nx =? c mod nx))%nat%bool with false; [ring|]. symmetry. apply andb_false_iff.
          destruct (Nat.eqb_spec (c0 / nx) (c / nx)) as [D|]; auto. destruct (Nat.eqb_spec (c0 mod nx) (c mod nx)) as [D2|]; auto.
          exfalso. apply N. now apply index_eq. }
    unfold delta in *. lra. }
  destruct (SO J (pRes p0) V JA RV) as (X & LX & EX).
  set (W2 := fun j i => W0 j i - X (j * nx + i)%nat).
  assert (R2 : forall r, (r < nm * nx)%nat -> computeResidual nm nx chi canon (fun j i => Some (W2 j i)) (comp (fun j i => Some (W2 j i))) r = Some 0).
  { intros r Lr. rewrite (AF W2 r Lr). f_equal.
    rewrite (rsum_ext _ _ (fun c => A r c * W0 (c / nx)%nat (c mod nx)%nat - A r c * X c)).
    - rewrite rsum_minus, EX by exact Lr. unfold V. ring.
    - intros c _. unfold W2. replace (c / nx * nx + c mod nx)%nat with c by (rewrite (Nat.div_mod c nx) at 1 by lia; lia). ring. }
  assert (I2 : incrementWFields nm nx canon (pW p0) (lu J (pRes p0)) = fun j i => Some (W2 j i)).
  { unfold incrementWFields. replace (fun i j => nsub (pW p0 i j) (lu J (pRes p0) (i * nx + j)%nat)) with (fun i j => Some (W2 i j)).
    - unfold shiftLast. destruct canon; [|reflexivity]. apply fields_ext. intros j i. cbn. f_equal.
      assert (Z : W2 (nm - 1)%nat (nx - 1)%nat = 0).
      { specialize (R2 (nx - 1)%nat ltac:(nia)). unfold computeResidual in R2. destruct (index 0 (nx - 1) ltac:(lia)) as [E1 E2]. cbn [Nat.mul Nat.add] in E1, E2.
        rewrite E1, E2, !Nat.eqb_refl in R2. cbn [andb] in R2. now inversion R2. }
      rewrite Z. ring.
    - apply fields_ext. intros i j. rewrite LX. reflexivity. }
  cbn [loop nPt nNeeds nNew nJac]. fold p0. destruct (gt eps (pNorm p0)) eqn:Q; [eexists; reflexivity|].
  fold J. rewrite I2. set (p1 := eval canon (fun j i => Some (W2 j i))).
  assert (N1 : pNorm p1 = 0) by (apply zero_norm; exact R2).
  unfold gt in Q. destruct (Rlt_dec (pNorm p0) eps) as [|NL]; [discriminate|].
  assert (G1 : gt (pNorm p1) (pNorm p0) = false) by (unfold gt; destruct (Rlt_dec _ _); auto; lra).
  assert (G2 : gt (pNorm p0) (pNorm p1) = true) by (unfold gt; destruct (Rlt_dec _ _); auto; lra).
  cbn [shrink]. rewrite G1. cbn [orb]. rewrite G1, G2. cbn [loop nPt].
  assert (G3 : gt eps (pNorm p1) = true) by (unfold gt; destruct (Rlt_dec _ _); auto; lra).
  rewrite G3. eexists. reflexivity.
Qed.
End Nr.
Print Assumptions C85_success. Print Assumptions C85_last_point. Print Assumptions C85_descent. Print Assumptions C85_solution. Print Assumptions C85_newton. Print Assumptions C85_nan_refuted.

(** An open solvent and no polymers: the ensemble is taken for canonical, although nothing fixes the average of the
    concentrations, and convergence is reported for a last point that is not filled to one. *)
Definition value (x : num) : R := match x with Some a => a | None => 0 end.
Definition mean2 (f : nat -> R) : R := (f 0%nat + f 1%nat) / 2.
Definition openSolvent (w : fields) : fields := fun _ i =>
  Some (snd (r1dSolvent mean2 1 (mkSpecies Species.Open 0 1 0) (fun k => value (w 0%nat k))) i).
Lemma openSolvent_value : forall w j i, openSolvent w j i = Some (exp (1 - value (w 0%nat i))).
Proof.
  intros w j i. unfold openSolvent, r1dSolvent. cbn [snd setQ sp_ens sp_phi sp_mu]. f_equal. unfold mean2.
  set (a := exp (- (1) * value (w 0%nat 0%nat))). set (b := exp (- (1) * value (w 0%nat 1%nat))).
  assert (0 < a) by apply exp_pos. assert (0 < b) by apply exp_pos.
  replace (exp 1 * ((a + b) / 2) / ((a + b) / 2)) with (exp 1) by (field; lra). rewrite Rmult_comm. replace (1 - value (w 0%nat i)) with (1 + - (1) * value (w 0%nat i)) by ring. rewrite exp_plus. reflexivity.
Qed.
Theorem C85_solvent_refuted : exists w, forall eps maxItr lu jac, 0 < eps -> (0 < maxItr)%nat ->
  exists s, solve 1 2 (fun _ _ => 0) openSolvent lu [] eps maxItr false true jac w = Ok (0%Z, s) /\
  pC (nPt s) 0%nat 0%nat = Some 1 /\ exists c, pC (nPt s) 0%nat 1%nat = Some c /\ 2 < c.
Proof.
  exists (fun _ i => Some (if (i =? 0)%nat then 1 else 0)). intros eps maxItr lu jac PE M.
  assert (W : forall i, shiftLast 1 2 true (fun _ i => Some (if (i =? 0)%nat then 1 else 0)) 0%nat i = Some (if (i =? 0)%nat then 1 else 0)).
  { intros i. unfold shiftLast. cbn. f_equal. lra. }
  destruct (C85_solution 1 2 (fun _ _ => 0) openSolvent lu [] eps maxItr false true jac (fun _ i => Some (if (i =? 0)%nat then 1 else 0)) true) as (s & E & S); auto.
  - unfold evaluate. cbn [pNorm]. unfold residualNorm. cbn [Nat.mul Nat.add seq fold_left]. unfold computeResidual at 1 2.
    change (0 / 2)%nat with 0%nat. change (1 / 2)%nat with 0%nat. change (0 mod 2)%nat with 0%nat. change (1 mod 2)%nat with 1%nat.
    cbn [Nat.eqb Nat.sub andb nsum]. rewrite openSolvent_value, !W. cbn [Nat.eqb value].
    replace (1 - 1) with 0 by ring. rewrite exp_0. cbn. replace (-1 + 1) with 0 by ring. rewrite Rabs_R0. destruct (Rlt_dec 0 0); [lra|]. destruct (Rlt_dec 0 0); lra.
  - exists s. split; [exact E|]. rewrite S. unfold evaluate. cbn [pC]. rewrite !openSolvent_value, !W. cbn [Nat.eqb value]. split.
    + f_equal. replace (1 - 1) with 0 by ring. apply exp_0.
    + eexists. split; [reflexivity|]. replace (1 - 0) with 1 by ring. assert (1 + 1 < exp 1) by (apply exp_ineq1; lra). lra.
Qed.
Print Assumptions C85_solvent_refuted.

(** Two closed point-like species with chi = 4, volume fractions 1/4 and 3/4, started from uniform fields 7 and 5: they are
    shifted to 2 and 0, the solution; for other differences [a] the norm is [Rabs (a - 2)]. *)
Definition chi4 (j k : nat) : R := if (j =? k)%nat then 0 else 4.
Definition phi4 (j : nat) : R := if (j =? 0)%nat then 1 / 4 else 3 / 4.
Definition closed2 (w : fields) : fields := fun j i =>
  Some (snd (r1dSolvent mean2 1 (mkSpecies Species.Closed (phi4 j) 0 0) (fun k => value (w j k))) i).
Definition uniform2 (a : R) : fields := fun j _ => Some (if (j =? 0)%nat then a else 0).
Lemma closed2_uniform : forall a, closed2 (uniform2 a) = fun j _ => Some (phi4 j).
Proof.
  intros a. apply FunctionalExtensionality.functional_extensionality; intros j. apply FunctionalExtensionality.functional_extensionality; intros i.
  unfold closed2, r1dSolvent, uniform2, mean2. cbn [snd setQ sp_ens sp_phi value]. f_equal.
  set (x := exp _). assert (0 < x) by apply exp_pos. field. lra.
Qed.
Lemma norm_uniform2 : forall a, pNorm (evaluate 2 2 chi4 closed2 true (uniform2 a)) = Rabs (a - 2).
Proof.
  intros a. unfold evaluate. cbn [pNorm]. rewrite closed2_uniform.
  assert (R : forall k, computeResidual 2 2 chi4 true (uniform2 a) (fun j _ => Some (phi4 j)) k = match k with 0%nat | 1%nat => Some 0 | _ => computeResidual 2 2 chi4 true (uniform2 a) (fun j _ => Some (phi4 j)) k end).
  { intros [|[|k]]; [| |reflexivity]; unfold computeResidual; cbn -[phi4 uniform2]; [f_equal; change (phi4 0) with (1 / 4); change (phi4 1) with (3 / 4); lra | reflexivity]. }
  unfold residualNorm. cbn [Nat.mul Nat.add seq fold_left].
  rewrite (R 0%nat), (R 1%nat).
  assert (R2 : forall k, k = 2%nat \/ k = 3%nat -> computeResidual 2 2 chi4 true (uniform2 a) (fun j _ => Some (phi4 j)) k = Some (a - 2)).
  { intros k [-> | ->]; unfold computeResidual, residual0, wPredicted; cbn -[phi4 chi4]; f_equal; unfold chi4, phi4; cbn [Nat.eqb]; field. }
  rewrite !R2 by auto. cbn [keepNorm]. rewrite Rabs_R0. pose proof (Rabs_pos (a - 2)).
  destruct (Rlt_dec 0 0); [lra|]. destruct (Rlt_dec 0 0); [lra|].
  destruct (Rlt_dec 0 (Rabs (a - 2))); destruct (Rlt_dec _ (Rabs (a - 2))); lra.
Qed.
Example C85_case : exists s W C,
  solve 2 2 chi4 closed2 (fun _ r => r) [Closed; Closed] (1 / 1000) 1 false true (fun _ _ => None) (fun j _ => Some (if (j =? 0)%nat then 7 else 5)) = Ok (0%Z, s) /\
  (forall j i, (j < 2)%nat -> (i < 2)%nat -> pW (nPt s) j i = Some (W j i)) /\ (forall j i, (j < 2)%nat -> (i < 2)%nat -> pC (nPt s) j i = Some (C j i)) /\
  W 0%nat 0%nat = 2 /\ C 1%nat 1%nat = 3 / 4.
Proof.
  assert (W0 : shiftLast 2 2 true (fun j _ => Some (if (j =? 0)%nat then 7 else 5)) = uniform2 2).
  { apply FunctionalExtensionality.functional_extensionality; intros j. apply FunctionalExtensionality.functional_extensionality; intros i.
    unfold shiftLast, uniform2. cbn. f_equal. destruct (j =? 0)%nat; lra. }
  destruct (C85_solution 2 2 chi4 closed2 (fun _ r => r) [Closed; Closed] (1 / 1000) 1 false true (fun _ _ => None) (fun j _ => Some (if (j =? 0)%nat then 7 else 5)) true) as (s & E & S); auto.
  - rewrite W0, norm_uniform2. replace (2 - 2) with 0 by ring. rewrite Rabs_R0. lra.
  - exists s, (fun j _ => if (j =? 0)%nat then 2 else 0), (fun j _ => phi4 j). split; [exact E|]. rewrite S, W0. unfold evaluate. cbn [pW pC].
    rewrite closed2_uniform. repeat split.
Qed.

(** The same mixture on one point: the residual is affine, of matrix ((0, 1), (1, -1)). *)
Definition A2 (r c : nat) : R := match r, c with O, S O => 1 | S O, O => 1 | S O, S O => -1 | _, _ => 0 end.
Definition fixed2 (_ : fields) : fields := fun j _ => Some (phi4 j).
Definition lu2 (_ : nat -> nat -> num) (v : vector) : vector := fun k => Some (if (k =? 0)%nat then value (v 0%nat) + value (v 1%nat) else value (v 0%nat)).
Example C85_newton_case : affine 2 1 chi4 fixed2 true A2 (fun r => if (r =? 0)%nat then 0 else -2) /\ solves 2 1 lu2 A2.
Proof.
  split.
  - intros W r L. cbv zeta. destruct r as [|[|r]]; [| |lia]; unfold computeResidual, residual0, wPredicted, fixed2; cbn -[phi4 chi4]; f_equal; unfold chi4, phi4; cbn [Nat.eqb]; field.
  - intros J v V HJ HV. exists (fun k => if (k =? 0)%nat then V 0%nat + V 1%nat else V 0%nat). split.
    + intros k. unfold lu2. rewrite !HV by lia. reflexivity.
    + intros a L. destruct a as [|[|a]]; [| |lia]; cbn; ring.
Qed.

(** The ensemble is canonical if every polymer is closed; a polymer of unknown ensemble is an error. *)
Theorem C85_ensemble : forall pols, (In Unknown pols -> isCanonical pols = Throw) /\
  (~ In Unknown pols -> exists b, isCanonical pols = Ok b /\ (b = true <-> forall e, In e pols -> e = Closed)).
Proof.
  induction pols as [|e pols [IH1 IH2]]; cbn [isCanonical].
  - split; [intros []|]. intros _. exists true. split; auto. split; auto. intros _ e [].
  - split.
    + intros I. destruct e; auto; (destruct I as [I|I]; [discriminate|]); rewrite (IH1 I); reflexivity.
    + intros N. destruct e; [exfalso; apply N; now left| |]; destruct IH2 as (b & E & B); try (intros I; apply N; now right); rewrite E.
      * exists b. split; auto. rewrite B. split; [intros H e [<-|I]; auto|intros H e I; apply H; now right].
      * exists false. split; auto. split; [discriminate|]. intros H. specialize (H Open (or_introl eq_refl)). discriminate.
Qed.
Print Assumptions C85_ensemble.
Example C85_ensemble_case : isCanonical [Closed; Open] = Ok false /\ isCanonical [Closed; Closed] = Ok true /\ isCanonical [Open; Unknown] = Throw.
Proof. repeat split. Qed.
