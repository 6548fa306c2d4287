(** Eigenvectors of the projected chi matrix, as computed by analyzeChi in Fts.v. *)
From Coq Require Import Reals List Arith Bool Lia Lra Permutation.
From Verif Require Import Base RSum Fts.
Import ListNotations.
Local Open Scope R_scope.

Definition delta (i j : nat) : R := if (i =? j)%nat then 1 else 0.
Definition symmetric (M : nat) (A : nat -> nat -> R) : Prop := forall i j, (i < M)%nat -> (j < M)%nat -> A i j = A j i.
(** What gsl_eigen_symmv returns: an orthonormal set of eigenvectors (columns) of A. *)
Definition gslSpec (gsl : nat -> (nat -> nat -> R) -> (nat -> R) * (nat -> nat -> R)) (M : nat) (A : nat -> nat -> R) : Prop :=
  let '(vals, vecs) := gsl M A in
  (forall i j, (i < M)%nat -> (j < M)%nat -> rsum M (fun a => vecs a i * vecs a j) = delta i j) /\
  (forall a b, (a < M)%nat -> (b < M)%nat -> rsum M (fun i => vecs a i * vecs b i) = delta a b) /\
  (forall a i, (a < M)%nat -> (i < M)%nat -> rsum M (fun b => A a b * vecs b i) = vals i * vecs a i).

(** What the rest of the simulator relies on. *)
Record eigSpec (M : nat) (chi : nat -> nat -> R) (g : eig) : Prop := {
  es_orth : forall i j, (i < M)%nat -> (j < M)%nat -> rsum M (fun a => gVec g i a * gVec g j a) = INR M * delta i j;
  es_compl : forall a b, (a < M)%nat -> (b < M)%nat -> rsum M (fun i => gVec g i a * gVec g i b) = INR M * delta a b;
  es_press : forall a, (a < M)%nat -> gVec g (M - 1)%nat a = 1;
  es_sum : forall j, (j < M - 1)%nat -> rsum M (fun a => gVec g j a) = 0;
  es_neg : forall j, (j < M - 1)%nat -> gVal g j < 0;
  es_eig : forall j a, (j < M - 1)%nat -> (a < M)%nat ->
      rsum M (fun b => chi a b * gVec g j b) - rsum M (fun a' => rsum M (fun b => chi a' b * gVec g j b)) / INR M
      = gVal g j * gVec g j a;
  es_null : gVal g (M - 1)%nat = 0;
  es_sc : forall j, (j < M)%nat -> gSc g j = rsum M (fun a => rsum M (fun b => gVec g j a * chi a b)) / (INR M * INR M)
}.

Lemma delta_l n (f : nat -> R) i : (i < n)%nat -> rsum n (fun k => delta i k * f k) = f i.
Proof.
  intros H. rewrite (rsum_single n i); auto.
  - unfold delta. rewrite Nat.eqb_refl. ring.
  - intros k _ Hk. unfold delta. destruct (Nat.eqb_spec i k); [congruence|ring].
Qed.
Lemma proj_sym M i j : proj M i j = proj M j i.
Proof. unfold proj. rewrite Nat.eqb_sym. reflexivity. Qed.
Lemma proj_sum M i : (i < M)%nat -> rsum M (fun k => proj M i k) = 0.
Proof.
  intros H. unfold proj. rewrite rsum_plus, rsum_const.
  rewrite (rsum_single M i); auto.
  - rewrite Nat.eqb_refl. field. apply not_0_INR. lia.
  - intros k _ Hk. destruct (Nat.eqb_spec i k); [congruence|ring].
Qed.
Lemma chiP_sym M chi : symmetric M chi -> symmetric M (chiP M chi).
Proof.
  intros H i j Hi Hj. unfold chiP, chiT.
  transitivity (rsum M (fun k => rsum M (fun l => proj M i k * (chi k l * proj M l j)))).
  { apply rsum_ext. intros k Hk. rewrite <- rsum_scal. reflexivity. }
  rewrite rsum_swap. apply rsum_ext. intros l Hl. rewrite <- rsum_scal. apply rsum_ext. intros k Hk.
  rewrite (H k l Hk Hl), (proj_sym M i k), (proj_sym M l j). ring.
Qed.
Lemma chiP_colsum M chi b : (b < M)%nat -> rsum M (fun a => chiP M chi a b) = 0.
Proof.
  intros H. unfold chiP. rewrite rsum_swap.
  transitivity (rsum M (fun k => 0)); [|apply rsum_zero].
  apply rsum_ext. intros k Hk.
  transitivity (rsum M (fun a => proj M a k) * chiT M chi k b).
  { rewrite <- rsum_scal_r. reflexivity. }
  rewrite (rsum_ext M (fun a => proj M a k) (fun a => proj M k a)); [|intros; apply proj_sym].
  rewrite proj_sum; auto. ring.
Qed.
(** On vectors of zero sum the projected matrix is chi followed by removal of the mean. *)
Lemma chiP_apply M chi (v : nat -> R) a : (a < M)%nat -> rsum M v = 0 ->
  rsum M (fun b => chiP M chi a b * v b) =
  rsum M (fun b => chi a b * v b) - rsum M (fun a' => rsum M (fun b => chi a' b * v b)) / INR M.
Proof.
  intros Ha Hv. unfold chiP, chiT.
  transitivity (rsum M (fun k => proj M a k * rsum M (fun l => chi k l * rsum M (fun b => proj M l b * v b)))).
  { transitivity (rsum M (fun b => rsum M (fun k => proj M a k * rsum M (fun l => chi k l * (proj M l b * v b))))).
    - apply rsum_ext. intros b Hb. rewrite <- rsum_scal_r. apply rsum_ext. intros k Hk.
      rewrite Rmult_assoc. f_equal. rewrite <- rsum_scal_r. apply rsum_ext. intros l Hl. ring.
    - rewrite rsum_swap. apply rsum_ext. intros k Hk. rewrite rsum_scal. f_equal.
      rewrite rsum_swap. apply rsum_ext. intros l Hl. rewrite rsum_scal. reflexivity. }
  transitivity (rsum M (fun k => proj M a k * rsum M (fun l => chi k l * v l))).
  { apply rsum_ext. intros k Hk. f_equal. apply rsum_ext. intros l Hl. f_equal.
    unfold proj.
    rewrite (rsum_ext M (fun b => (- (1 / INR M) + (if (l =? b)%nat then 1 else 0)) * v b) (fun b => - (1 / INR M) * v b + delta l b * v b)).
    - rewrite rsum_plus, rsum_scal, Hv, delta_l; auto. ring.
    - intros b Hb. unfold delta. ring. }
  unfold proj.
  rewrite (rsum_ext M _ (fun k => - (1 / INR M) * rsum M (fun l => chi k l * v l) + delta a k * rsum M (fun l => chi k l * v l))).
  - rewrite rsum_plus, rsum_scal, (delta_l M (fun k => rsum M (fun l => chi k l * v l))); auto. unfold Rdiv. ring.
  - intros k Hk. unfold delta. ring.
Qed.

Lemma flip_spec row : exists sg, sg * sg = 1 /\ (forall a, flip row a = sg * row a) /\ 0 <= flip row 0%nat.
Proof.
  unfold flip. destruct (Rlt_dec (row 0%nat) 0).
  - exists (-1). repeat split; intros; lra.
  - exists 1. repeat split; intros; lra.
Qed.
Lemma check_inv {X} b (f : outcome X) y : (check b ;; f) = Ok y -> b = true /\ f = Ok y.
Proof. destruct b; cbn; intros H; [auto|discriminate]. Qed.
Lemma set1_eq {X} (f : nat -> X) k x : set1 f k x k = x.
Proof. unfold set1. rewrite Nat.eqb_refl. reflexivity. Qed.
Lemma set1_neq {X} (f : nat -> X) k x i : i <> k -> set1 f k x i = f i.
Proof. intros H. unfold set1. destruct (Nat.eqb_spec i k); [contradiction|reflexivity]. Qed.

Definition tol : R := 1 / 100000000.
Definition nonnull (vals : nat -> R) (n : nat) : list nat := filter (fun i => negb (rlt (Rabs (vals i)) tol)) (seq 0 n).

Lemma scanAll_inv vals vecs v0 e0 n s : scanAll vals vecs n (mkScan 0 v0 e0 0 0) = Ok s ->
  cK s = length (nonnull vals n) /\ (cK s + cNNull s = n)%nat /\ (cNNull s <= 1)%nat /\
  (forall r, (r < cK s)%nat -> cVal s r = vals (nth r (nonnull vals n) 0%nat) /\
     cVec s r = flip (fun j => vecs j (nth r (nonnull vals n) 0%nat)) /\ cVal s r < 0) /\
  (cNNull s = 1%nat -> (cNull s < n)%nat /\ Rabs (vals (cNull s)) < tol).
Proof.
  revert s. induction n as [|n IH]; intros s H.
  { cbn in H. inversion H; subst. cbn. repeat split; try lia; intros; try lia; try discriminate. }
  cbn [scanAll] in H. destruct (scanAll vals vecs n (mkScan 0 v0 e0 0 0)) as [s'|?|?|] eqn:E; try discriminate.
  cbn [bind] in H. specialize (IH s' eq_refl). destruct IH as (IK & IS & I1 & IR & IN).
  assert (NN : nonnull vals (S n) = nonnull vals n ++ (if rlt (Rabs (vals n)) tol then [] else [n])).
  { unfold nonnull. rewrite seq_S, filter_app. cbn [filter plus]. destruct (rlt (Rabs (vals n)) tol); reflexivity. }
  unfold scanStep in H. fold tol in H. rewrite NN. destruct (rlt (Rabs (vals n)) tol) eqn:T.
  - apply check_inv in H. destruct H as [H0 H]. apply Nat.eqb_eq in H0. inversion H; subst s; clear H. cbn [cK cVal cVec cNull cNNull].
    rewrite app_nil_r. repeat split; try lia; try (apply IR; auto).
    unfold rlt in T. destruct (Rlt_dec (Rabs (vals n)) tol); [auto|discriminate].
  - apply check_inv in H. destruct H as [H0 H]. inversion H; subst s; clear H. cbn [cK cVal cVec cNull cNNull].
    rewrite app_length. cbn [length]. repeat split; try lia.
    + destruct (Nat.eq_dec r (cK s')) as [->|D].
      * rewrite set1_eq, IK, app_nth2, Nat.sub_diag by lia. reflexivity.
      * rewrite set1_neq by auto. rewrite app_nth1 by lia. apply IR. lia.
    + destruct (Nat.eq_dec r (cK s')) as [->|D].
      * rewrite set1_eq, IK, app_nth2, Nat.sub_diag by lia. reflexivity.
      * rewrite set1_neq by auto. rewrite app_nth1 by lia. apply IR. lia.
    + destruct (Nat.eq_dec r (cK s')) as [->|D].
      * rewrite set1_eq. unfold rlt in H0. destruct (Rlt_dec (vals n) 0); [auto|discriminate].
      * rewrite set1_neq by auto. apply IR. lia.
    + destruct (IN H). auto.
Qed.

Lemma rsum_lsum_nth (l : list nat) (f : nat -> R) : rsum (length l) (fun i => f (nth i l 0%nat)) = fold_right (fun x acc => f x + acc) 0 l.
Proof.
  induction l as [|x l IH]; [reflexivity|].
  cbn [length fold_right]. rewrite rsum_S_first. cbn [nth]. rewrite IH. reflexivity.
Qed.
Lemma fold_perm (f : nat -> R) l l' : Permutation l l' ->
  fold_right (fun x acc => f x + acc) 0 l = fold_right (fun x acc => f x + acc) 0 l'.
Proof. induction 1; cbn; lra. Qed.
Lemma rsum_reindex M (l : list nat) (f : nat -> R) : NoDup l -> length l = M -> (forall i, In i l -> (i < M)%nat) ->
  rsum M (fun i => f (nth i l 0%nat)) = rsum M f.
Proof.
  intros ND L B. rewrite <- L at 1. rewrite rsum_lsum_nth.
  rewrite (fold_perm f l (seq 0 M)).
  - rewrite <- rsum_lsum_nth, seq_length. apply rsum_ext. intros i Hi. rewrite seq_nth; auto.
  - apply NoDup_Permutation_bis; auto.
    + rewrite seq_length. lia.
    + intros i Hi. apply in_seq. specialize (B i Hi). lia.
Qed.

Theorem analyzeChi_spec gsl M chi g0 g : symmetric M chi -> (symmetric M (chiP M chi) -> gslSpec gsl M (chiP M chi)) ->
  analyzeChi gsl M chi g0 = Ok g -> eigSpec M chi g.
Proof.
  intros SY GS H. unfold analyzeChi in H.
  specialize (GS (chiP_sym M chi SY)). unfold gslSpec in GS.
  destruct (gsl M (chiP M chi)) as [vals vecs]. destruct GS as (G1 & G2 & G3).
  destruct (scanAll vals vecs M (mkScan 0 (gVal g0) (gVec g0) 0 0)) as [s|?|?|] eqn:E; try discriminate.
  cbn [bind] in H. apply check_inv in H. destruct H as [HN H]. apply check_inv in H. destruct H as [_ H].
  apply Nat.eqb_eq in HN. inversion H; subst g; clear H.
  apply scanAll_inv in E. destruct E as (EK & ES & _ & ER & EN). specialize (EN HN). destruct EN as [EN1 EN2].
  assert (MP : (0 < M)%nat) by lia.
  assert (MR : 0 < INR M) by (apply lt_0_INR; auto).
  assert (KM : cK s = (M - 1)%nat) by lia.
  set (idx := nonnull vals M ++ [cNull s]).
  assert (IL : length idx = M) by (unfold idx; rewrite app_length; cbn; lia).
  assert (ND : NoDup idx).
  { unfold idx.
    rewrite <- (rev_involutive (nonnull vals M ++ [cNull s])). apply NoDup_rev. rewrite rev_app_distr. cbn [rev app].
    constructor.
    - rewrite <- in_rev. unfold nonnull. rewrite filter_In. intros [_ F]. unfold rlt in F. destruct (Rlt_dec (Rabs (vals (cNull s))) tol); [discriminate|contradiction].
    - apply NoDup_rev. unfold nonnull. apply NoDup_filter, seq_NoDup. }
  assert (IB : forall i, In i idx -> (i < M)%nat).
  { intros i Hi. unfold idx in Hi. apply in_app_or in Hi. destruct Hi as [Hi|[<-|[]]]; auto.
    unfold nonnull in Hi. apply filter_In in Hi. destruct Hi as [Hi _]. apply in_seq in Hi. lia. }
  assert (IBn : forall i, (i < M)%nat -> (nth i idx 0 < M)%nat) by (intros i Hi; apply IB, nth_In; lia).
  set (vec0 := set1 (cVec s) (M - 1) (flip (fun j => vecs j (cNull s)))).
  assert (V0 : forall i, (i < M)%nat -> vec0 i = flip (fun j => vecs j (nth i idx 0%nat))).
  { intros i Hi. unfold vec0, idx. destruct (Nat.eq_dec i (M - 1)) as [->|D].
    - rewrite set1_eq, app_nth2 by lia. rewrite <- EK, KM, Nat.sub_diag. reflexivity.
    - rewrite set1_neq by auto. rewrite app_nth1 by lia. apply ER. lia. }
  assert (VS : forall i, (i < M)%nat -> exists sg, sg * sg = 1 /\ 0 <= vec0 i 0%nat /\ (forall a, vec0 i a = sg * vecs a (nth i idx 0%nat)) /\
     forall a, normalize M (vec0 i) a = sg * sqrt (INR M) * vecs a (nth i idx 0%nat)).
  { intros i Hi. destruct (flip_spec (fun j => vecs j (nth i idx 0%nat))) as (sg & S1 & S2 & S3).
    exists sg. rewrite (V0 i Hi). repeat split; auto. intros a. unfold normalize.
    assert (N1 : rsum M (fun a0 => flip (fun j => vecs j (nth i idx 0%nat)) a0 * flip (fun j => vecs j (nth i idx 0%nat)) a0) = 1).
    { rewrite (rsum_ext M _ (fun a0 => vecs a0 (nth i idx 0%nat) * vecs a0 (nth i idx 0%nat))).
      - rewrite G1 by auto. unfold delta. rewrite Nat.eqb_refl. reflexivity.
      - intros b Hb. rewrite S2. transitivity ((sg * sg) * (vecs b (nth i idx 0%nat) * vecs b (nth i idx 0%nat))); [ring|rewrite S1; ring]. }
    rewrite N1, S2. unfold Rdiv. rewrite Rinv_1, Rmult_1_r. ring. }
  assert (SQ : sqrt (INR M) * sqrt (INR M) = INR M) by (apply sqrt_sqrt; lra).
  (* overlap with (1,...,1) *)
  assert (AL : forall i, (i < M)%nat -> vals i * rsum M (fun a => vecs a i) = 0).
  { intros i Hi. rewrite <- rsum_scal.
    rewrite (rsum_ext M _ (fun a => rsum M (fun b => chiP M chi a b * vecs b i))) by (intros a Ha; rewrite G3; auto).
    rewrite rsum_swap. transitivity (rsum M (fun b => 0)); [|apply rsum_zero].
    apply rsum_ext. intros b Hb. rewrite (rsum_scal_r M (vecs b i) (fun a => chiP M chi a b)), chiP_colsum; auto. ring. }
  assert (AZ : forall j, (j < M - 1)%nat -> rsum M (fun a => vecs a (nth j idx 0%nat)) = 0).
  { intros j Hj. assert (JM : (j < M)%nat) by lia. specialize (AL _ (IBn j JM)).
    assert (NZ : vals (nth j idx 0%nat) <> 0).
    { unfold idx. rewrite app_nth1 by lia. destruct (ER j) as (R1 & _ & R3); [lia|]. rewrite R1 in R3. lra. }
    apply Rmult_integral in AL. tauto. }
  assert (VN : forall a, (a < M)%nat -> vecs a (cNull s) * rsum M (fun b => vecs b (cNull s)) = 1).
  { intros a Ha.
    assert (T1 : rsum M (fun b => rsum M (fun i => vecs a i * vecs b i)) = 1).
    { rewrite (rsum_ext M _ (fun b => delta a b * 1)) by (intros b Hb; rewrite G2; auto; ring).
      rewrite (delta_l M (fun _ => 1)); auto. }
    rewrite rsum_swap in T1. rewrite (rsum_ext M _ (fun i => vecs a i * rsum M (fun b => vecs b i))) in T1 by (intros i Hi; exact (rsum_scal M (vecs a i) (fun b => vecs b i))).
    rewrite <- (rsum_reindex M idx (fun i => vecs a i * rsum M (fun b => vecs b i))) in T1; auto.
    rewrite (rsum_single M (M - 1)) in T1; [|lia|].
    - unfold idx in T1. rewrite app_nth2 in T1 by lia. rewrite <- EK, KM, Nat.sub_diag in T1. exact T1.
    - intros i Hi Di. rewrite AZ by lia. ring. }
  set (al := rsum M (fun b => vecs b (cNull s))) in *.
  assert (AL0 : al <> 0). { intros Z. specialize (VN 0%nat MP). rewrite Z in VN. lra. }
  assert (VC : forall a, (a < M)%nat -> vecs a (cNull s) = / al).
  { intros a Ha. specialize (VN a Ha). apply (Rmult_eq_reg_r al); auto. rewrite VN. field. auto. }
  assert (AA : al * al = INR M).
  { assert (al = INR M * / al). { unfold al at 1. rewrite (rsum_ext M _ (fun _ => / al)) by auto. rewrite rsum_const. reflexivity. }
    rewrite H at 1. field. auto. }
  constructor; cbn [gVal gVec gSc]; fold vec0.
  - intros i j Hi Hj. destruct (VS i Hi) as (a1 & A1 & _ & _ & A2). destruct (VS j Hj) as (b1 & B1 & _ & _ & B2).
    rewrite (rsum_ext M _ (fun a => (a1 * b1 * INR M) * (vecs a (nth i idx 0%nat) * vecs a (nth j idx 0%nat)))).
    + rewrite rsum_scal, G1 by auto. unfold delta. destruct (Nat.eqb_spec i j) as [->|D].
      * rewrite Nat.eqb_refl. assert (a1 * b1 = 1).
        { pose proof (A2 0%nat) as X. rewrite B2 in X.
          (* same row: both signs agree on every component, use the norm *)
          assert (Y : forall a, a1 * vecs a (nth j idx 0%nat) = b1 * vecs a (nth j idx 0%nat)).
          { intros a. pose proof (A2 a) as Q. rewrite B2 in Q. apply (Rmult_eq_reg_l (sqrt (INR M))); [lra|].
            intros Z. rewrite Z in SQ. lra. }
          assert (Z : a1 * rsum M (fun a => vecs a (nth j idx 0%nat) * vecs a (nth j idx 0%nat)) = b1 * rsum M (fun a => vecs a (nth j idx 0%nat) * vecs a (nth j idx 0%nat))).
          { rewrite <- !rsum_scal. apply rsum_ext. intros a Ha. rewrite <- !Rmult_assoc. rewrite Y. reflexivity. }
          rewrite G1 in Z by auto. unfold delta in Z. rewrite Nat.eqb_refl in Z. assert (a1 = b1) by lra. subst. exact B1. }
        rewrite H. ring.
      * destruct (Nat.eqb_spec (nth i idx 0%nat) (nth j idx 0%nat)) as [Q|Q]; [|ring].
        exfalso. apply D. apply (proj1 (NoDup_nth idx 0%nat) ND); auto; lia.
    + intros a Ha. rewrite A2, B2.
      transitivity (a1 * b1 * (sqrt (INR M) * sqrt (INR M)) * (vecs a (nth i idx 0%nat) * vecs a (nth j idx 0%nat))); [ring|rewrite SQ; ring].
  - intros a b Ha Hb.
    rewrite (rsum_ext M _ (fun i => INR M * (vecs a (nth i idx 0%nat) * vecs b (nth i idx 0%nat)))).
    + rewrite rsum_scal. rewrite (rsum_reindex M idx (fun i => vecs a i * vecs b i)); auto. rewrite G2; auto.
    + intros i Hi. destruct (VS i Hi) as (a1 & A1 & _ & _ & A2). rewrite !A2.
      transitivity ((a1 * a1) * (sqrt (INR M) * sqrt (INR M) * (vecs a (nth i idx 0%nat) * vecs b (nth i idx 0%nat)))); [ring|rewrite A1, SQ; ring].
  - intros a Ha. destruct (VS (M - 1)%nat) as (sg & S1 & S2 & S3 & S4); [lia|].
    rewrite S4. rewrite S3 in S2.
    replace (nth (M - 1) idx 0%nat) with (cNull s) in * by (unfold idx; rewrite app_nth2, <- EK, KM, Nat.sub_diag by lia; reflexivity).
    rewrite VC in * by auto.
    assert (P : 0 < sg * / al).
    { destruct S2 as [S2|S2]; auto. exfalso. assert (Q : (sg * / al) * (sg * / al) <> 0).
      - replace ((sg * / al) * (sg * / al)) with ((sg * sg) * / (al * al)) by (field; auto). rewrite S1, AA.
        apply Rmult_integral_contrapositive_currified; [lra|]. apply Rinv_neq_0_compat. lra.
      - apply Q. rewrite <- S2. ring. }
    assert (Q : sqrt (INR M) = sg * al).
    { apply Rsqr_inj. apply sqrt_pos. 
      - apply Rlt_le. replace (sg * al) with ((sg * / al) * (al * al)) by (field; auto). rewrite AA. apply Rmult_lt_0_compat; auto.
      - unfold Rsqr. rewrite SQ. transitivity ((sg * sg) * (al * al)); [rewrite S1, AA; ring|ring]. }
    rewrite Q. transitivity (sg * sg * (al * / al)); [ring|]. rewrite S1. field. auto.
  - intros j Hj. destruct (VS j) as (sg & _ & _ & _ & S4); [lia|].
    rewrite (rsum_ext M _ (fun a => (sg * sqrt (INR M)) * vecs a (nth j idx 0%nat))) by (intros; apply S4).
    rewrite rsum_scal, AZ by auto. ring.
  - intros j Hj. rewrite set1_neq by lia. apply ER. lia.
  - intros j a Hj Ha. destruct (VS j) as (sg & _ & _ & _ & S4); [lia|].
    assert (Z : rsum M (fun b => normalize M (vec0 j) b) = 0).
    { rewrite (rsum_ext M _ (fun a => (sg * sqrt (INR M)) * vecs a (nth j idx 0%nat))) by (intros; apply S4).
      rewrite rsum_scal, AZ by auto. ring. }
    rewrite <- (chiP_apply M chi (fun b => normalize M (vec0 j) b)); auto.
    rewrite (rsum_ext M _ (fun b => (sg * sqrt (INR M)) * (chiP M chi a b * vecs b (nth j idx 0%nat)))) by (intros; rewrite S4; ring).
    rewrite rsum_scal, G3 by (auto; apply IBn; lia). rewrite set1_neq by lia.
    destruct (ER j) as (R1 & _ & _); [lia|]. rewrite R1, S4.
    unfold idx. rewrite app_nth1 by lia. ring.
  - apply set1_eq.
  - intros j Hj. rewrite (rsum_ext M (fun a => rsum M (fun b => normalize M (vec0 j) a * chi a b)) (fun a => normalize M (vec0 j) a * rsum M (fun b => chi a b)))
      by (intros a Ha; exact (rsum_scal M _ (fun b => chi a b))).
    rewrite (rsum_ext M (fun j0 => normalize M (vec0 j) j0 * (rsum M (fun j1 => chi j0 j1) / INR M)) (fun a => (/ INR M) * (normalize M (vec0 j) a * rsum M (fun b => chi a b))))
      by (intros; unfold Rdiv; ring).
    rewrite rsum_scal. field. lra.
Qed.

(** Components of displaced fields. *)
Lemma wcOf_displace M chi g w dwc j k : eigSpec M chi g -> (j < M)%nat ->
  wcOf M g (displace M g w dwc) j k = wcOf M g w j k + (if (j <? M - 1)%nat then dwc j k else 0).
Proof.
  intros E Hj. assert (MR : INR M <> 0) by (apply not_0_INR; lia).
  unfold wcOf, displace.
  rewrite (rsum_ext M _ (fun a => gVec g j a / INR M * w a k + rsum (M - 1) (fun l => dwc l k / INR M * (gVec g j a * gVec g l a)))).
  2:{ intros a Ha. rewrite Rmult_plus_distr_l. f_equal. rewrite <- rsum_scal. apply rsum_ext. intros l Hl. field. auto. }
  rewrite rsum_plus. f_equal. rewrite rsum_swap.
  rewrite (rsum_ext (M - 1) _ (fun l => delta j l * dwc l k)).
  2:{ intros l Hl. rewrite rsum_scal, (es_orth _ _ _ E) by lia. field. auto. }
  destruct (Nat.ltb_spec j (M - 1)).
  - apply (delta_l (M - 1) (fun l => dwc l k)). auto.
  - transitivity (rsum (M - 1) (fun _ => 0)); [|apply rsum_zero]. apply rsum_ext. intros l Hl.
    unfold delta. destruct (Nat.eqb_spec j l); [lia|ring].
Qed.
(** Components of fields shifted by the same amount for all monomer types. *)
Lemma wcOf_shift M chi g w (u : nat -> R) j k : eigSpec M chi g -> (j < M)%nat ->
  wcOf M g (fun i k => w i k + u k) j k = wcOf M g w j k + (if (j =? M - 1)%nat then u k else 0).
Proof.
  intros E Hj. assert (MR : INR M <> 0) by (apply not_0_INR; lia).
  unfold wcOf.
  rewrite (rsum_ext M _ (fun a => gVec g j a / INR M * w a k + (u k / INR M) * gVec g j a)) by (intros; field; auto).
  rewrite rsum_plus. f_equal. rewrite rsum_scal. destruct (Nat.eqb_spec j (M - 1)) as [->|D].
  - rewrite (rsum_ext M _ (fun _ => 1)) by (intros; apply (es_press _ _ _ E); auto). rewrite rsum_const. field. auto.
  - rewrite (es_sum _ _ _ E) by lia. ring.
Qed.
(** The fields are determined by their components. *)
Lemma wcOf_inverse M chi g w i k : eigSpec M chi g -> (i < M)%nat ->
  rsum M (fun j => gVec g j i * wcOf M g w j k) = w i k.
Proof.
  intros E Hi. assert (MR : INR M <> 0) by (apply not_0_INR; lia).
  unfold wcOf.
  rewrite (rsum_ext M _ (fun j => rsum M (fun a => (w a k / INR M) * (gVec g j i * gVec g j a)))).
  2:{ intros j Hj. rewrite <- rsum_scal. apply rsum_ext. intros a Ha. field. auto. }
  rewrite rsum_swap. rewrite (rsum_ext M _ (fun a => delta i a * w a k)).
  - apply (delta_l M (fun a => w a k)). auto.
  - intros a Ha. rewrite rsum_scal, (es_compl _ _ _ E) by auto. field. auto.
Qed.
