(** Proofs for Intra.v: sums over pairs of blocks *)
From Coq Require Import Reals List Bool Arith Lia Lra.
From Coquelicot Require Import Coquelicot.
From Verif Require Import Base RSum PolymerModel Polymer PolymerSpec PolymerPaths PropsPolymer Debye PropsDebye IntraSpec Intra IntraProofs.
Import ListNotations.
Local Open Scope R_scope.

(** ** Sums over pairs *)
Lemma rsum_sym : forall n (M : nat -> nat -> R), (forall a b, (a < n)%nat -> (b < n)%nat -> M a b = M b a) ->
  rsum n (fun a => rsum n (fun b => M a b)) = rsum n (fun a => M a a) + 2 * rsum n (fun a => rsum a (fun b => M a b)).
Proof.
  induction n; intros M H; [simpl; lra|]. cbn [rsum]. rewrite rsum_plus, IHn by (intros; apply H; lia).
  rewrite (rsum_ext n (fun i => M i n) (fun i => M n i)) by (intros; apply H; lia). lra.
Qed.

Lemma loop_sum : forall n first (f : nat -> R -> outcome R) g x,
  (forall i y, (first <= i < first + n)%nat -> f i y = Ok (y + g i)) ->
  loop n first f x = Ok (x + rsum n (fun i => g (first + i)%nat)).
Proof.
  induction n; intros first f g x H; cbn [loop].
  - simpl. f_equal. lra.
  - rewrite H by lia. cbn [bind]. rewrite (IHn (S first) f g) by (intros; apply H; lia). f_equal.
    rewrite rsum_S_first, Nat.add_0_r. rewrite (rsum_ext n (fun i => g (S first + i)%nat) (fun i => g (first + S i)%nat)); [lra|].
    intros. f_equal. lia.
Qed.

Lemma through_lsum : forall kuhn len l, throughBlocks kuhn len l = lsum (fun z => len (fst z) * kuhn (fst z) ^ 2) l.
Proof. intros. induction l; [reflexivity|]. unfold throughBlocks. cbn [fold_right lsum]. f_equal. exact IHl. Qed.
Lemma lsum_rev : forall {A} (f : A -> R) l, lsum f (rev l) = lsum f l.
Proof. induction l; simpl; auto. rewrite lsum_app, IHl. simpl. lra. Qed.
Lemma lsum_map : forall {A B} (f : B -> R) (g : A -> B) l, lsum f (map g l) = lsum (fun a => f (g a)) l.
Proof. induction l; simpl; auto. rewrite IHl. auto. Qed.
Lemma through_flip : forall kuhn len l, throughBlocks kuhn len (rev (map flip l)) = throughBlocks kuhn len l.
Proof. intros. rewrite !through_lsum, lsum_rev, lsum_map. reflexivity. Qed.

Section Chain.
Variables (es : list (nat * nat)) (m : model) (v : R) (fuel : nat) (c : chain).
Hypothesis HT : tree es.
Hypothesis HR : exists f, (2 * length es <= f)%nat /\ readGraph f es = Ok (c_graph c).
Hypothesis HF : (length es <= fuel)%nat.

Let len := blockLength m c.
Let kuhn := c_kuhn c.

Lemma nBlock_es : nBlock c = length es.
Proof. destruct HR as (f & F & E). unfold nBlock. now rewrite (p_es es f _ HT F E). Qed.

Definition gapStart (A B : nat) : R := match m with Thread => 0 | Bead => / 2 * (kuhn A ^ 2 + kuhn B ^ 2) end.

Lemma sumBlocks_route : forall A B l r, (forall z, In z l -> fst z <> A /\ fst z <> B) ->
  sumBlocks m c A B l r = r + throughBlocks kuhn len l.
Proof.
  induction l as [|z l IH]; intros r H; cbn [sumBlocks]; [simpl; lra|].
  destruct (H z (or_introl eq_refl)) as [H1 H2]. apply Nat.eqb_neq in H1, H2. rewrite H1, H2. cbn [negb andb].
  rewrite IH by (intros; apply H; right; auto). simpl. unfold len, kuhn. lra.
Qed.

Lemma rsqAB_route : forall A B x l y, A <> B -> route es A B x l y ->
  rsqAB fuel m c A B = Ok (gapStart A B + throughBlocks kuhn len l).
Proof.
  intros A B x l y NE RT. destruct HR as (f & F & E). unfold rsqAB.
  pose proof (route_short es f _ HT F E A B x l y RT NE) as S.
  rewrite (edges_route es f _ HT F E A B x l y fuel NE RT) by lia. cbn [bind]. f_equal. cbn [sumBlocks].
  destruct (RT) as (EA & _ & _). rewrite EA, Nat.eqb_refl. cbn [negb andb].
  rewrite sumBlocks_route.
  - unfold gapStart. destruct m; unfold kuhn; lra.
  - intros z IN. destruct (route_blocks es f _ HT F E A B x l y RT NE) as [N _]. inversion N as [|? ? N1 N2]; subst.
    inversion N2 as [|? ? N3 N4]; subst. apply (in_map fst) in IN. split; intros Q; rewrite Q in IN; auto. apply N1. right; auto.
Qed.

(** The mean square distance between the facing ends of two blocks *)
Definition gap (A B : nat) : R := match rsqAB fuel m c A B with Ok r => r | _ => 0 end.
Lemma gap_route : forall A B x l y, A <> B -> route es A B x l y -> gap A B = gapStart A B + throughBlocks kuhn len l.
Proof. intros. unfold gap. erewrite rsqAB_route; eauto. Qed.
Lemma gap_ok : forall A B, (A < length es)%nat -> (B < length es)%nat -> A <> B -> rsqAB fuel m c A B = Ok (gap A B) /\ gap A B = gap B A.
Proof.
  intros A B LA LB NE. destruct HR as (f & F & E). destruct (route_exists es HT A B LA LB NE) as (x & l & y & RT).
  pose proof (rsqAB_route A B x l y NE RT) as H. rewrite (gap_route A B x l y NE RT).
  rewrite (gap_route B A _ _ _ (not_eq_sym NE) (route_flip _ _ _ _ _ _ RT)). split; auto. rewrite through_flip. f_equal.
  unfold gapStart. destruct m; lra.
Qed.
Lemma gap_pos : forall A B, (A < length es)%nat -> (B < length es)%nat -> A <> B -> (forall j, (j < length es)%nat -> 0 <= len j) -> 0 <= gap A B.
Proof.
  intros A B LA LB NE HL. destruct HR as (f & F & E). destruct (route_exists es HT A B LA LB NE) as (x & l & y & RT).
  rewrite (gap_route A B x l y NE RT). destruct (route_blocks es f _ HT F E A B x l y RT NE) as [_ P].
  assert (0 <= throughBlocks kuhn len l).
  { clear - P HL. induction l as [|z l IH]; simpl; [lra|]. specialize (IH (fun z H => P z (or_intror H))).
    assert (0 <= len (fst z)) by (apply HL, (P z); left; auto). pose proof (pow2_ge_0 (kuhn (fst z))).
    pose proof (Rmult_le_pos _ _ H H0). simpl in *. lra. }
  assert (0 <= gapStart A B).
  { unfold gapStart. destruct m; [lra|]. pose proof (pow2_ge_0 (kuhn A)). pose proof (pow2_ge_0 (kuhn B)). lra. }
  lra.
Qed.

(** A matrix of pair terms from terms of single blocks *)
Definition pairMat (ksq : R) (D E : nat -> R) (A B : nat) : R :=
  if (A =? B)%nat then D A else exp (- gap A B * ksq / 6) * E A * E B.
Lemma pairMat_sym : forall ksq D E A B, (A < length es)%nat -> (B < length es)%nat -> pairMat ksq D E A B = pairMat ksq D E B A.
Proof.
  intros ksq D E A B LA LB. unfold pairMat. rewrite (Nat.eqb_sym B A). destruct (Nat.eqb_spec A B) as [->|NE]; auto.
  rewrite (proj2 (gap_ok A B LA LB NE)). ring.
Qed.

Lemma polymerCorr_sum : forall ksq x, polymerCorr fuel m v ksq c x =
  Ok (x + cPolymer m v c * rsum (length es) (fun A => rsum (length es) (fun B => pairMat ksq (diagTerm m c ksq) (endTerm m c ksq) A B))).
Proof.
  intros ksq x. unfold polymerCorr. rewrite nBlock_es.
  rewrite (loop_sum _ _ _ (fun j => cPolymer m v c * diagTerm m c ksq j)) by auto. cbn [bind plus].
  set (M := pairMat ksq (diagTerm m c ksq) (endTerm m c ksq)).
  rewrite (rsum_sym (length es) M) by (intros; apply pairMat_sym; auto).
  assert (HD : rsum (length es) (fun A => M A A) = rsum (length es) (fun j => diagTerm m c ksq j)).
  { apply rsum_ext. intros. unfold M, pairMat. now rewrite Nat.eqb_refl. }
  rewrite HD, rsum_scal. cbn [Nat.add].
  destruct (Nat.ltb_spec 1 (length es)) as [L|L].
  - rewrite (loop_sum _ _ _ (fun ia => rsum ia (fun ib => 2 * cPolymer m v c * M ia ib))).
    + f_equal. rewrite (rsum_ext (length es - 1) _ (fun i => 2 * cPolymer m v c * rsum (S i) (fun ib => M (S i) ib))) by (intros; rewrite rsum_scal; auto).
      rewrite rsum_scal. destruct (length es) as [|n] eqn:EN; [lia|]. replace (S n - 1)%nat with n by lia.
      rewrite (rsum_S_first n (fun a => rsum a (fun b => M a b))). cbn [rsum]. lra.
    + intros ia y HI. rewrite (loop_sum _ _ _ (fun ib => 2 * cPolymer m v c * M ia ib)); [cbn [Nat.add]; reflexivity|].
      intros ib z HJ. unfold pairTerm. destruct (gap_ok ia ib) as [-> _]; [lia|lia|lia|]. cbn [bind]. f_equal.
      unfold M, pairMat. replace (ia =? ib)%nat with false by (symmetry; apply Nat.eqb_neq; lia). ring.
  - f_equal. destruct (length es) as [|[|n]]; [simpl; lra|simpl; lra|lia].
Qed.
End Chain.

(** ** Integrals *)
Lemma ends_cont : forall k (f : R -> R), (exists a b, forall s, f s = a + b * s) -> forall L, ex_RInt (fun s => exp (- (k * f s))) 0 L.
Proof.
  intros k f (a & b & H) L. apply (ex_RInt_ext (fun s => exp (- (k * (a + b * s))))); [intros; now rewrite H|].
  apply (@ex_RInt_continuous R_CompleteNormedModule). intros z _. apply (ex_derive_continuous (fun s => exp (- (k * (a + b * s))))). auto_derive. trivial.
Qed.
Lemma threadEnd_rev : forall k L, RInt (fun s => exp (- (k * (L - s)))) 0 L = threadEnd k L.
Proof.
  intros k L. destruct (Req_dec k 0) as [->|K].
  - rewrite threadEnd_zero. rewrite (RInt_ext _ (fun _ => 1)); [rewrite RInt_const; unfold scal; cbn; unfold mult; cbn; ring|].
    intros s _. rewrite Rmult_0_l, Ropp_0. apply exp_0.
  - rewrite threadEnd_closed by auto. apply is_RInt_unique.
    replace ((1 - exp (- (k * L))) / k) with (minus (exp (- (k * (L - L))) / k) (exp (- (k * (L - 0))) / k)).
    + apply (is_RInt_derive (fun s => exp (- (k * (L - s))) / k) (fun s => exp (- (k * (L - s))))).
      * intros s _. auto_derive; [trivial|]. unfold Rminus. field. exact K.
      * intros s _. apply (ex_derive_continuous (fun s => exp (- (k * (L - s))))). auto_derive. trivial.
    + unfold minus, Hierarchy.plus, opp; cbn. replace (L - L) with 0 by ring. rewrite Rmult_0_r, Ropp_0, exp_0.
      replace (L - 0) with L by ring. field. exact K.
Qed.
Lemma threadEnd_to : forall k x L, RInt (fun s => exp (- (k * toEnd x L s))) 0 L = threadEnd k L.
Proof. intros k [b []] L; unfold toEnd; cbn [snd]; [reflexivity|apply threadEnd_rev]. Qed.
Lemma threadEnd_from : forall k y L, RInt (fun s => exp (- (k * fromStart y L s))) 0 L = threadEnd k L.
Proof. intros k [b []] L; unfold fromStart; cbn [snd]; [apply threadEnd_rev|reflexivity]. Qed.
Lemma affine_to : forall x L, exists a b, forall s, toEnd x L s = a + b * s.
Proof. intros [b []] L; unfold toEnd; cbn [snd]; [exists 0, 1|exists L, (-1)]; intros; ring. Qed.
Lemma affine_from : forall y L, exists a b, forall s, fromStart y L s = a + b * s.
Proof. intros [b []] L; unfold fromStart; cbn [snd]; [exists L, (-1)|exists 0, 1]; intros; ring. Qed.

Lemma RInt_mul : forall (f : R -> R) k a b, ex_RInt f a b -> RInt (fun s => k * f s) a b = k * RInt f a b.
Proof. intros f k a b H. exact (@RInt_scal R_CompleteNormedModule f a b k H). Qed.
Lemma thread_factor : forall ksq a b g x y LA LB,
  RInt (fun s => RInt (fun t => exp (- (ksq * (a ^ 2 * toEnd x LA s + g + b ^ 2 * fromStart y LB t) / 6))) 0 LB) 0 LA =
  exp (- g * ksq / 6) * threadEnd (rate ksq a) LA * threadEnd (rate ksq b) LB.
Proof.
  intros ksq a b g x y LA LB.
  rewrite (RInt_ext _ (fun s => (exp (- g * ksq / 6) * threadEnd (rate ksq b) LB) * exp (- (rate ksq a * toEnd x LA s)))).
  - rewrite RInt_mul by apply (ends_cont _ _ (affine_to x LA) LA). rewrite threadEnd_to. match goal with |- @eq _ ?p ?q => change (@eq R p q) end. ring.
  - intros s _.
    rewrite (RInt_ext _ (fun t => (exp (- g * ksq / 6) * exp (- (rate ksq a * toEnd x LA s))) * exp (- (rate ksq b * fromStart y LB t)))).
    + rewrite RInt_mul by apply (ends_cont _ _ (affine_from y LB) LB). rewrite threadEnd_from. match goal with |- @eq _ ?p ?q => change (@eq R p q) end. ring.
    + intros t _. rewrite <- !exp_plus. f_equal. unfold rate. field.
Qed.

Lemma beadEnd_to : forall k x n, rsum n (fun i => exp (- (k * toEndB x n i))) = exp (- (k / 2)) * beadEnd k n.
Proof.
  intros k [b []] n; unfold toEndB, beadEnd; cbn [snd].
  - rewrite <- rsum_scal. apply rsum_ext. intros i _. rewrite <- exp_plus. f_equal. field.
  - rewrite (rsum_rev n (fun i => exp (- (k * INR i)))), <- rsum_scal. apply rsum_ext. intros i _. rewrite <- exp_plus. f_equal. field.
Qed.
Lemma beadEnd_from : forall k x n, rsum n (fun i => exp (- (k * fromStartB x n i))) = exp (- (k / 2)) * beadEnd k n.
Proof.
  intros k [b d] n. rewrite <- (beadEnd_to k (b, negb d) n). apply rsum_ext. intros. unfold fromStartB, toEndB. cbn [snd]. destruct d; reflexivity.
Qed.
Lemma bead_factor : forall ksq a b g x y nA nB,
  rsum nA (fun i => rsum nB (fun j => exp (- (ksq * (a ^ 2 * toEndB x nA i + g + b ^ 2 * fromStartB y nB j) / 6)))) =
  exp (- (/ 2 * (a ^ 2 + b ^ 2) + g) * ksq / 6) * beadEnd (rate ksq a) nA * beadEnd (rate ksq b) nB.
Proof.
  intros ksq a b g x y nA nB.
  rewrite (rsum_ext nA _ (fun i => (exp (- g * ksq / 6) * (exp (- (rate ksq b / 2)) * beadEnd (rate ksq b) nB)) * exp (- (rate ksq a * toEndB x nA i)))).
  - rewrite rsum_scal, beadEnd_to.
    replace (exp (- (/ 2 * (a ^ 2 + b ^ 2) + g) * ksq / 6)) with (exp (- g * ksq / 6) * exp (- (rate ksq b / 2)) * exp (- (rate ksq a / 2))); [ring|].
    rewrite <- !exp_plus. f_equal. unfold rate. field.
  - intros i _. rewrite <- (beadEnd_from _ y), <- !rsum_scal, <- rsum_scal_r. apply rsum_ext. intros j _. rewrite <- !exp_plus. f_equal. unfold rate. field.
Qed.
Lemma absd_abs : forall i j, INR (absd i j) = Rabs (INR i - INR j).
Proof.
  intros i j. unfold absd. destruct (Nat.le_ge_cases i j) as [H|H].
  - replace (i - j + (j - i))%nat with (j - i)%nat by lia. rewrite minus_INR, Rabs_minus_sym, Rabs_pos_eq by (auto; apply le_INR in H; lra). lra.
  - replace (i - j + (j - i))%nat with (i - j)%nat by lia. rewrite minus_INR, Rabs_pos_eq by (auto; apply le_INR in H; lra). lra.
Qed.
