(** C81: host complex arithmetic, vector operations and reductions, with
    arguments that may be the same object. *)
From Coq Require Import Reals List Arith Bool Lia Lra Permutation.
From Coquelicot Require Import Complex.
From Verif Require Import Base RSum HostOps.
Import ListNotations.
Local Open Scope R_scope.

(* ---------- specification ---------- *)
(** The complex number held by a variable. *)
Definition cval (m : mem) (z : nat) : C := (m z, m (z + 1)%nat).
(** Two variables without common cells. *)
Definition apart (z a : nat) : Prop := (z + 2 <= a)%nat \/ (a + 2 <= z)%nat.
Definition same_or_apart (z a : nat) : Prop := z = a \/ apart z a.
(** After the call z holds v and nothing else has changed. *)
Definition sets (m m' : mem) (z : nat) (v : C) : Prop :=
  cval m' z = v /\ forall x, x <> z -> x <> (z + 1)%nat -> m' x = m x.

Ltac cells := repeat match goal with
  | |- context [(?x =? ?y)%nat] => destruct (Nat.eqb_spec x y); try lia
  end.
Ltac csolve := intros; unfold sets, cval, store; cbn beta zeta; split;
  [ unfold Cminus, Cplus, Copp, Cmult, Cconj, RtoC; cbn [fst snd]; cells; subst; apply injective_projections; cbn [fst snd]; try reflexivity; try ring
  | intros; cells; auto ].

(** Correct also if the result is one of the arguments. *)
Theorem C81_complex : forall m z a b x y, same_or_apart z a -> same_or_apart z b ->
  sets m (conjC m z a) z (Cconj (cval m a)) /\
  sets m (conjEq m z) z (Cconj (cval m z)) /\
  sets m (assign2 m z x y) z (x, y) /\
  sets m (assign1 m z x) z (RtoC x) /\
  sets m (assignC m z a) z (cval m a) /\
  sets m (addC m z a b) z (Cplus (cval m a) (cval m b)) /\
  sets m (addR m z a x) z (Cplus (cval m a) (RtoC x)) /\
  sets m (addEqC m z b) z (Cplus (cval m z) (cval m b)) /\
  sets m (addEqR m z x) z (Cplus (cval m z) (RtoC x)) /\
  sets m (subC m z a b) z (Cminus (cval m a) (cval m b)) /\
  sets m (subR m z a x) z (Cminus (cval m a) (RtoC x)) /\
  sets m (subEqC m z b) z (Cminus (cval m z) (cval m b)) /\
  sets m (subEqR m z x) z (Cminus (cval m z) (RtoC x)) /\
  sets m (mulR m z a x) z (Cmult (cval m a) (RtoC x)) /\
  sets m (mulEqC m z b) z (Cmult (cval m z) (cval m b)) /\
  sets m (mulEqR m z x) z (Cmult (cval m z) (RtoC x)).
Proof.
  intros m z a b x y HA HB. unfold same_or_apart, apart in *.
  destruct HA as [->|HA]; destruct HB as [->|HB];
  repeat match goal with |- _ /\ sets _ _ _ _ => split | |- sets _ _ _ _ /\ _ => split end;
  unfold conjC, conjEq, assign2, assign1, assignC, addC, addR, addEqC, addEqR, subC, subR, subEqC, subEqR, mulR, mulEqC, mulEqR; csolve.
Qed.

(** Quotients, for a divisor that is not zero. *)
Lemma Cdiv_parts : forall a b : C, b <> RtoC 0 ->
  fst b * fst b + snd b * snd b <> 0 /\
  Cdiv a b = ((fst a * fst b + snd a * snd b) / (fst b * fst b + snd b * snd b),
              (snd a * fst b - fst a * snd b) / (fst b * fst b + snd b * snd b)).
Proof.
  intros [a0 a1] [b0 b1] H. cbn [fst snd].
  assert (N : b0 * b0 + b1 * b1 <> 0).
  { intros E. apply H. assert (b0 = 0 /\ b1 = 0) as [-> ->] by nra. reflexivity. }
  split; auto. unfold Cdiv, Cinv, Cmult. cbn [fst snd].
  assert (N' : b0 ^ 2 + b1 ^ 2 <> 0) by (replace (b0 ^ 2 + b1 ^ 2) with (b0 * b0 + b1 * b1) by ring; auto).
  apply injective_projections; cbn [fst snd]; field; auto.
Qed.
Theorem C81_complex_quotient : forall m z a b x, same_or_apart z a -> same_or_apart z b ->
  (x <> 0 -> sets m (divR m z a x) z (Cdiv (cval m a) (RtoC x)) /\ sets m (divEqR m z x) z (Cdiv (cval m z) (RtoC x))) /\
  (cval m b <> RtoC 0 -> sets m (divEqC m z b) z (Cdiv (cval m z) (cval m b))).
Proof.
  intros m z a b x HA HB. split.
  - intros Hx. assert (X : RtoC x <> RtoC 0) by (intros E; apply (f_equal fst) in E; cbn in E; contradiction).
    unfold sets. rewrite !(fun c => proj2 (Cdiv_parts c (RtoC x) X)). unfold cval, RtoC, divR, divEqR, store. cbn [fst snd].
    unfold same_or_apart, apart in HA. destruct HA as [->|HA]; split;
      (split; [apply injective_projections; cbn [fst snd]; cells; subst; try (field; auto)|intros; cells; auto]).
  - intros Hb. unfold sets. destruct (Cdiv_parts (cval m z) (cval m b) Hb) as [N ->]. unfold cval in *. cbn [fst snd] in *. unfold divEqC, store.
    unfold same_or_apart, apart in HB. split; [apply injective_projections; cbn [fst snd]; cells; auto|intros; cells; auto].
Qed.

(** Products into a variable of their own. *)
Theorem C81_complex_product : forall m z a b, apart z a -> apart z b ->
  sets m (mulC m z a b) z (Cmult (cval m a) (cval m b)) /\
  sets m (squareC m z a) z (Cmult (cval m a) (cval m a)) /\
  (cval m b <> RtoC 0 -> sets m (divC m z a b) z (Cdiv (cval m a) (cval m b))).
Proof.
  intros m z a b HA HB. unfold apart in *. split; [|split].
  - unfold mulC. csolve.
  - unfold squareC. csolve.
  - intros Hb. unfold sets. destruct (Cdiv_parts (cval m a) (cval m b) Hb) as [N ->]. unfold cval in *. cbn [fst snd] in *. unfold divC, store.
    split; [apply injective_projections; cbn [fst snd]; cells; auto|intros; cells; auto].
Qed.

(** Each of them is wrong if the result is an argument. *)
Definition mAlias : mem := fun x => INR x.
Theorem C81_complex_alias_refuted : exists m z b, apart z b /\ cval m b <> RtoC 0 /\
  ~ sets m (mulC m z z b) z (Cmult (cval m z) (cval m b)) /\
  ~ sets m (mulC m b z b) b (Cmult (cval m z) (cval m b)) /\
  ~ sets m (squareC m z z) z (Cmult (cval m z) (cval m z)) /\
  ~ sets m (divC m z z b) z (Cdiv (cval m z) (cval m b)) /\
  ~ sets m (divC m b z b) b (Cdiv (cval m z) (cval m b)).
Proof.
  exists mAlias, 1%nat, 3%nat. assert (NB : cval mAlias 3 <> RtoC 0).
  { intros E. apply (f_equal fst) in E. cbn in E. lra. }
  split; [left; lia|]. split; auto.
  assert (K : forall m', (exists z v, sets mAlias m' z v /\ snd v <> m' (z + 1)%nat) -> False).
  { intros m' [z [v [[A _] B]]]. apply B. rewrite <- A. reflexivity. }
  split; [|split; [|split; [|split]]]; intros H; eapply K; do 2 eexists; (split; [exact H|]).
  1-3: cbn; lra.
  all: rewrite (proj2 (Cdiv_parts (cval mAlias 1) (cval mAlias 3) NB)); cbn; lra.
Qed.

(** Parts, absolute values and distances. *)
Theorem C81_complex_abs : forall m t a b, apart t a -> apart t b ->
  creal m a = Re (cval m a) /\ cimag m a = Im (cval m a) /\
  cabs m a = Cmod (cval m a) /\ cabsSq m a = Cmod (cval m a) ^ 2 /\
  absSqDiff m t a b = Cmod (Cminus (cval m a) (cval m b)) ^ 2.
Proof.
  intros m t a b HA HB.
  assert (SQ : forall x y, Cmod (x, y) ^ 2 = x * x + y * y).
  { intros x y. unfold Cmod. cbn [fst snd]. rewrite <- Rsqr_pow2, Rsqr_sqrt by nra. ring. }
  split; [reflexivity|]. split; [reflexivity|]. split; [|split].
  - unfold cabs, Cmod, cval. cbn [fst snd]. f_equal. ring.
  - unfold cabsSq, cval. rewrite SQ. ring.
  - assert (S : sets m (subC m t a b) t (Cminus (cval m a) (cval m b))).
    { destruct (C81_complex m t a b 0 0 (or_intror HA) (or_intror HB)) as [_ [_ [_ [_ [_ [_ [_ [_ [_ [H _]]]]]]]]]]. exact H. }
    destruct S as [S _]. unfold absSqDiff, cabsSq. rewrite <- S. unfold cval. rewrite SQ. ring.
Qed.

(* ---------- vector operations ---------- *)
(** Element i of a becomes g i; nothing outside a changes. *)
Definition elementwise (m m' : mem) (a : arr) (g : nat -> R) : Prop :=
  (forall i, (i < cap a)%nat -> el m' a i = g i) /\
  (forall x, (forall i, (i < cap a)%nat -> x <> (base a + i)%nat) -> m' x = m x).
(** Two arrays are the same or have no common element. *)
Definition disjoint_or_same (a b : arr) : Prop :=
  base a = base b \/ (base a + cap a <= base b)%nat \/ (base b + cap b <= base a)%nat.

Lemma vecLoop_spec : forall a e m,
  (forall i m1 m2, (i < cap a)%nat -> (forall x, (forall j, (j < cap a)%nat -> j <> i -> x <> (base a + j)%nat) -> m1 x = m2 x) -> e m1 i = e m2 i) ->
  elementwise m (vecLoop (cap a) a e m) a (e m).
Proof.
  intros a e m HE. unfold vecLoop.
  assert (I : forall n, (n <= cap a)%nat ->
    let m' := fold_left (fun m i => store m (base a + i) (e m i)) (seq 0 n) m in
    (forall i, (i < n)%nat -> m' (base a + i)%nat = e m i) /\
    (forall x, (forall i, (i < n)%nat -> x <> (base a + i)%nat) -> m' x = m x)).
  { induction n; intros Hn; cbv zeta.
    - cbn [seq fold_left]. split; [intros; lia|auto].
    - rewrite seq_S, fold_left_app. cbn [fold_left Nat.add]. destruct (IHn ltac:(lia)) as [A B]. cbv zeta in A, B.
      set (m1 := fold_left _ (seq 0 n) m) in *. split.
      + intros i Hi. unfold store. destruct (Nat.eqb_spec (base a + i) (base a + n)).
        * assert (i = n) by lia. subst i. apply HE; [lia|]. intros x Hx. apply B. intros j Hj. apply Hx; lia.
        * apply A. lia.
      + intros x Hx. unfold store. destruct (Nat.eqb_spec x (base a + n)); [exfalso; apply (Hx n); [lia|auto]|]. apply B. intros i Hi. apply Hx. lia. }
  destruct (I (cap a) ltac:(lia)) as [A B]. cbv zeta in A, B. split; auto.
Qed.
Lemma checked0_ok : forall a e m m', checked0 a e m = Ok m' -> (0 < cap a)%nat /\ m' = vecLoop (cap a) a e m.
Proof. unfold checked0, check, bind. intros a e m m' H. destruct (Nat.ltb_spec 0 (cap a)); [|discriminate]. injection H as <-. auto. Qed.

Definition good0 (f : mem -> outcome mem) (a : arr) (g : mem -> nat -> R) : Prop := forall m,
  ((0 < cap a)%nat -> exists m', f m = Ok m' /\ elementwise m m' a (g m)) /\ (cap a = 0%nat -> f m = Throw).
Definition good1 (f : mem -> outcome mem) (a b : arr) (g : mem -> nat -> R) : Prop := forall m,
  ((0 < cap a)%nat -> cap b = cap a -> exists m', f m = Ok m' /\ elementwise m m' a (g m)) /\
  (cap a = 0%nat \/ cap b <> cap a -> f m = Throw).
Definition good2 (f : mem -> outcome mem) (a b c : arr) (g : mem -> nat -> R) : Prop := forall m,
  ((0 < cap a)%nat -> cap b = cap a -> cap c = cap a -> exists m', f m = Ok m' /\ elementwise m m' a (g m)) /\
  (cap a = 0%nat \/ cap b <> cap a \/ cap c <> cap a -> f m = Throw).

Lemma el_local : forall a b i m1 m2, disjoint_or_same a b -> cap b = cap a -> (i < cap a)%nat ->
  (forall x, (forall j, (j < cap a)%nat -> j <> i -> x <> (base a + j)%nat) -> m1 x = m2 x) -> el m1 b i = el m2 b i.
Proof.
  intros a b i m1 m2 HD HC Hi H. unfold el. apply H. intros j Hj Hne. unfold disjoint_or_same in HD. lia.
Qed.
Lemma good0_intro : forall a (g : (nat -> R) -> nat -> R) h, 
  (forall i m1 m2, (i < cap a)%nat -> (el m1 a i = el m2 a i) -> h m1 i = h m2 i) -> good0 (checked0 a h) a h.
Proof.
  intros a g h H m. split.
  - intros P. exists (vecLoop (cap a) a h m). split.
    + unfold checked0, check, bind. destruct (Nat.ltb_spec 0 (cap a)); [auto|lia].
    + apply vecLoop_spec. intros i m1 m2 Hi HX. apply H; auto. apply (el_local a a); auto. left; auto.
  - intros P. unfold checked0, check, bind. destruct (Nat.ltb_spec 0 (cap a)); [lia|auto].
Qed.
Lemma good1_intro : forall a b h, disjoint_or_same a b ->
  (forall i m1 m2, (i < cap a)%nat -> el m1 a i = el m2 a i -> el m1 b i = el m2 b i -> h m1 i = h m2 i) -> good1 (checked1 a b h) a b h.
Proof.
  intros a b h D H m. split.
  - intros P E. exists (vecLoop (cap a) a h m). split.
    + unfold checked1, check, bind. destruct (Nat.ltb_spec 0 (cap a)); [|lia]. destruct (Nat.eqb_spec (cap b) (cap a)); [auto|lia].
    + apply vecLoop_spec. intros i m1 m2 Hi HX. apply H; auto; [apply (el_local a a)|apply (el_local a b)]; auto. left; auto.
  - intros P. unfold checked1, check, bind. destruct (Nat.ltb_spec 0 (cap a)); [|auto]. destruct (Nat.eqb_spec (cap b) (cap a)); [lia|auto].
Qed.
Lemma good2_intro : forall a b c h, disjoint_or_same a b -> disjoint_or_same a c ->
  (forall i m1 m2, (i < cap a)%nat -> el m1 b i = el m2 b i -> el m1 c i = el m2 c i -> h m1 i = h m2 i) -> good2 (checked2 a b c h) a b c h.
Proof.
  intros a b c h D D' H m. split.
  - intros P E E'. exists (vecLoop (cap a) a h m). split.
    + unfold checked2, check, bind. destruct (Nat.ltb_spec 0 (cap a)); [|lia]. destruct (Nat.eqb_spec (cap b) (cap a)); [|lia].
      destruct (Nat.eqb_spec (cap c) (cap a)); [auto|lia].
    + apply vecLoop_spec. intros i m1 m2 Hi HX. apply H; auto; [apply (el_local a b)|apply (el_local a c)]; auto.
  - intros P. unfold checked2, check, bind. destruct (Nat.ltb_spec 0 (cap a)); [|auto]. destruct (Nat.eqb_spec (cap b) (cap a)); [|auto].
    destruct (Nat.eqb_spec (cap c) (cap a)); [lia|auto].
Qed.

(** Every function computes the documented expression of the elements that its
    arguments held before the call, also in place, and throws exactly if an
    array is empty or the capacities differ. *)
Theorem C81_vector : forall a b c s, disjoint_or_same a b -> disjoint_or_same a c ->
  good1 (eqV a b) a b (fun m i => el m b i) /\
  good0 (eqS a s) a (fun _ _ => s) /\
  good2 (addVV a b c) a b c (fun m i => el m b i + el m c i) /\
  good1 (addVS a b s) a b (fun m i => el m b i + s) /\
  good2 (subVV a b c) a b c (fun m i => el m b i - el m c i) /\
  good1 (subVS a b s) a b (fun m i => el m b i - s) /\
  good2 (mulVV a b c) a b c (fun m i => el m b i * el m c i) /\
  good1 (mulVS a b s) a b (fun m i => el m b i * s) /\
  good2 (divVV a b c) a b c (fun m i => el m b i / el m c i) /\
  good1 (divVS a b s) a b (fun m i => el m b i / s) /\
  good1 (divSV a s c) a c (fun m i => s / el m c i) /\
  good1 (expV a b) a b (fun m i => exp (el m b i)) /\
  good1 (addEqV a b) a b (fun m i => el m a i + el m b i) /\
  good0 (addEqS a s) a (fun m i => el m a i + s) /\
  good1 (subEqV a b) a b (fun m i => el m a i - el m b i) /\
  good0 (subEqS a s) a (fun m i => el m a i - s) /\
  good1 (mulEqV a b) a b (fun m i => el m a i * el m b i) /\
  good0 (mulEqS a s) a (fun m i => el m a i * s) /\
  good1 (divEqV a b) a b (fun m i => el m a i / el m b i) /\
  good0 (divEqS a s) a (fun m i => el m a i / s).
Proof.
  intros a b c s D D'.
  repeat match goal with |- _ /\ _ => split end;
  first [ apply good1_intro | apply good2_intro | apply (good0_intro a (fun _ _ => 0)) ]; auto; intros; congruence.
Qed.

(** Not if the arrays overlap: b one element after a's start shifted. *)
Theorem C81_overlap_refuted : exists a b m m', cap b = cap a /\ (0 < cap a)%nat /\ eqV a b m = Ok m' /\
  exists i, (i < cap a)%nat /\ el m' a i <> el m b i.
Proof.
  exists (mkArr 1 3), (mkArr 0 3), INR. eexists. split; [reflexivity|]. split; [cbn; lia|]. split; [reflexivity|].
  exists 1%nat. split; [cbn; lia|]. cbn. lra.
Qed.

(* ---------- reductions ---------- *)
Lemma flt_some : forall x y, flt (Some x) (Some y) = true <-> x < y.
Proof. intros. cbn. destruct (Rlt_dec x y); split; intros; auto; discriminate. Qed.

(** x is the largest (smallest) of the numbers of the list. *)
Definition largest (l : list R) (x : R) : Prop := In x l /\ forall y, In y l -> y <= x.
Definition smallest (l : list R) (x : R) : Prop := In x l /\ forall y, In y l -> x <= y.
(** The elements that are numbers. *)
Fixpoint numbers (l : list fl) : list R := match l with [] => [] | Some x :: l' => x :: numbers l' | None :: l' => numbers l' end.

Lemma keepMax_nan : forall l, fold_left keepMax l None = None.
Proof. induction l; cbn; auto. Qed.
Lemma keepMin_nan : forall l, fold_left keepMin l None = None.
Proof. induction l as [|[y|] l IH]; cbn; auto. Qed.
Lemma keepMax_num : forall l x, exists v, fold_left keepMax l (Some x) = Some v /\ largest (x :: numbers l) v.
Proof.
  induction l as [|[y|] l IH]; intros x; cbn [fold_left numbers].
  - exists x. split; auto. split; [left; auto|]. intros y [->|[]]. lra.
  - unfold keepMax at 2. destruct (flt (Some x) (Some y)) eqn:E.
    + apply flt_some in E. destruct (IH y) as [v [V1 [V2 V3]]]. exists v. split; auto. split; [right; auto|].
      intros w [<-|W]; [|auto]. assert (Q := V3 y (or_introl eq_refl)). lra.
    + assert (N : ~ x < y) by (rewrite <- flt_some; congruence).
      destruct (IH x) as [v [V1 [V2 V3]]]. exists v. split; auto. split; [destruct V2; [left; auto|right; right; auto]|].
      intros w [<-|[<-|W]]; [apply V3; left; auto| |apply V3; right; auto]. assert (Q := V3 x (or_introl eq_refl)). lra.
  - unfold keepMax at 2. cbn [flt]. apply IH.
Qed.
Lemma keepMin_num : forall l x, exists v, fold_left keepMin l (Some x) = Some v /\ smallest (x :: numbers l) v.
Proof.
  induction l as [|[y|] l IH]; intros x; cbn [fold_left numbers].
  - exists x. split; auto. split; [left; auto|]. intros y [->|[]]. lra.
  - unfold keepMin at 2. destruct (flt (Some y) (Some x)) eqn:E.
    + apply flt_some in E. destruct (IH y) as [v [V1 [V2 V3]]]. exists v. split; auto. split; [right; auto|].
      intros w [<-|W]; [|auto]. assert (Q := V3 y (or_introl eq_refl)). lra.
    + assert (N : ~ y < x) by (rewrite <- flt_some; congruence).
      destruct (IH x) as [v [V1 [V2 V3]]]. exists v. split; auto. split; [destruct V2; [left; auto|right; right; auto]|].
      intros w [<-|[<-|W]]; [apply V3; left; auto| |apply V3; right; auto]. assert (Q := V3 x (or_introl eq_refl)). lra.
  - unfold keepMin at 2. cbn [flt]. apply IH.
Qed.
Lemma fold_map : forall {A B S} (f : S -> B -> S) (g : A -> B) l s, fold_left (fun b y => f b (g y)) l s = fold_left f (map g l) s.
Proof. intros A B S f g l. induction l; intros s; cbn; auto. Qed.
Lemma numbers_abs : forall l, numbers (map fabs l) = map Rabs (numbers l).
Proof. induction l as [|[x|] l IH]; cbn; congruence. Qed.

(** If the first element is a number: the extremum of the elements that are
    numbers. *)
Theorem C81_reduce : forall x l,
  let all := x :: numbers l in
  (exists v, redMax (Some x :: l) = Ok (Some v) /\ largest all v) /\
  (exists v, redMin (Some x :: l) = Ok (Some v) /\ smallest all v) /\
  (exists v, redMaxAbs (Some x :: l) = Ok (Some v) /\ largest (map Rabs all) v) /\
  (exists v, redMinAbs (Some x :: l) = Ok (Some v) /\ smallest (map Rabs all) v).
Proof.
  intros x l all. unfold redMax, redMin, redMaxAbs, redMinAbs, all. split; [|split; [|split]].
  - destruct (keepMax_num l x) as [v [-> H]]. eauto.
  - destruct (keepMin_num l x) as [v [-> H]]. eauto.
  - rewrite (fold_map keepMax fabs). cbn [fabs option_map]. destruct (keepMax_num (map fabs l) (Rabs x)) as [v [-> H]].
    rewrite numbers_abs in H. eauto.
  - rewrite (fold_map keepMin fabs). cbn [fabs option_map]. destruct (keepMin_num (map fabs l) (Rabs x)) as [v [-> H]].
    rewrite numbers_abs in H. eauto.
Qed.
(** If it is not a number, the result is not a number. *)
Theorem C81_reduce_nan : forall l,
  redMax (None :: l) = Ok None /\ redMin (None :: l) = Ok None /\ redMaxAbs (None :: l) = Ok None /\ redMinAbs (None :: l) = Ok None.
Proof.
  intros l. unfold redMax, redMin, redMaxAbs, redMinAbs. rewrite (fold_map keepMax fabs), (fold_map keepMin fabs).
  cbn [fabs option_map]. rewrite !keepMax_nan, !keepMin_nan. auto.
Qed.
(** So a NaN shows in the result depending on its place only. *)
Theorem C81_reduce_nan_refuted : exists l l', Permutation l l' /\ redMax l <> redMax l' /\
  In None l /\ redMax l = Ok (Some 1).
Proof.
  exists [Some 1; None], [None; Some 1]. split; [constructor|]. split; [cbn; discriminate|]. split; [right; left; auto|reflexivity].
Qed.

Lemma fadd_nan : forall l, fold_left fadd l None = None.
Proof. induction l; cbn; auto. Qed.
Lemma fadd_num : forall l s, (In None l /\ fold_left fadd l (Some s) = None) \/
  (~ In None l /\ fold_left fadd l (Some s) = Some (s + lsum (fun x => x) (numbers l))).
Proof.
  induction l as [|[y|] l IH]; intros s; cbn [fold_left numbers].
  - right. split; [intros []|]. cbn. f_equal. ring.
  - cbn [fadd]. destruct (IH (s + y)) as [[A B]|[A B]].
    + left. split; [right; auto|auto].
    + right. split; [intros [H|H]; [discriminate|auto]|]. rewrite B. cbn [lsum]. f_equal. ring.
  - left. split; [left; auto|]. cbn [fadd]. apply fadd_nan.
Qed.
(** Sums and inner products: exact, and NaN exactly if some term is. *)
Theorem C81_sum : forall l, l <> [] ->
  (In None l -> redSum l = Ok None) /\
  (~ In None l -> redSum l = Ok (Some (lsum (fun x => x) (numbers l)))).
Proof.
  intros l H. unfold redSum. destruct l as [|x l]; [contradiction|].
  destruct (fadd_num (x :: l) 0) as [[A B]|[A B]]; rewrite B; split; intros; try contradiction; auto.
  do 2 f_equal. ring.
Qed.
Theorem C81_inner : forall (l l' : list R), l <> [] ->
  (length l' = length l -> innerProduct (map Some l) (map Some l') = Ok (Some (lsum (fun p => fst p * snd p) (combine l l')))) /\
  (length l' <> length l -> innerProduct (map Some l) (map Some l') = Throw).
Proof.
  intros l l' H. unfold innerProduct, check, bind. rewrite !map_length. destruct (Nat.ltb_spec 0 (length l)).
  2:{ destruct l; [contradiction|cbn in *; lia]. }
  destruct (Nat.eqb_spec (length l') (length l)); split; intros; try contradiction; auto.
  assert (X : forall (a b : list R) s, fold_left (fun s p => fadd s (fmul (fst p) (snd p))) (combine (map Some a) (map Some b)) (Some s) =
     Some (s + lsum (fun p => fst p * snd p) (combine a b))).
  { induction a as [|x a IH]; intros [|y b] s; cbn [map combine fold_left lsum]; try (f_equal; ring).
    cbn [fst snd fmul fadd]. rewrite IH. f_equal. ring. }
  rewrite X. do 2 f_equal. ring.
Qed.

(* ---------- cases ---------- *)
Lemma C81_case : same_or_apart 1 1 /\ apart 1 3 /\ disjoint_or_same (mkArr 0 3) (mkArr 0 3) /\ disjoint_or_same (mkArr 0 3) (mkArr 3 3) /\
  (exists m', mulVV (mkArr 0 3) (mkArr 0 3) (mkArr 0 3) INR = Ok m' /\ el m' (mkArr 0 3) 2 = 4) /\
  redMax [Some 1; Some 3; None; Some 2] = Ok (Some 3).
Proof.
  split; [left; auto|]. split; [left; lia|]. split; [left; auto|]. split; [right; left; cbn; lia|]. split.
  - eexists. split; [reflexivity|]. cbn. ring.
  - unfold redMax. cbn [fold_left]. unfold keepMax, flt. destruct (Rlt_dec 1 3); [|lra]. destruct (Rlt_dec 3 2); [lra|]. reflexivity.
Qed.

Print Assumptions C81_complex.
Print Assumptions C81_complex_quotient.
Print Assumptions C81_complex_product.
Print Assumptions C81_complex_alias_refuted.
Print Assumptions C81_complex_abs.
Print Assumptions C81_vector.
Print Assumptions C81_overlap_refuted.
Print Assumptions C81_reduce.
Print Assumptions C81_reduce_nan.
Print Assumptions C81_reduce_nan_refuted.
Print Assumptions C81_sum.
Print Assumptions C81_inner.
