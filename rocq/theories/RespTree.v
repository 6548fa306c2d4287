(** Sums over all blocks of a tree that lie behind a propagator: the recursion from
    sources to propagators gives the sum over all routes. *)
From Coq Require Import Reals List Bool Arith Lia Lra Permutation.
From Coquelicot Require Import Coquelicot.
From Verif Require Import Base RSum PolymerModel Polymer PolymerSpec PolymerProofs PolymerPaths PropsPolymer Solve SolveProofs Debye
  IntraSpec Intra IntraProofs IntraSums.
Import ListNotations.
Local Open Scope R_scope.

Lemma lsum_single : forall {A} (f : A -> R) a l, NoDup l -> In a l -> (forall b, In b l -> b <> a -> f b = 0) -> lsum f l = f a.
Proof.
  intros A f a l ND IN H. induction l as [|b l IH]; [destruct IN|]. inversion ND as [|? ? N1 N2]; subst. cbn [lsum].
  destruct IN as [->|IN].
  - assert (Z : lsum f l = 0).
    { clear IH N2 ND. induction l as [|c l IH]; [reflexivity|]. cbn [lsum]. rewrite (H c) by (try (right; left; auto); intros ->; apply N1; left; auto).
      rewrite IH; [ring| |]; [intros b [->|Hb] Q; apply H; auto; [left; auto|right; right; auto]|intros Q; apply N1; right; auto]. }
    rewrite Z. ring.
  - rewrite (H b) by (try (left; auto); intros ->; auto). rewrite IH; auto; [ring|]. intros c Hc Q. apply H; [right|]; auto.
Qed.
Lemma lsum_zero : forall {A} (f : A -> R) l, (forall b, In b l -> f b = 0) -> lsum f l = 0.
Proof. induction l as [|b l IH]; intros H; [reflexivity|]. cbn [lsum]. rewrite (H b) by (left; auto). rewrite IH; [ring|]. intros; apply H; right; auto. Qed.

Section T.
Variables (es : list (nat * nat)) (fuel : nat) (p : polymer).
Hypothesis HT : tree es.
Hypothesis HF : (2 * length es <= fuel)%nat.
Hypothesis HR : readGraph fuel es = Ok p.
Variables (kuhn : nat -> R) (len : nat -> R) (E : nat -> R) (ksq : R).

Notation through := (throughBlocks kuhn len).
Definition pass (b : nat) : R := exp (- (ksq * (len b * kuhn b ^ 2) / 6)).
Definition passAll (l : list (nat * bool)) : R := exp (- (ksq * through l / 6)).

(** The contribution of block A to the start of propagator x *)
Definition reach (A : nat) (x : nat * bool) : R :=
  if (A =? fst x)%nat then 0 else
  match findEnd p (fst x) A with
  | Ok d => if Bool.eqb d (snd x) then 0
            else match edges (length es) p A (fst x) with Ok (_ :: l) => passAll l * E A | _ => 0 end
  | _ => 0
  end.

Lemma reach_route : forall A x0 l x, A <> fst x -> route es A (fst x) x0 l x -> reach A x = passAll l * E A.
Proof.
  intros A x0 l x NE RT. unfold reach. apply Nat.eqb_neq in NE as NE'. rewrite NE'.
  rewrite (findEnd_route es fuel p HT HF HR _ _ _ _ _ (route_flip _ _ _ _ _ _ RT)).
  assert (Bool.eqb (snd (flip x)) (snd x) = false) as -> by (destruct x as [? []]; reflexivity).
  pose proof (route_short es fuel p HT HF HR _ _ _ _ _ RT NE).
  rewrite (edges_route es fuel p HT HF HR A (fst x) x0 l x) by (auto; lia). reflexivity.
Qed.
Lemma reach_flip : forall A x0 l x, A <> fst x -> route es A (fst x) x0 l (flip x) -> reach A x = 0.
Proof.
  intros A x0 l x NE RT. unfold reach. apply Nat.eqb_neq in NE as NE'. rewrite NE'.
  rewrite (findEnd_route es fuel p HT HF HR _ _ _ _ _ (route_flip _ _ _ _ _ _ RT)).
  assert (Bool.eqb (snd (flip (flip x))) (snd x) = true) as -> by (destruct x as [? []]; reflexivity). reflexivity.
Qed.
Lemma reach_cases : forall A x, (A < length es)%nat -> is_prop es x -> A <> fst x ->
  (exists x0 l, route es A (fst x) x0 l x /\ reach A x = passAll l * E A) \/
  (exists x0 l, route es A (fst x) x0 l (flip x) /\ reach A x = 0).
Proof.
  intros A x LA PX NE. destruct (route_exists es HT A (fst x) LA PX NE) as (x0 & l & y & RT).
  destruct (RT) as (_ & EY & _).
  assert (Y : y = x \/ y = flip x).
  { destruct x as [b d], y as [b' d']. cbn [fst] in EY. subst b'. destruct d, d'; auto. }
  destruct Y as [->| ->]; [left|right]; exists x0, l; split; auto; [eapply reach_route|eapply reach_flip]; eauto.
Qed.

(** The contribution of A to x that arrives through its source z *)
Definition via (A : nat) (z : nat * bool) : R := (if (fst z =? A)%nat then E A else 0) + pass (fst z) * reach A z.

Lemma passAll_snoc : forall l z, passAll (l ++ [z]) = pass (fst z) * passAll l.
Proof.
  intros. unfold passAll, pass. rewrite <- exp_plus. f_equal. rewrite !through_lsum, lsum_app. cbn [lsum]. field.
Qed.
Lemma passAll_nil : passAll [] = 1.
Proof. unfold passAll. simpl. replace (- (ksq * 0 / 6)) with 0 by field. apply exp_0. Qed.

Lemma via_cases : forall A z x, (A < length es)%nat -> feeds es z x ->
  (exists k x0 l, x0 :: l = k ++ [z] /\ route es A (fst x) x0 l x /\ via A z = passAll l * E A) \/ via A z = 0.
Proof.
  intros A z x LA F. unfold via. destruct (Nat.eqb_spec (fst z) A) as [EA|NE].
  - left. exists [], z, []. split; [reflexivity|]. split; [|unfold reach; rewrite EA, Nat.eqb_refl, passAll_nil; ring].
    split; auto. split; auto. simpl. auto.
  - destruct (reach_cases A z LA (proj1 F) (not_eq_sym NE)) as [(x0 & l & RT & V)|(x0 & l & RT & V)].
    + left. exists (x0 :: l), x0, (l ++ [z]). split; [reflexivity|]. destruct RT as (R1 & R2 & R3). split.
      * split; [auto|]. split; [auto|]. change (chained es ((x0 :: l ++ [z]) ++ [x])).
        rewrite app_comm_cons, <- app_assoc. apply chained_app; auto. simpl. auto.
      * rewrite V, passAll_snoc. ring.
    + right. rewrite V. ring.
Qed.
Lemma via_route : forall A x k x0 l z, (A < length es)%nat -> x0 :: l = k ++ [z] -> route es A (fst x) x0 l x -> A <> fst x -> via A z = passAll l * E A.
Proof.
  intros A x k x0 l z LA EL RT NE. destruct (RT) as (R1 & R2 & R3).
  assert (EL' : x0 :: l ++ [x] = k ++ [z; x]). { change (x0 :: l ++ [x]) with ((x0 :: l) ++ [x]). rewrite EL, <- app_assoc. reflexivity. }
  rewrite EL' in R3. pose proof (chained_feeds _ _ _ _ _ R3) as F.
  destruct k as [|x1 k].
  - simpl in EL. injection EL as -> ->. unfold via, reach. rewrite R1, Nat.eqb_refl, passAll_nil. ring.
  - simpl in EL. injection EL as -> ->.
    assert (RZ : route es A (fst z) x1 k z).
    { split; [auto|]. split; [auto|]. rewrite (app_comm_cons k), <- (app_nil_r ((x1 :: k) ++ [z])).
      change ((x1 :: k) ++ [z; x]) with ((x1 :: k) ++ [z] ++ [x]) in R3. rewrite app_assoc in R3. apply chained_l in R3. rewrite app_nil_r. exact R3. }
    assert (NZ : A <> fst z).
    { destruct (route_blocks es fuel p HT HF HR _ _ _ _ _ RT NE) as [ND _]. rewrite map_app in ND. intros Q. inversion ND as [|? ? N1 N2]; subst.
      apply N1. right. rewrite in_app_iff. right. left. auto. }
    unfold via. apply Nat.eqb_neq in NZ as NZ'. rewrite Nat.eqb_sym, NZ', (reach_route A x1 k z NZ RZ), passAll_snoc. ring.
Qed.

Lemma flip_neq : forall x : nat * bool, flip x <> x.
Proof. intros [b []]; unfold flip; simpl; intros Q; discriminate. Qed.
Lemma sources_nodup : forall x, is_prop es x -> NoDup (sources es (p_vertices p) x).
Proof.
  intros x Hx. destruct (solveAll_ok (fun _ _ _ _ => []) (fun _ => true) true es fuel p HT eq_refl HF HR) as [HV _].
  unfold sources. apply NoDup_filter. unfold headVertex. apply (inIds_NoDup (fun _ _ _ _ => []) true es (p_vertices p) HV).
  change (vertexId (edgeAt es (fst x)) (snd x)) with (s_start es x). apply start_le; auto. apply HT.
Qed.
Lemma sources_feeds : forall x y, is_prop es x -> (In y (sources es (p_vertices p) x) <-> feeds es y x).
Proof.
  intros x y Hx. destruct (solveAll_ok (fun _ _ _ _ => []) (fun _ => true) true es fuel p HT eq_refl HF HR) as [HV _].
  apply (sources_iff (fun _ _ _ _ => []) true es (p_vertices p) (proj1 HT) HV); auto.
Qed.

Lemma reach_step : forall A x, (A < length es)%nat -> is_prop es x ->
  reach A x = lsum (via A) (sources es (p_vertices p) x).
Proof.
  intros A x LA PX. destruct (Nat.eq_dec A (fst x)) as [EA|NE].
  - rewrite lsum_zero; [unfold reach; rewrite EA, Nat.eqb_refl; auto|]. intros z IN. apply sources_feeds in IN; auto.
    destruct (via_cases A z x LA IN) as [(k & x0 & l & EL & RT & _)|V]; auto. exfalso.
    destruct RT as (R1 & R2 & R3).
    assert (ND : NoDup (map fst (x0 :: l ++ [x]))).
    { apply (chain_nodup es fuel p HT HF HR); auto. clear - R3 PX. intros y IN. change (x0 :: l ++ [x]) with ((x0 :: l) ++ [x]) in *.
      rewrite in_app_iff in IN. destruct IN as [IN|[<-|[]]]; auto. apply in_split in IN. destruct IN as (l1 & l2 & EQ). rewrite EQ in R3.
      destruct l2 as [|w l2]; rewrite <- app_assoc in R3; simpl in R3; apply chained_feeds in R3; apply R3. }
    simpl in ND. inversion ND as [|? ? N1 N2]; subst. apply N1. rewrite map_app, in_app_iff. right. left. auto.
  - destruct (reach_cases A x LA PX NE) as [(x0 & l & RT & V)|(x0 & l & RT & V)].
    + destruct (exists_last (l := x0 :: l)) as (k & z & EL); [discriminate|].
      assert (VZ := via_route A x k x0 l z LA EL RT NE). rewrite V, <- VZ.
      assert (FZ : feeds es z x).
      { destruct RT as (_ & _ & R3). change (x0 :: l ++ [x]) with ((x0 :: l) ++ [x]) in R3. rewrite EL, <- app_assoc in R3. eapply chained_feeds. exact R3. }
      symmetry. apply lsum_single; [apply sources_nodup; auto|apply sources_feeds; auto|].
      intros y IN NY. apply sources_feeds in IN; auto. destruct (via_cases A y x LA IN) as [(k' & x0' & l' & EL' & RT' & _)|V']; auto. exfalso. apply NY.
      destruct (route_unique es fuel p HT HF HR A (fst x) x0 l x x0' l' x NE RT RT') as (Q1 & Q2 & _). rewrite Q1, Q2, EL in EL'.
      apply app_inj_tail in EL'. symmetry. apply EL'.
    + rewrite V. symmetry. apply lsum_zero. intros z IN. apply sources_feeds in IN; auto.
      destruct (via_cases A z x LA IN) as [(k' & x0' & l' & EL' & RT' & _)|V']; auto. exfalso.
      destruct (route_unique es fuel p HT HF HR A (fst x) x0 l (flip x) x0' l' x NE RT RT') as (_ & _ & Q). apply (flip_neq x). auto.
Qed.

(** The sum over all blocks *)
Definition behind (x : nat * bool) : R := rsum (length es) (fun A => reach A x).
Lemma behind_step : forall x, is_prop es x ->
  behind x = lsum (fun z => E (fst z) + pass (fst z) * behind z) (sources es (p_vertices p) x).
Proof.
  intros x PX. unfold behind. rewrite (rsum_ext _ _ (fun A => lsum (via A) (sources es (p_vertices p) x))) by (intros; apply reach_step; auto).
  assert (S : forall l, (forall z, In z l -> is_prop es z) -> rsum (length es) (fun A => lsum (via A) l) =
     lsum (fun z => E (fst z) + pass (fst z) * rsum (length es) (fun A => reach A z)) l).
  { induction l as [|z l IH]; intros P; cbn [lsum]; [apply rsum_zero|]. rewrite rsum_plus, IH by (intros; apply P; right; auto). f_equal.
    unfold via. rewrite rsum_plus, rsum_scal. f_equal. rewrite (rsum_single _ (fst z)); [now rewrite Nat.eqb_refl|apply P; left; auto|].
    intros A _ NA. destruct (Nat.eqb_spec (fst z) A); congruence. }
  apply S. intros z IN. apply sources_feeds in IN; auto. apply IN.
Qed.

(** All pairs of different blocks *)
Definition across (A B : nat) : R := E B * (reach A (B, false) + reach A (B, true)).
Lemma across_route : forall A B x l y, A <> B -> route es A B x l y -> across A B = passAll l * E A * E B.
Proof.
  intros A B x l y NE RT. unfold across. destruct (RT) as (_ & EB & _). destruct y as [b d]. cbn [fst] in EB. subst b.
  assert (R1 : reach A (B, d) = passAll l * E A) by (eapply reach_route; eauto).
  assert (R2 : reach A (B, negb d) = 0).
  { eapply reach_flip with (x0 := x) (l := l); eauto. unfold flip. cbn [fst snd]. rewrite negb_involutive. exact RT. }
  destruct d; cbn [negb] in R2; rewrite R1, R2; ring.
Qed.
Lemma across_same : forall A, across A A = 0.
Proof. intros. unfold across, reach. cbn [fst]. rewrite Nat.eqb_refl. ring. Qed.
Lemma behind_across : forall B, E B * (behind (B, false) + behind (B, true)) = rsum (length es) (fun A => across A B).
Proof. intros. unfold behind, across. rewrite rsum_scal, rsum_plus. ring. Qed.
End T.
