(** Graph theory: for nVertex = nBlock + 1, connected <-> acyclic. *)
From Coq Require Import List Bool Arith Lia Relations Permutation.
From Verif Require Import PolymerSpec.
Import ListNotations.

Lemma crt_inv : forall A (R : relation A) x y, clos_refl_trans _ R x y ->
  x = y \/ exists z, R x z /\ clos_refl_trans _ R z y.
Proof.
  intros A R x y H. apply clos_rt_rt1n in H. inversion H; subst; auto.
  right. exists y0. split; auto. apply clos_rt1n_rt; auto.
Qed.

Lemma crt_ct : forall A (R : relation A) a b, clos_refl_trans _ R a b ->
  a = b \/ clos_trans _ R a b.
Proof.
  induction 1; auto. right; apply t_step; auto.
  destruct IHclos_refl_trans1, IHclos_refl_trans2; subst; auto.
  right. eapply t_trans; eauto.
Qed.

Lemma ct_crt : forall A (R : relation A) a b, clos_trans _ R a b -> clos_refl_trans _ R a b.
Proof. induction 1. apply rt_step; auto. eapply rt_trans; eauto. Qed.

Lemma ct_mono : forall A (R S : relation A), (forall a b, R a b -> S a b) ->
  forall x y, clos_trans _ R x y -> clos_trans _ S x y.
Proof. induction 2. apply t_step; auto. eapply t_trans; eauto. Qed.

(** a relation without cycles has a source in every nonempty finite set *)
Lemma finite_source : forall (A : Type) (R : relation A) (l : list A),
  (forall x y : A, {x = y} + {x <> y}) -> (forall x y, {R x y} + {~ R x y}) ->
  (forall x, ~ clos_trans _ R x x) -> (exists x, In x l) ->
  exists x, In x l /\ forall y, In y l -> ~ R y x.
Proof.
  intros A R l DD RD HA.
  assert (G : forall (k : nat) (avail : list A) x,
     length avail <= k -> In x l ->
     (forall z, In z l -> ~ In z avail -> z = x \/ clos_trans _ R x z) ->
     exists m, In m l /\ forall y, In y l -> ~ R y m).
  { induction k; intros avail x Hlen Hx HC.
    - destruct avail; [|simpl in Hlen; lia].
      exists x. split; auto. intros y Hy Hr.
      destruct (HC y Hy ltac:(simpl; auto)) as [E|E].
      + subst. apply (HA x). apply t_step; auto.
      + apply (HA x). eapply t_trans; [exact E|apply t_step; auto].
    - destruct (Exists_dec (fun y => R y x) l) as [H|H].
      { intros y. apply RD. }
      + apply Exists_exists in H. destruct H as [y [Hin Hf]].
        destruct (in_dec DD y avail) as [Ha|Ha].
        * apply (IHk (remove DD y avail) y); auto.
          -- assert (length (remove DD y avail) < length avail) by (apply remove_length_lt; auto). lia.
          -- intros z Pz Hz. destruct (DD z y) as [E|E]; [left; auto|right].
             assert (~ In z avail). { intros Q. apply Hz. apply in_in_remove; auto. }
             destruct (HC z Pz H) as [E1|E1].
             ++ subst z. apply t_step; auto.
             ++ eapply t_trans; [apply t_step; exact Hf|exact E1].
        * exfalso. destruct (HC y Hin Ha) as [E|E].
          -- subst. apply (HA x). apply t_step; auto.
          -- apply (HA x). eapply t_trans; [exact E|apply t_step; auto].
      + exists x. split; auto. intros y Hy Hr. apply H. apply Exists_exists. eauto. }
  intros [x Hx].
  apply (G (length l) l x); auto.
  intros z Pz Hz. exfalso. auto.
Qed.

Section Sub.
Variable es : list (nat * nat).

(** subgraph with block set B and vertex set V *)
Definition touches (v b : nat) : bool := (fst (s_edge es b) =? v) || (snd (s_edge es b) =? v).
Definition adjB (B : list nat) (u v : nat) : Prop :=
  exists b, In b B /\ (s_edge es b = (u, v) \/ s_edge es b = (v, u)).
Definition connB (B V : list nat) : Prop :=
  forall u v, In u V -> In v V -> clos_refl_trans _ (adjB B) u v.
Definition feedsB (B : list nat) (x y : nat * bool) : Prop :=
  In (fst x) B /\ In (fst y) B /\ s_end es x = s_start es y /\ fst x <> fst y.
Definition subOK (B V : list nat) : Prop :=
  NoDup B /\ NoDup V /\ length V = S (length B) /\
  forall b, In b B -> In (fst (s_edge es b)) V /\ In (snd (s_edge es b)) V /\
                      fst (s_edge es b) <> snd (s_edge es b).

Definition degree (B : list nat) (v : nat) : nat := length (filter (touches v) B).

Lemma adjB_sym : forall B u v, adjB B u v -> adjB B v u.
Proof. intros B u v [b [H [E|E]]]; exists b; split; auto. Qed.

Lemma crt_adjB_sym : forall B u v, clos_refl_trans _ (adjB B) u v -> clos_refl_trans _ (adjB B) v u.
Proof.
  induction 1. apply rt_step, adjB_sym; auto. apply rt_refl. eapply rt_trans; eauto.
Qed.

Lemma filter_eq_length : forall V a, NoDup V -> In a V -> length (filter (fun v => a =? v) V) = 1.
Proof.
  induction V; intros x N I; [destruct I|]. inversion N; subst. simpl.
  destruct I as [I|I].
  - subst. rewrite Nat.eqb_refl. simpl. f_equal.
    assert (Z : filter (fun v => x =? v) V = []); [|rewrite Z; auto].
    clear IHV N H2. induction V; simpl; auto.
    destruct (Nat.eqb_spec x a); [subst; simpl in H1; tauto|].
    apply IHV. simpl in H1; tauto.
  - destruct (Nat.eqb_spec x a); [subst; tauto|]. apply IHV; auto.
Qed.

Lemma touch_count : forall V b, NoDup V -> In (fst (s_edge es b)) V -> In (snd (s_edge es b)) V ->
  fst (s_edge es b) <> snd (s_edge es b) ->
  length (filter (fun v => touches v b) V) = 2.
Proof.
  intros V b N I1 I2 D.
  assert (E : length (filter (fun v => touches v b) V) =
    length (filter (fun v => fst (s_edge es b) =? v) V)
    + length (filter (fun v => snd (s_edge es b) =? v) V)).
  { clear N I1 I2. unfold touches. induction V; simpl; auto.
    destruct (Nat.eqb_spec (fst (s_edge es b)) a), (Nat.eqb_spec (snd (s_edge es b)) a);
      simpl; try lia; congruence. }
  rewrite E, !filter_eq_length by auto. reflexivity.
Qed.

Definition sumdeg (B V : list nat) : nat := fold_right (fun v s => degree B v + s) 0 V.

Lemma sumdeg_cons : forall V b B, sumdeg (b :: B) V =
  length (filter (fun v => touches v b) V) + sumdeg B V.
Proof.
  induction V; intros; simpl; auto.
  rewrite IHV. unfold degree. simpl. destruct (touches a b); simpl; lia.
Qed.

Lemma sumdeg_eq : forall B V, NoDup V ->
  (forall b, In b B -> In (fst (s_edge es b)) V /\ In (snd (s_edge es b)) V /\
                      fst (s_edge es b) <> snd (s_edge es b)) ->
  sumdeg B V = 2 * length B.
Proof.
  induction B; intros V N H.
  - simpl. clear. induction V; simpl; auto.
  - rewrite sumdeg_cons, IHB; auto.
    + destruct (H a (or_introl eq_refl)) as [A1 [A2 A3]]. rewrite touch_count by auto. simpl. lia.
    + intros; apply H; simpl; auto.
Qed.

Lemma low_degree : forall B V, subOK B V -> exists v, In v V /\ degree B v <= 1.
Proof.
  intros B V [NB [NV [L H]]].
  destruct (Exists_dec (fun v => degree B v <= 1) V) as [E|E].
  - intros v. destruct (le_dec (degree B v) 1); auto.
  - apply Exists_exists in E. destruct E as [v [A1 A2]]. eauto.
  - exfalso. assert (2 * length V <= sumdeg B V).
    { clear -E. induction V; simpl; auto.
      assert (degree B a >= 2).
      { destruct (le_dec (degree B a) 1); [|lia]. exfalso. apply E. constructor; auto. }
      assert (2 * length V <= sumdeg B V).
      { apply IHV. intros Q. apply E. apply Exists_cons_tl; auto. }
      unfold sumdeg in *; simpl in *; lia. }
    rewrite sumdeg_eq in H0 by auto. lia.
Qed.

Lemma touches_iff : forall v b, touches v b = true <->
  fst (s_edge es b) = v \/ snd (s_edge es b) = v.
Proof. intros. unfold touches. rewrite orb_true_iff, !Nat.eqb_eq. tauto. Qed.

(** a vertex touched by exactly one block *)
Definition leaf (B : list nat) (v b0 : nat) : Prop :=
  In b0 B /\ touches v b0 = true /\ forall b, In b B -> touches v b = true -> b = b0.

Lemma degree1_leaf : forall B v, degree B v = 1 -> exists b0, leaf B v b0.
Proof.
  intros B v H. unfold degree in H. destruct (filter (touches v) B) as [|b0 [|? ?]] eqn:E;
    simpl in H; try lia.
  exists b0. assert (I : In b0 (filter (touches v) B)) by (rewrite E; simpl; auto).
  apply filter_In in I. destruct I as [I1 I2]. split; [|split]; auto.
  intros b Hb Ht. assert (I : In b (filter (touches v) B)) by (apply filter_In; auto).
  rewrite E in I. destruct I as [I|[]]; auto.
Qed.

Definition rm (b : nat) (l : list nat) : list nat := remove Nat.eq_dec b l.

Lemma rm_NoDup : forall b l, NoDup l -> NoDup (rm b l).
Proof.
  induction l; intros N; simpl; auto. inversion N; subst. destruct (Nat.eq_dec b a); auto.
  constructor; auto. intros H. apply in_remove in H. tauto.
Qed.
Lemma rm_length : forall b l, NoDup l -> In b l -> S (length (rm b l)) = length l.
Proof.
  induction l; intros N I; [destruct I|]. inversion N; subst. simpl.
  destruct (Nat.eq_dec b a) as [E|E].
  - subst. unfold rm. f_equal. f_equal. apply notin_remove; auto.
  - simpl. f_equal. apply IHl; auto. destruct I; congruence.
Qed.
Lemma in_rm : forall b x l, In x (rm b l) <-> In x l /\ x <> b.
Proof.
  intros; split; intros H.
  - apply in_remove in H; auto.
  - apply in_in_remove; tauto.
Qed.

Lemma prune_ok : forall B V v b0, subOK B V -> In v V -> leaf B v b0 -> subOK (rm b0 B) (rm v V).
Proof.
  intros B V v b0 [NB [NV [L H]]] Hv [L1 [L2 L3]].
  split; [apply rm_NoDup; auto|]. split; [apply rm_NoDup; auto|]. split.
  - pose proof (rm_length b0 B NB L1). pose proof (rm_length v V NV Hv). lia.
  - intros b Hb. apply in_rm in Hb. destruct Hb as [Hb Hn].
    destruct (H b Hb) as [A1 [A2 A3]].
    assert (T : touches v b <> true) by (intros Q; apply Hn; auto).
    rewrite touches_iff in T. rewrite !in_rm. tauto.
Qed.

(** a cycle never goes through a leaf block *)
Lemma leaf_no_cycle_dart : forall B v b0 x p s, leaf B v b0 ->
  feedsB B p x -> feedsB B x s -> fst x <> b0.
Proof.
  intros B v b0 [b d] [pb pd] [sb sd] [L1 [L2 L3]] [P1 [P2 [P3 P4]]] [S1 [S2 [S3 S4]]] E.
  cbn [fst] in *. subst b. rewrite touches_iff in L2.
  unfold s_end, s_start in *; cbn [fst snd] in *.
  assert (Tp : touches v pb <> true) by (intros Q; apply P4; apply L3; auto).
  assert (Ts : touches v sb <> true) by (intros Q; apply S4; symmetry; apply L3; auto).
  rewrite touches_iff in Tp, Ts.
  destruct d, pd, sd; intuition congruence.
Qed.

Lemma cycle_prune : forall B v b0, leaf B v b0 -> forall x y,
  clos_trans _ (feedsB B) x y -> (exists p, feedsB B p x) -> (exists s, feedsB B y s) ->
  clos_trans _ (feedsB (rm b0 B)) x y.
Proof.
  intros B v b0 HL x y H. apply clos_trans_t1n in H.
  assert (G : forall x y p s, feedsB B x y -> feedsB B p x -> feedsB B y s ->
     feedsB (rm b0 B) x y).
  { intros a b p s F1 F2 F3.
    pose proof (leaf_no_cycle_dart B v b0 a p b HL F2 F1).
    pose proof (leaf_no_cycle_dart B v b0 b a s HL F1 F3).
    destruct F1 as [Q1 [Q2 [Q3 Q4]]]. repeat split; auto; apply in_rm; auto. }
  induction H; intros [p Hp] [s Hs].
  - apply t_step. eapply G; eauto.
  - eapply t_trans; [|apply IHclos_trans_1n; eauto].
    apply t_step. assert (N : exists w, feedsB B y w) by (inversion H0; subst; eauto).
    destruct N as [w Hw]. eapply G; eauto.
Qed.

Lemma conn_prune : forall B V v b0, subOK B V -> In v V -> leaf B v b0 ->
  connB B V -> connB (rm b0 B) (rm v V).
Proof.
  intros B V v b0 HO Hv [L1 [L2 L3]] HC a b Ha Hb.
  apply in_rm in Ha. apply in_rm in Hb.
  destruct HO as [NB [NV [L H]]]. destruct (H b0 L1) as [_ [_ Hd]].
  (* u = the other end of b0 *)
  set (u := if fst (s_edge es b0) =? v then snd (s_edge es b0) else fst (s_edge es b0)).
  set (f := fun z => if z =? v then u else z).
  assert (Hu : u <> v).
  { unfold u. apply touches_iff in L2. destruct (Nat.eqb_spec (fst (s_edge es b0)) v); [|auto].
    congruence. }
  assert (G : forall x y, adjB B x y -> clos_refl_trans _ (adjB (rm b0 B)) (f x) (f y)).
  { intros x y [c [Hc E]]. destruct (Nat.eq_dec c b0) as [Ec|Ec].
    - subst c. unfold f, u. apply touches_iff in L2.
      destruct (s_edge es b0) as [e1 e2] eqn:Ee. cbn [fst snd] in *.
      destruct E as [E|E]; inversion E; subst;
        destruct (Nat.eqb_spec x v); destruct (Nat.eqb_spec y v); subst;
        rewrite ?Nat.eqb_refl in *; try congruence;
        try (destruct (Nat.eqb_spec x v)); try (destruct (Nat.eqb_spec y v));
        subst; try congruence; try apply rt_refl; try (destruct L2; congruence).
    - assert (T : touches v c <> true) by (intros Q; apply Ec; auto).
      rewrite touches_iff in T.
      assert (x <> v /\ y <> v).
      { destruct E as [E|E]; rewrite E in T; simpl in T; tauto. }
      unfold f. rewrite (proj2 (Nat.eqb_neq x v)), (proj2 (Nat.eqb_neq y v)) by tauto.
      apply rt_step. exists c. split; auto. apply in_rm; auto. }
  assert (K : forall x y, clos_refl_trans _ (adjB B) x y ->
     clos_refl_trans _ (adjB (rm b0 B)) (f x) (f y)).
  { induction 1. apply G; auto. apply rt_refl. eapply rt_trans; eauto. }
  pose proof (K a b (HC a b ltac:(tauto) ltac:(tauto))) as R.
  unfold f in R. rewrite (proj2 (Nat.eqb_neq a v)), (proj2 (Nat.eqb_neq b v)) in R by tauto. auto.
Qed.

Lemma conn_leaf : forall B V, subOK B V -> connB B V -> 0 < length B ->
  exists v b0, In v V /\ leaf B v b0.
Proof.
  intros B V HO HC HB. destruct (low_degree B V HO) as [v [Hv Hd]].
  assert (D : degree B v = 1).
  { destruct (degree B v) eqn:E; [|lia]. exfalso.
    destruct HO as [NB [NV [L H]]].
    assert (exists w, In w V /\ w <> v).
    { destruct V as [|a [|b V']]; simpl in L; try lia. inversion NV; subst.
      destruct (Nat.eq_dec a v) as [Q|Q].
      - exists b. split; simpl; auto. intros Q2. apply H2. simpl; left. congruence.
      - exists a. simpl; auto. }
    destruct H0 as [w [Hw Hn]].
    destruct (crt_inv _ _ _ _ (HC v w Hv Hw)) as [Q|[z [[b [Hb E1]] _]]]; [congruence|].
    unfold degree in E. assert (I : In b (filter (touches v) B)).
    { apply filter_In. split; auto. apply touches_iff. destruct E1 as [E1|E1]; rewrite E1; auto. }
    destruct (filter (touches v) B); [destruct I|discriminate]. }
  destruct (degree1_leaf _ _ D) as [b0 HL]. eauto.
Qed.

Lemma conn_acyclic_sub : forall n B V, length B = n -> subOK B V -> connB B V ->
  forall x, ~ clos_trans _ (feedsB B) x x.
Proof.
  induction n; intros B V HL HO HC x Hx.
  - destruct B; [|discriminate]. clear -Hx. induction Hx; auto. destruct H as [[] _].
  - destruct (conn_leaf B V HO HC ltac:(lia)) as [v [b0 [Hv Hl]]].
    apply (IHn (rm b0 B) (rm v V)) with x.
    + destruct HO as [NB _]. destruct Hl as [L1 _]. pose proof (rm_length b0 B NB L1). lia.
    + apply prune_ok; auto.
    + apply conn_prune; auto.
    + eapply cycle_prune; eauto.
      * apply clos_trans_tn1 in Hx. inversion Hx; subst; eauto.
      * apply clos_trans_t1n in Hx. inversion Hx; subst; eauto.
Qed.

(** an acyclic subgraph with at least one block has a leaf *)
Lemma acyclic_leaf : forall B V, subOK B V -> (forall x, ~ clos_trans _ (feedsB B) x x) ->
  0 < length B -> exists v b0, In v V /\ leaf B v b0.
Proof.
  intros B V HO HA HB.
  set (darts := flat_map (fun b => [(b, false); (b, true)]) B).
  assert (ID : forall x, In x darts <-> In (fst x) B).
  { intros [b d]. unfold darts. rewrite in_flat_map. simpl. split.
    - intros [b' [H1 [H2|[H2|[]]]]]; inversion H2; subst; auto.
    - intros H. exists b. split; auto. destruct d; auto. }
  destruct (finite_source _ (fun x y => feedsB B y x) darts) as [x [Hx Hs]].
  - intros; decide equality; decide equality.
  - intros x y. unfold feedsB.
    destruct (in_dec Nat.eq_dec (fst y) B); [|right; tauto].
    destruct (in_dec Nat.eq_dec (fst x) B); [|right; tauto].
    destruct (Nat.eq_dec (s_end es y) (s_start es x)); [|right; tauto].
    destruct (Nat.eq_dec (fst y) (fst x)); [right; tauto|left; tauto].
  - intros x Hx. apply (HA x).
    assert (G : forall a b, clos_trans _ (fun x y => feedsB B y x) a b -> clos_trans _ (feedsB B) b a).
    { induction 1. apply t_step; auto. eapply t_trans; eauto. }
    apply G; auto.
  - destruct B as [|b B']; [simpl in HB; lia|]. exists (b, false). apply ID. simpl; auto.
  - apply ID in Hx. exists (s_end es x), (fst x).
    destruct HO as [NB [NV [L H]]]. destruct (H (fst x) Hx) as [A1 [A2 A3]].
    split; [unfold s_end; destruct (snd x); auto|].
    split; [auto|]. split.
    + apply touches_iff. unfold s_end. destruct (snd x); auto.
    + intros b Hb Ht. destruct (Nat.eq_dec b (fst x)) as [E|E]; auto. exfalso.
      apply touches_iff in Ht.
      assert (exists d, s_start es (b, d) = s_end es x).
      { destruct Ht as [Ht|Ht]; [exists false|exists true]; unfold s_start; simpl; auto. }
      destruct H0 as [d Hd]. apply (Hs (b, d)).
      * apply ID; auto.
      * repeat split; auto.
Qed.

Lemma acyclic_conn_sub : forall n B V, length B = n -> subOK B V ->
  (forall x, ~ clos_trans _ (feedsB B) x x) -> connB B V.
Proof.
  induction n; intros B V HL HO HA.
  - destruct HO as [NB [NV [L H]]]. destruct V as [|a [|b V]]; simpl in L; try lia.
    intros u v [Hu|[]] [Hv|[]]. subst. apply rt_refl.
  - destruct (acyclic_leaf B V HO HA ltac:(lia)) as [v [b0 [Hv Hl]]].
    assert (IH : connB (rm b0 B) (rm v V)).
    { apply IHn.
      - destruct HO as [NB _]. destruct Hl as [L1 _]. pose proof (rm_length b0 B NB L1). lia.
      - apply prune_ok; auto.
      - intros x Hx. apply (HA x). revert Hx. apply ct_mono.
        intros p q [Q1 [Q2 [Q3 Q4]]]. apply in_rm in Q1. apply in_rm in Q2. repeat split; tauto. }
    destruct Hl as [L1 [L2 L3]]. destruct HO as [NB [NV [L H]]].
    destruct (H b0 L1) as [A1 [A2 A3]].
    assert (M : forall x y, clos_refl_trans _ (adjB (rm b0 B)) x y -> clos_refl_trans _ (adjB B) x y).
    { induction 1. apply rt_step. destruct H0 as [b [Hb E]]. apply in_rm in Hb. exists b; tauto.
      apply rt_refl. eapply rt_trans; eauto. }
    (* everything is connected to the other end u of b0 *)
    assert (U : exists u, In u (rm v V) /\ adjB B v u).
    { apply touches_iff in L2. destruct L2 as [E|E].
      - exists (snd (s_edge es b0)). split. apply in_rm. split; congruence.
        exists b0. split; auto. left. rewrite <- E. apply surjective_pairing.
      - exists (fst (s_edge es b0)). split. apply in_rm. split; congruence.
        exists b0. split; auto. right. rewrite <- E. apply surjective_pairing. }
    destruct U as [u [Hu Hvu]].
    assert (R : forall w, In w V -> clos_refl_trans _ (adjB B) u w).
    { intros w Hw. destruct (Nat.eq_dec w v) as [E|E].
      - subst. apply rt_step, adjB_sym; auto.
      - apply M, IH; auto. apply in_rm; auto. }
    intros a b Ha Hb. eapply rt_trans; [apply crt_adjB_sym, R; auto|apply R; auto].
Qed.

End Sub.

Lemma seq_subOK : forall es, well_formed es -> subOK es (seq 0 (length es)) (seq 0 (S (length es))).
Proof.
  intros es HW. split; [apply seq_NoDup|]. split; [apply seq_NoDup|].
  split; [rewrite !seq_length; auto|]. intros b Hb. apply in_seq in Hb.
  unfold well_formed in HW. rewrite Forall_forall in HW.
  specialize (HW (s_edge es b) (nth_In _ _ (proj2 Hb))).
  rewrite !in_seq. lia.
Qed.

Lemma tree_acyclic : forall es, tree es -> acyclic es.
Proof.
  intros es [HW HC] x Hx.
  apply (conn_acyclic_sub es (length (seq 0 (length es))) _ _ eq_refl (seq_subOK es HW)) with x.
  - intros u v Hu Hv. apply in_seq in Hu. apply in_seq in Hv.
    specialize (HC u v ltac:(lia) ltac:(lia)). clear -HC.
    induction HC. + apply rt_step. destruct H as [b [Hb E]]. exists b. split; auto. apply in_seq; lia.
    + apply rt_refl. + eapply rt_trans; eauto.
  - revert Hx. apply ct_mono. intros a b [A [B [C D]]]. unfold is_prop in *.
    repeat split; auto; apply in_seq; lia.
Qed.

Lemma acyclic_connected : forall es, well_formed es -> acyclic es -> connected es.
Proof.
  intros es HW HA u v Hu Hv.
  assert (C : connB es (seq 0 (length es)) (seq 0 (S (length es)))).
  { apply (acyclic_conn_sub es (length (seq 0 (length es)))); auto.
    - apply seq_subOK; auto.
    - intros x Hx. apply (HA x). revert Hx. apply ct_mono.
      intros a b [A [B [C D]]]. apply in_seq in A. apply in_seq in B.
      repeat split; auto; unfold is_prop; lia. }
  specialize (C u v ltac:(apply in_seq; lia) ltac:(apply in_seq; lia)).
  clear -C. induction C.
  - apply rt_step. destruct H as [b [Hb E]]. apply in_seq in Hb. exists b. split; auto; lia.
  - apply rt_refl.
  - eapply rt_trans; eauto.
Qed.
