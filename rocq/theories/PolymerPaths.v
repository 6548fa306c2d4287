(** Non-backtracking walks in trees, and correctness of makePaths. *)
From Coq Require Import ZArith List Bool Arith Lia Permutation Relations.
From Verif Require Import Base Polymer PolymerSpec PolymerProofs PolymerTree.
Import ListNotations.

Definition flip (x : nat * bool) : nat * bool := (fst x, negb (snd x)).

(** the block of the first dart of [l] differs from b *)
Definition hdNe (l : list (nat * bool)) (b : nat) : Prop :=
  match l with [] => True | y :: _ => fst y <> b end.

Section Walks.
Variable es : list (nat * nat).
Hypothesis HW : well_formed es.

(** [nbw t l v]: l (last dart first) is a non-backtracking walk from t to v. *)
Inductive nbw (t : nat) : list (nat * bool) -> nat -> Prop :=
| nbw_nil : t <= length es -> nbw t [] t
| nbw_cons : forall l u x, nbw t l u -> is_prop es x -> s_start es x = u -> hdNe l (fst x) ->
    nbw t (x :: l) (s_end es x).

Lemma start_ne_end : forall x, is_prop es x -> s_start es x <> s_end es x.
Proof.
  intros [b d] H. destruct (wf_edge es b HW H) as [_ [_ N]]. unfold s_start, s_end; cbn [fst snd].
  destruct d; auto.
Qed.

Lemma flip_start : forall x, s_start es (flip x) = s_end es x.
Proof. intros [b []]; reflexivity. Qed.
Lemma flip_end : forall x, s_end es (flip x) = s_start es x.
Proof. intros [b []]; reflexivity. Qed.
Lemma flip_flip : forall x, flip (flip x) = x.
Proof. intros [b []]; reflexivity. Qed.

Lemma same_end : forall x y, is_prop es x -> fst x = fst y -> s_end es x = s_end es y -> x = y.
Proof.
  intros [b d] [b' d'] H E1 E2. cbn [fst] in *. subst b'.
  destruct (wf_edge es b HW H) as [_ [_ N]]. unfold s_end in E2; cbn [fst snd] in E2.
  destruct d, d'; auto; congruence.
Qed.

Lemma nbw_end_le : forall t l v, nbw t l v -> v <= length es.
Proof. induction 1; auto. apply end_le; auto. Qed.

Lemma nbw_start_le : forall t l v, nbw t l v -> t <= length es.
Proof. induction 1; auto. Qed.

(** last (first traversed) dart *)
Lemma nbw_feeds : forall t l v, nbw t l v -> forall x l', l = x :: l' ->
  forall y, In y l' -> clos_trans _ (feeds es) y x.
Proof.
  induction 1; intros x0 l0 E y Hy; [discriminate|]. inversion E; subst x0 l0. clear E.
  destruct l as [|z l']; [destruct Hy|].
  assert (F : feeds es z x).
  { inversion H; subst. simpl in H2. repeat split; auto; congruence. }
  destruct Hy as [Hy|Hy].
  - subst z. apply t_step; auto.
  - eapply t_trans; [|apply t_step; exact F]. eapply IHnbw; eauto.
Qed.

(** dropping the first traversed dart: x is the last element of the list *)
Lemma nbw_tail : forall t l x v, nbw t (l ++ [x]) v -> nbw (s_end es x) l v /\ s_start es x = t /\ is_prop es x.
Proof.
  induction l as [|y l IH]; intros x v H.
  - simpl in H. inversion H; subst. inversion H2; subst. repeat split; auto.
    apply nbw_nil. apply end_le; auto.
  - simpl in H. inversion H; subst. destruct (IH _ _ H2) as [I1 [I2 I3]].
    repeat split; auto. econstructor; eauto.
    destruct l; simpl in *; auto.
Qed.

Lemma no_closed : acyclic es -> forall n l v, length l = n -> l <> [] -> ~ nbw v l v.
Proof.
  intros HA. induction n as [n IH] using lt_wf_ind. intros l v HL Hne H.
  destruct l as [|x l]; [congruence|]. clear Hne.
  inversion H; subst.
  destruct l as [|z l'] using rev_ind.
  - (* length 1 *) inversion H2; subst. eapply start_ne_end; eauto.
  - clear IHl'. rename z into y.
    (* y is the first traversed dart *)
    assert (HY := H). change (x :: l' ++ [y]) with ((x :: l') ++ [y]) in HY.
    apply nbw_tail in HY. destruct HY as [Y1 [Y2 Y3]].
    destruct (Nat.eq_dec (fst x) (fst y)) as [E|E].
    + (* same block: x = y gives a cycle, x = flip y shortens *)
      assert (XY : x = y \/ x = flip y).
      { destruct x as [b d], y as [b' d']. cbn [fst] in E. subst b'. unfold flip; cbn [fst snd].
        destruct d, d'; auto. }
      destruct XY as [XY|XY].
      * subst x. apply (HA y). eapply nbw_feeds; [exact H|reflexivity|]. apply in_app_iff. simpl; auto.
      * (* l' is closed at s_end y = s_start x *)
        assert (Z : nbw (s_end es y) l' (s_start es x)).
        { inversion Y1; subst; auto. }
        rewrite XY, flip_start in Z.
        destruct l' as [|w l''].
        -- match goal with Q : hdNe ([] ++ [y]) _ |- _ => simpl in Q; congruence end.
        -- apply (IH (length (w :: l''))) with (l := w :: l'') (v := s_end es y); auto.
           ++ simpl. rewrite app_length. simpl. lia.
           ++ congruence.
    + (* different blocks: x feeds y *)
      apply (HA y). eapply t_trans.
      * eapply nbw_feeds; [exact H|reflexivity|]. apply in_app_iff. simpl; auto.
      * apply t_step. repeat split; auto.
Qed.

(** appending a reversed walk *)
Lemma nbw_join : forall t q v, nbw t q v -> forall t2 p, nbw t2 p v ->
  (match p, q with x :: _, y :: _ => fst x <> fst y | _, _ => True end) ->
  nbw t2 (rev (map flip q) ++ p) t.
Proof.
  induction 1; intros t2 p Hp Hne.
  - simpl. auto.
  - simpl. rewrite <- app_assoc. simpl.
    apply IHnbw.
    + assert (E : s_start es x = s_end es (flip x)) by (rewrite flip_end; auto).
      rewrite <- H1, E. apply nbw_cons with (u := s_end es x); auto.
      apply flip_start.
    + destruct l as [|z l]; auto.
Qed.

Lemma nbw_unique : acyclic es -> forall t p v, nbw t p v -> forall q, nbw t q v -> p = q.
Proof.
  intros HA t p v Hp. induction Hp; intros q Hq.
  - destruct q as [|y q]; auto. exfalso.
    eapply no_closed; [auto|reflexivity| |exact Hq]. congruence.
  - destruct q as [|y q].
    + exfalso. inversion Hq; subst.
      apply (no_closed HA (length (x :: l)) (x :: l) (s_end es x)); auto; try congruence.
      econstructor; eauto.
    + destruct (Nat.eq_dec (fst x) (fst y)) as [E|E].
      * inversion Hq; subst.
        assert (x = y) by (apply same_end; auto). subst y. f_equal. apply IHHp; auto.
      * exfalso.
        assert (J : nbw t (rev (map flip (y :: q)) ++ (x :: l)) t).
        { eapply nbw_join; eauto. econstructor; eauto. }
        eapply no_closed; [auto|reflexivity| |exact J].
        intros Q. apply app_eq_nil in Q. destruct Q; congruence.
Qed.

Lemma nbw_exists : forall t v, t <= length es -> clos_refl_trans _ (adjacent es) t v ->
  exists l, nbw t l v.
Proof.
  intros t v Ht H. apply clos_rt_rtn1 in H. induction H as [|y z A B [l IH]].
  - exists []. constructor; auto.
  - destruct A as [b [Hb E]].
    assert (exists x, is_prop es x /\ s_start es x = y /\ s_end es x = z).
    { destruct E as [E|E]; [exists (b, false)|exists (b, true)];
        unfold is_prop, s_start, s_end; cbn [fst snd]; rewrite E; auto. }
    destruct H as [x [X1 [X2 X3]]].
    destruct l as [|w l].
    + exists [x]. rewrite <- X3. econstructor; eauto. simpl; auto.
    + destruct (Nat.eq_dec (fst w) (fst x)) as [F|F].
      * exists l. inversion IH; subst.
        assert (w = flip x).
        { apply same_end; auto. rewrite flip_end; auto. }
        subst w. rewrite flip_start in H1. auto.
      * exists (x :: w :: l). rewrite <- X3. econstructor; eauto.
Qed.

(** the vertices of a walk, last first *)
Fixpoint verts (t : nat) (l : list (nat * bool)) : list nat :=
  match l with [] => [t] | x :: l' => s_end es x :: verts t l' end.

Lemma verts_prefix : forall t l v, nbw t l v -> forall u, In u (verts t l) ->
  exists l', nbw t l' u /\ (exists k, l = k ++ l').
Proof.
  induction 1; intros w Hw; simpl in Hw.
  - destruct Hw as [E|[]]. subst. exists []. split. constructor; auto. exists []; auto.
  - destruct Hw as [E|Hw].
    + subst w. exists (x :: l). split. econstructor; eauto. exists []; auto.
    + destruct (IHnbw _ Hw) as [l' [A [k B]]]. exists l'. split; auto.
      exists (x :: k). simpl. congruence.
Qed.

Lemma verts_NoDup : acyclic es -> forall t l v, nbw t l v -> NoDup (verts t l).
Proof.
  intros HA. induction 1; simpl.
  - constructor; auto. constructor.
  - constructor; auto. intros Hin.
    destruct (verts_prefix _ _ _ H _ Hin) as [l' [A [k B]]].
    assert (x :: l = l').
    { eapply nbw_unique; eauto. econstructor; eauto. }
    assert (length (x :: l) = length l') by congruence.
    rewrite B in H4. simpl in H4. rewrite app_length in H4. lia.
Qed.

Lemma verts_length : forall t l, length (verts t l) = S (length l).
Proof. induction l; simpl; auto. Qed.

Lemma nbw_length : acyclic es -> forall t l v, nbw t l v -> length l <= length es.
Proof.
  intros HA t l v H.
  assert (length (verts t l) <= length (seq 0 (S (length es)))).
  { apply NoDup_incl_length. eapply verts_NoDup; eauto.
    intros u Hu. destruct (verts_prefix _ _ _ H _ Hu) as [l' [A _]].
    apply nbw_end_le in A. apply in_seq. lia. }
  rewrite verts_length, seq_length in H0. lia.
Qed.

(* ---------- makePaths ---------- *)
Variable vs : list vertex.
Hypothesis HV : graphVertices es vs.

Definition entryOf (w : nat * list (nat * bool)) : nat * option (nat * bool) :=
  (fst w, match snd w with [] => None | x :: _ => Some (flip x) end).

(** walks of length k ending at v; one list per vertex *)
Definition walksAt (W : list (list (nat * list (nat * bool)))) (k : nat) : Prop :=
  length W = S (length es) /\
  forall v, v <= length es ->
    NoDup (nth v W []) /\
    forall t l, In (t, l) (nth v W []) <-> nbw t l v /\ length l = k.

Definition wSendsFrom (W : list (list (nat * list (nat * bool)))) (is : nat)
  : list (nat * (nat * list (nat * bool))) :=
  flat_map (fun o : nat * bool =>
      map (fun w => (s_end es o, (fst w, o :: snd w)))
          (filter (fun w => negb (viaBlock (snd (entryOf w)) (fst o))) (nth is W [])))
    (outIds (vertexAt vs is)).
Definition wSends W := flat_map (wSendsFrom W) (seq 0 (length vs)).
Definition wRecv (sends : list (nat * (nat * list (nat * bool)))) (ir : nat) :=
  map snd (filter (fun s => fst s =? ir) sends).
Definition wNext W := map (wRecv (wSends W)) (seq 0 (length vs)).

Lemma hdNe_via : forall w b, negb (viaBlock (snd (entryOf w)) b) = true <-> hdNe (snd w) b.
Proof.
  intros [t [|[b' d] l]] b; simpl; split; auto.
  - intros H. apply negb_true_iff, Nat.eqb_neq in H. auto.
  - intros H. apply negb_true_iff, Nat.eqb_neq. auto.
Qed.

Lemma map_flat_map : forall A B C (f : B -> C) (g : A -> list B) l,
  map f (flat_map g l) = flat_map (fun a => map f (g a)) l.
Proof. induction l; simpl; auto. rewrite map_app, IHl; auto. Qed.

Lemma nth_map_map : forall A B (f : A -> B) (W : list (list A)) v,
  nth v (map (map f) W) [] = map f (nth v W []).
Proof. intros. change (@nil B) with (map f []). rewrite map_nth. auto. Qed.

Lemma filter_map : forall A B (f : A -> B) p l, filter p (map f l) = map f (filter (fun a => p (f a)) l).
Proof. induction l; simpl; auto. destruct (p (f a)); simpl; congruence. Qed.

Lemma flat_map_ext_in : forall A B (f g : A -> list B) l,
  (forall x, In x l -> f x = g x) -> flat_map f l = flat_map g l.
Proof. induction l; simpl; intros; auto. rewrite H, IHl; auto. Qed.

Lemma sends_map : forall W,
  allSends es vs (map (map entryOf) W) = map (fun s => (fst s, entryOf (snd s))) (wSends W).
Proof.
  intros W. unfold allSends, wSends. rewrite map_flat_map. apply flat_map_ext_in.
  intros is _. unfold sendsFrom, wSendsFrom. rewrite map_flat_map. apply flat_map_ext_in.
  intros o _. rewrite nth_map_map, filter_map, !map_map.
  apply map_ext. intros w. unfold entryOf; cbn [fst snd]. f_equal.
  unfold vertexId, edgeAt, s_end, s_edge. destruct (snd o); auto.
Qed.

Lemma recv_map : forall W v,
  recv (allSends es vs (map (map entryOf) W)) v = map entryOf (wRecv (wSends W) v).
Proof.
  intros. rewrite sends_map. unfold recv, wRecv. rewrite filter_map, !map_map. reflexivity.
Qed.

Lemma NoDup_app_intro : forall A (l1 l2 : list A), NoDup l1 -> NoDup l2 ->
  (forall x, In x l1 -> ~ In x l2) -> NoDup (l1 ++ l2).
Proof.
  induction l1; simpl; intros; auto. inversion H; subst. constructor.
  - rewrite in_app_iff. intros [Q|Q]; [auto|]. exact (H1 a (or_introl eq_refl) Q).
  - apply IHl1; auto.
Qed.

Lemma NoDup_flat_map : forall A B (f : A -> list B) l, NoDup l ->
  (forall a, In a l -> NoDup (f a)) ->
  (forall a b x, In a l -> In b l -> In x (f a) -> In x (f b) -> a = b) ->
  NoDup (flat_map f l).
Proof.
  induction l; simpl; intros N H1 H2; [constructor|]. inversion N; subst.
  apply NoDup_app_intro; auto.
  - apply IHl; auto. intros; eapply H2; eauto.
  - intros x Hx Hin. apply in_flat_map in Hin. destruct Hin as [b [Hb Hxb]].
    assert (a = b) by (eapply H2; eauto). subst. auto.
Qed.

Lemma NoDup_map_inj : forall A B (f : A -> B) l, NoDup l ->
  (forall a b, In a l -> In b l -> f a = f b -> a = b) -> NoDup (map f l).
Proof.
  induction l; simpl; intros N H; constructor; inversion N; subst.
  - intros Q. apply in_map_iff in Q. destruct Q as [b [E Hb]].
    assert (b = a) by (apply H; auto). subst; auto.
  - apply IHl; auto.
Qed.

Lemma outIds_NoDup : forall v, v <= length es -> NoDup (outIds (vertexAt vs v)).
Proof.
  intros v Hv. destruct HV as [_ H]. destruct (H v Hv) as [_ O]. rewrite O.
  apply NoDup_flat_map.
  - generalize 0. clear. induction es as [|e l IH]; intros s; [constructor|].
    rewrite combine_seq_cons. constructor; auto.
    rewrite in_combine_seq. lia.
  - intros [b e] _. unfold outOf; cbn [fst snd].
    destruct (fst e =? v); [|destruct (snd e =? v)]; repeat constructor; auto.
  - intros [b e] [b' e'] x Ha Hb Hx Hx'.
    apply in_combine_seq in Ha. apply in_combine_seq in Hb.
    assert (fst x = b).
    { unfold outOf in Hx; cbn [fst snd] in Hx.
      destruct (fst e =? v); [|destruct (snd e =? v)]; simpl in Hx;
        try tauto; destruct Hx as [Hx|[]]; subst; auto. }
    assert (fst x = b').
    { unfold outOf in Hx'; cbn [fst snd] in Hx'.
      destruct (fst e' =? v); [|destruct (snd e' =? v)]; simpl in Hx';
        try tauto; destruct Hx' as [Hx'|[]]; subst; auto. }
    destruct Ha as [_ Ha]. destruct Hb as [_ Hb]. subst b b'. congruence.
Qed.

Lemma in_wSends : forall W k, walksAt W k -> forall v t l,
  In (v, (t, l)) (wSends W) <-> nbw t l v /\ length l = S k.
Proof.
  intros W k [L HWk] v t l. unfold wSends. rewrite in_flat_map.
  destruct HV as [LV _]. split.
  - intros [is [His Hin]]. apply in_seq in His. unfold wSendsFrom in Hin.
    apply in_flat_map in Hin. destruct Hin as [o [Ho Hin]].
    apply (in_outIds es) in Ho; [|auto|auto|lia]. destruct Ho as [O1 O2].
    apply in_map_iff in Hin. destruct Hin as [[t' l'] [E Hf]]. apply filter_In in Hf.
    destruct Hf as [Hf Hv']. apply hdNe_via in Hv'. cbn [fst snd] in *.
    inversion E; subst. destruct (HWk (s_start es o) ltac:(lia)) as [_ HI].
    apply HI in Hf. destruct Hf as [F1 F2]. split; [|simpl; lia].
    econstructor; eauto.
  - intros [Hn Hl]. destruct l as [|x l']; [discriminate|].
    inversion Hn as [|l0 u0 x0 N1 N2 N3 N4]; subst.
    assert (SL := start_le es x HW N2).
    exists (s_start es x). split; [apply in_seq; lia|].
    unfold wSendsFrom. apply in_flat_map. exists x. split.
    + apply (in_outIds es); auto.
    + apply in_map_iff. exists (t, l'). split; auto. apply filter_In. split.
      * apply (HWk (s_start es x) SL). split; auto.
      * apply hdNe_via. auto.
Qed.

Lemma wSends_NoDup : forall W k, walksAt W k -> NoDup (wSends W).
Proof.
  intros W k HWk. assert (HWk' := HWk). destruct HWk as [L H]. destruct HV as [LV _].
  apply NoDup_flat_map.
  - apply seq_NoDup.
  - intros is His. apply in_seq in His. apply NoDup_flat_map.
    + apply outIds_NoDup. lia.
    + intros o Ho. apply NoDup_map_inj.
      * apply NoDup_filter. apply H. lia.
      * intros [t1 l1] [t2 l2] _ _ E. inversion E; subst. auto.
    + intros o1 o2 x _ _ H1 H2. apply in_map_iff in H1. apply in_map_iff in H2.
      destruct H1 as [w1 [E1 _]]. destruct H2 as [w2 [E2 _]]. subst x. inversion E2; auto.
  - intros a b x Ha Hb Hxa Hxb. apply in_seq in Ha. apply in_seq in Hb.
    unfold wSendsFrom in *. apply in_flat_map in Hxa. apply in_flat_map in Hxb.
    destruct Hxa as [o1 [O1 M1]]. destruct Hxb as [o2 [O2 M2]].
    apply in_map_iff in M1. apply in_map_iff in M2.
    destruct M1 as [w1 [E1 _]]. destruct M2 as [w2 [E2 _]]. subst x. inversion E2; subst.
    apply (in_outIds es) in O1; [|auto|auto|lia]. apply (in_outIds es) in O2; [|auto|auto|lia].
    destruct O1 as [_ O1], O2 as [_ O2]. congruence.
Qed.

Lemma nth_map_seq : forall A (f : nat -> A) n v d, v < n -> nth v (map f (seq 0 n)) d = f v.
Proof.
  intros. rewrite nth_indep with (d' := f 0) by (rewrite map_length, seq_length; auto).
  rewrite map_nth, seq_nth by auto. auto.
Qed.

Lemma wNext_walks : forall W k, walksAt W k -> walksAt (wNext W) (S k).
Proof.
  intros W k HWk. destruct HV as [LV _]. split.
  - unfold wNext. rewrite map_length, seq_length; auto.
  - intros v Hv. unfold wNext. rewrite nth_map_seq by lia. split.
    + unfold wRecv. apply NoDup_map_inj.
      * apply NoDup_filter. eapply wSends_NoDup; eauto.
      * intros [v1 w1] [v2 w2] H1 H2 E. apply filter_In in H1. apply filter_In in H2.
        cbn [fst snd] in *. destruct H1 as [_ H1], H2 as [_ H2].
        apply Nat.eqb_eq in H1. apply Nat.eqb_eq in H2. subst. auto.
    + intros t l. unfold wRecv. rewrite in_map_iff. split.
      * intros [[v' w] [E H]]. cbn [snd] in E. subst w. apply filter_In in H.
        destruct H as [H1 H2]. cbn [fst] in H2. apply Nat.eqb_eq in H2. subst v'.
        eapply in_wSends; eauto.
      * intros H. exists (v, (t, l)). split; auto. apply filter_In. split.
        -- eapply in_wSends; eauto.
        -- apply Nat.eqb_refl.
Qed.

Definition wInit := map (fun is => [(is, @nil (nat*bool))]) (seq 0 (length vs)).

Lemma wInit_walks : walksAt wInit 0.
Proof.
  destruct HV as [LV _]. split.
  - unfold wInit. rewrite map_length, seq_length; auto.
  - intros v Hv. unfold wInit. rewrite nth_map_seq by lia. split.
    + constructor; auto. constructor.
    + intros t l. simpl. split.
      * intros [E|[]]. inversion E; subst. split; auto. constructor; auto.
      * intros [H1 H2]. destruct l; [|discriminate]. inversion H1; subst. auto.
Qed.

Lemma init_map : map (fun is => [(is, @None (nat*bool))]) (seq 0 (length vs)) = map (map entryOf) wInit.
Proof. unfold wInit. rewrite map_map. reflexivity. Qed.

Lemma sendChecks_true : forall send, sendChecks es vs send = true.
Proof.
  intros. unfold sendChecks. apply forallb_forall. intros is His. apply in_seq in His.
  destruct (nth is send []); auto. apply forallb_forall. intros o Ho.
  destruct HV as [LV _]. apply (in_outIds es) in Ho; [|auto|auto|lia].
  apply Nat.eqb_eq. destruct Ho as [_ Ho]. rewrite <- Ho. unfold s_start, vertexId, edgeAt, s_edge.
  destruct (snd o); auto.
Qed.

(** all walks of length < k *)
Definition walksBelow (W : list (list (nat * list (nat * bool)))) (k : nat) : Prop :=
  length W = S (length es) /\
  forall v, v <= length es ->
    NoDup (nth v W []) /\
    forall t l, In (t, l) (nth v W []) <-> nbw t l v /\ length l < k.

Lemma nth_combine_app : forall A (W1 W2 : list (list A)) v, length W1 = length W2 ->
  nth v (map (fun p => fst p ++ snd p) (combine W1 W2)) [] = nth v W1 [] ++ nth v W2 [].
Proof.
  induction W1; destruct W2, v; simpl; intros; try discriminate; auto.
Qed.

Lemma walksBelow_step : forall O W k, walksBelow O k -> walksAt W k ->
  walksBelow (map (fun p => fst p ++ snd p) (combine O W)) (S k).
Proof.
  intros O W k [LO HO] [LW HWk]. split.
  - rewrite map_length, combine_length. lia.
  - intros v Hv. rewrite nth_combine_app by lia.
    destruct (HO v Hv) as [N1 I1]. destruct (HWk v Hv) as [N2 I2]. split.
    + apply NoDup_app_intro; auto. intros [t l] A B. apply I1 in A. apply I2 in B. lia.
    + intros t l. rewrite in_app_iff, I1, I2. split.
      * intros [[A B]|[A B]]; split; auto; lia.
      * intros [A B]. destruct (Nat.eq_dec (length l) k); [right|left]; split; auto; lia.
Qed.

Lemma map_combine_entry : forall O W, length O = length W ->
  map (fun p => fst p ++ snd p) (combine (map (map entryOf) O) (map (map entryOf) W))
  = map (map entryOf) (map (fun p => fst p ++ snd p) (combine O W)).
Proof.
  induction O; destruct W; simpl; intros; try discriminate; auto.
  rewrite map_app, IHO; auto.
Qed.

Lemma forallb_empty_iff : forall A (W : list (list A)),
  forallb (fun l : list A => match l with [] => true | _ => false end) W = true <->
  forall v, nth v W [] = [].
Proof.
  induction W; simpl.
  - split; auto. intros _ [|v]; auto.
  - rewrite andb_true_iff, IHW. split.
    + intros [A1 A2] [|v]; auto. destruct a; [auto|discriminate].
    + intros H. split. specialize (H 0). simpl in H. subst; auto. intros v. apply (H (S v)).
Qed.

(** all walks *)
Definition walksAll (W : list (list (nat * list (nat * bool)))) : Prop :=
  length W = S (length es) /\
  forall v, v <= length es ->
    NoDup (nth v W []) /\ forall t l, In (t, l) (nth v W []) <-> nbw t l v.

Lemma nbw_suffix : forall t l v, nbw t l v -> forall k, k <= length l ->
  exists l' u, nbw t l' u /\ length l' = k.
Proof.
  induction 1; intros k Hk.
  - simpl in Hk. exists [], t. split. constructor; auto. simpl; lia.
  - destruct (Nat.eq_dec k (length (x :: l))).
    + exists (x :: l), (s_end es x). split; auto. econstructor; eauto.
    + apply IHnbw. simpl in *. lia.
Qed.

Lemma pathLoop_spec : acyclic es -> forall m k O W, walksBelow O k -> walksAt W k ->
  k + m = length es + 2 -> k <= length es + 1 ->
  exists F, pathLoop m es vs (map (map entryOf) W) (map (map entryOf) O) = Ok (map (map entryOf) F) /\
    walksAll F.
Proof.
  intros HA. induction m; intros k O W HO HWk Hk Hle; [lia|].
  cbn [pathLoop]. rewrite sendChecks_true. cbn [check bind].
  rewrite map_combine_entry by (destruct HO, HWk; lia).
  assert (HB := walksBelow_step _ _ _ HO HWk).
  destruct (forallb _ (map (map entryOf) W)) eqn:E.
  - rewrite forallb_empty_iff in E.
    eexists. split; [reflexivity|]. destruct HB as [LB HB]. split; auto.
    intros v Hv. destruct (HB v Hv) as [N I]. split; auto. intros t l. rewrite I.
    split; [tauto|]. intros H. split; auto.
    destruct (le_lt_dec (S k) (length l)) as [Hl|Hl]; auto. exfalso.
    destruct (nbw_suffix _ _ _ H k ltac:(lia)) as [l' [u [H1 H2]]].
    assert (Hu := nbw_end_le _ _ _ H1).
    destruct HWk as [_ HWk]. destruct (HWk u Hu) as [_ I2].
    assert (Q : In (t, l') (nth u W [])) by (apply I2; auto).
    specialize (E u). rewrite nth_map_map in E. destruct (nth u W []); [destruct Q|discriminate].
  - assert (Hne : exists v t l, nbw t l v /\ length l = k).
    { destruct (Exists_dec (fun v => nth v W [] <> []) (seq 0 (length W))) as [X|X].
      - intros v. destruct (nth v W []); [right; congruence|left; congruence].
      - apply Exists_exists in X. destruct X as [v [Hv Hn]]. apply in_seq in Hv.
        destruct HWk as [LW HWk]. destruct (HWk v ltac:(lia)) as [_ I].
        destruct (nth v W []) as [|[t l] rest] eqn:En; [congruence|].
        exists v, t, l. apply I. simpl; auto.
      - exfalso. assert (F : forallb (fun l : list (nat * option (nat*bool)) =>
            match l with [] => true | _ => false end) (map (map entryOf) W) = true); [|congruence].
        apply forallb_empty_iff. intros v. rewrite nth_map_map.
        destruct (le_lt_dec (length W) v).
        + rewrite nth_overflow by auto. auto.
        + destruct (nth v W []) eqn:En; auto. exfalso. apply X.
          apply Exists_exists. exists v. split; [apply in_seq; lia|congruence]. }
    destruct Hne as [v [t [l [H1 H2]]]].
    assert (length l <= length es) by (eapply nbw_length; eauto).
    assert (NE : map (recv (allSends es vs (map (map entryOf) W))) (seq 0 (length vs))
                 = map (map entryOf) (wNext W)).
    { unfold wNext. rewrite map_map. apply map_ext. intros. apply recv_map. }
    rewrite NE. apply (IHm (S k)); try lia; auto. apply wNext_walks; auto.
Qed.

Lemma walksBelow_0 : walksBelow (repeat [] (length vs)) 0.
Proof.
  destruct HV as [LV _]. split; [rewrite repeat_length; auto|].
  intros v Hv.
  assert (E : nth v (repeat (@nil (nat * list (nat*bool))) (length vs)) [] = []).
  { clear. generalize (length vs). intros n. revert v. induction n; destruct v; simpl; auto. }
  rewrite E. split; [constructor|]. simpl. intros; split; [tauto|lia].
Qed.

(** in a tree every vertex has exactly one walk from every vertex *)
Lemma pathLoop_tree : acyclic es -> exists F,
  pathLoop (length es + 2) es vs (map (fun is => [(is, None)]) (seq 0 (length vs)))
           (repeat [] (length vs)) = Ok (map (map entryOf) F) /\ walksAll F.
Proof.
  intros HA. rewrite init_map.
  replace (repeat [] (length vs)) with (map (map entryOf) (repeat [] (length vs))).
  - apply (pathLoop_spec HA (length es + 2) 0); try lia.
    + apply walksBelow_0. + apply wInit_walks.
  - generalize (length vs). induction n; simpl; congruence.
Qed.

(** assignment of one row *)
Lemma assignRow_ok : forall is l row, 
  length row = S (length es) ->
  NoDup (map fst l) ->
  (forall t o, In (t, o) l -> t <= length es /\ nth t row None = None /\
     match o with None => t = is | Some (b, _) => t <> is /\ b < length es end) ->
  exists row', assignRow (length es) (S (length es)) is row l = Ok row' /\
    length row' = S (length es) /\
    (forall t o, In (t, o) l -> nth t row' None = o) /\
    (forall t, ~ In t (map fst l) -> nth t row' None = nth t row None).
Proof.
  intros is. induction l as [|[t o] l IH]; intros row HL HN HP.
  - exists row. simpl. repeat split; auto. tauto.
  - simpl in HN. inversion HN; subst.
    destruct (HP t o (or_introl eq_refl)) as [P1 [P2 P3]].
    cbn [assignRow].
    rewrite (proj2 (Nat.ltb_lt t (S (length es)))) by lia. cbn [check bind].
    rewrite P2. cbn [check bind].
    assert (C : (if t =? is then match o with None => true | Some _ => false end
             else match o with None => false | Some (b, _) => b <? length es end) = true).
    { destruct o as [[b d]|].
      - destruct P3 as [P3 P4]. rewrite (proj2 (Nat.eqb_neq _ _) P3).
        apply Nat.ltb_lt; auto.
      - subst. rewrite Nat.eqb_refl; auto. }
    rewrite C. cbn [check bind].
    destruct (IH (update row t o)) as [row' [R1 [R2 [R3 R4]]]].
    + rewrite update_length; auto.
    + auto.
    + intros t' o' Hin. destruct (HP t' o' (or_intror Hin)) as [Q1 [Q2 Q3]]. repeat split; auto.
      rewrite nth_update_other; auto. intros E; subst. apply H1.
      apply in_map_iff. exists (t', o'); auto.
    + exists row'. repeat split; auto.
      * intros t' o' [E|Hin]; auto. inversion E; subst. rewrite R4 by auto.
        rewrite nth_update_same; auto. lia.
      * intros t' Hn. simpl in Hn. rewrite R4 by tauto. apply nth_update_other. tauto.
Qed.

Lemma entries_ok : acyclic es -> connected es -> forall F, walksAll F -> forall v, v <= length es ->
  let l := map entryOf (nth v F []) in
  length l = S (length es) /\ NoDup (map fst l) /\
  (forall t o, In (t, o) l -> t <= length es /\
     match o with None => t = v | Some (b, _) => t <> v /\ b < length es end) /\
  (forall t, t <= length es -> exists w, nbw t w v /\ In (entryOf (t, w)) l).
Proof.
  intros HA HC F [LF HF] v Hv. cbv zeta. destruct (HF v Hv) as [N I].
  assert (ND : NoDup (map fst (map entryOf (nth v F [])))).
  { rewrite map_map. apply NoDup_map_inj; auto.
    intros [t1 l1] [t2 l2] H1 H2 E. simpl in E. subst t2. apply I in H1. apply I in H2.
    f_equal. eapply nbw_unique; eauto. }
  assert (CV : forall t, t <= length es -> exists w, nbw t w v /\ In (entryOf (t, w)) (map entryOf (nth v F []))).
  { intros t Ht. destruct (nbw_exists t v Ht (HC t v Ht Hv)) as [w Hw].
    exists w. split; auto. apply in_map. apply I; auto. }
  assert (RG : forall t o, In (t, o) (map entryOf (nth v F [])) -> t <= length es /\
     match o with None => t = v | Some (b, _) => t <> v /\ b < length es end).
  { intros t o H. apply in_map_iff in H. destruct H as [[t' w] [E H]]. unfold entryOf in E.
    cbn [fst snd] in E. inversion E; subst t' o. apply I in H.
    split; [eapply nbw_start_le; eauto|].
    destruct w as [|x w].
    - inversion H; auto.
    - unfold flip. split.
      + intros Q. subst v. eapply no_closed; [auto|reflexivity| |exact H]. congruence.
      + inversion H; subst. auto. }
  repeat split; auto; try apply RG with (1 := H); auto.
  assert (length (map fst (map entryOf (nth v F []))) = length (seq 0 (S (length es)))).
  { apply Permutation_length. apply NoDup_Permutation; auto. apply seq_NoDup.
    intros t. rewrite in_seq. split.
    - intros H. apply in_map_iff in H. destruct H as [[t' o] [E H]]. simpl in E. subst.
      apply RG in H. lia.
    - intros H. destruct (CV t ltac:(lia)) as [w [_ Hin]].
      apply in_map_iff. exists (entryOf (t, w)). split; auto. }
  rewrite map_length, seq_length in H. auto.
Qed.

Lemma assignRows_ok : acyclic es -> connected es -> forall F, walksAll F ->
  forall rest s, (forall i, nth i rest [] = nth (s + i) F []) -> s + length rest = S (length es) ->
  exists rows, assignRows (length es) (S (length es)) s (map (map entryOf) rest) = Ok rows /\
    length rows = length rest /\
    forall i t w, i < length rest -> nbw t w (s + i) ->
      length (nth i rows []) = S (length es) /\
      nth t (nth i rows []) None = snd (entryOf (t, w)).
Proof.
  intros HA HC F HF. induction rest as [|r rest IH]; intros s Hn Hl.
  - exists []. simpl. repeat split; auto; lia.
  - cbn [map assignRows].
    destruct (entries_ok HA HC F HF s ltac:(simpl in Hl; lia)) as [E1 [E2 [E3 E4]]].
    specialize (Hn 0) as Hn0. simpl in Hn0. rewrite Nat.add_0_r in Hn0. subst r.
    rewrite E1, Nat.eqb_refl. cbn [check bind].
    destruct (assignRow_ok s (map entryOf (nth s F [])) (repeat None (S (length es)))) as [row [R1 [R2 [R3 R4]]]].
    + apply repeat_length.
    + auto.
    + intros t o Hin. destruct (E3 t o Hin) as [Q1 Q2]. repeat split; auto.
      assert (G : forall n k, nth k (repeat (@None (nat*bool)) n) None = None)
        by (induction n; destruct k; simpl; auto).
      apply G.
    + rewrite R1. cbn [bind].
      destruct (IH (S s)) as [rows [S1 [S2 S3]]].
      * intros i. specialize (Hn (S i)). simpl in Hn. rewrite Hn. f_equal. lia.
      * simpl in Hl. lia.
      * rewrite S1. cbn [bind]. exists (row :: rows). split; auto. split; [simpl; lia|].
        intros i t w Hi Hw. destruct i as [|i].
        -- rewrite Nat.add_0_r in Hw. simpl. split; auto.
           destruct (E4 t (nbw_start_le _ _ _ Hw)) as [w' [Hw' Hin]].
           assert (w' = w) by (eapply nbw_unique; eauto). subst w'.
           apply R3. exact Hin.
        -- simpl. apply S3. simpl in Hi; lia. replace (S s + i) with (s + S i) by lia. auto.
Qed.

Lemma makePaths_tree : acyclic es -> connected es -> exists paths,
  makePaths es vs = Ok paths /\ length paths = S (length es) /\
  forall t w v, nbw t w v -> pathAt paths v t = snd (entryOf (t, w)).
Proof.
  intros HA HC. destruct HV as [LV _]. unfold makePaths.
  replace (0 <? length vs) with true by (symmetry; apply Nat.ltb_lt; lia). cbn [check bind].
  destruct (pathLoop_tree HA) as [F [E HF]]. rewrite E. cbn [bind].
  rewrite LV. destruct HF as [LF HF'].
  destruct (assignRows_ok HA HC F (conj LF HF') F 0) as [rows [R1 [R2 R3]]]; auto.
  exists rows. repeat split; auto; try lia.
  intros t w v Hw. unfold pathAt. apply R3; auto. apply nbw_end_le in Hw. lia.
Qed.

End Walks.
