From Coq Require Import ZArith List Bool Arith Lia Permutation Relations Wellfounded.
From Verif Require Import Base Polymer PolymerSpec.
Import ListNotations.

(* ---------- vertices ---------- *)

Definition inOf (v : nat) (be : nat * edge) : list dart :=
  if fst (snd be) =? v then [(fst be, true)]
  else if snd (snd be) =? v then [(fst be, false)] else [].
Definition outOf (v : nat) (be : nat * edge) : list dart :=
  if fst (snd be) =? v then [(fst be, false)]
  else if snd (snd be) =? v then [(fst be, true)] else [].

Lemma combine_seq_cons : forall b (e : edge) es,
  combine (seq b (length (e :: es))) (e :: es) = (b, e) :: combine (seq (S b) (length es)) es.
Proof. reflexivity. Qed.

Lemma addEdgeAt_spec : forall vs id b e, id < length vs -> fst e <> snd e ->
  (fst e = id \/ snd e = id) ->
  addEdgeAt vs id b e =
   Ok (update vs id (mkVertex (outIds (vertexAt vs id) ++ outOf id (b, e))
                              (inIds (vertexAt vs id) ++ inOf id (b, e)))).
Proof.
  intros vs id b e Hid Hne Hor. unfold addEdgeAt.
  rewrite (nth_error_nth' vs (mkVertex [] [])) by auto.
  fold (vertexAt vs id). unfold addEdge, inOf, outOf; cbn [fst snd].
  rewrite (proj2 (Nat.eqb_neq _ _) Hne).
  destruct (Nat.eqb_spec (fst e) id); [reflexivity|].
  destruct (Nat.eqb_spec (snd e) id); [reflexivity|]. tauto.
Qed.

Lemma addEdges_ok : forall es vs b,
  Forall (fun e => fst e < length vs /\ snd e < length vs /\ fst e <> snd e) es ->
  exists vs', addEdges vs b es = Ok vs' /\ length vs' = length vs /\
   forall v, v < length vs ->
     inIds (vertexAt vs' v) = inIds (vertexAt vs v)
        ++ flat_map (inOf v) (combine (seq b (length es)) es) /\
     outIds (vertexAt vs' v) = outIds (vertexAt vs v)
        ++ flat_map (outOf v) (combine (seq b (length es)) es).
Proof.
  induction es as [|e es IH]; intros vs b HF.
  - exists vs. simpl. split; auto. split; auto. intros. rewrite !app_nil_r; auto.
  - inversion HF as [|? ? [H1 [H2 H3]] HF']; subst.
    cbn [addEdges]. rewrite addEdgeAt_spec by auto. cbn [bind].
    set (vs1 := update vs (fst e) _).
    assert (L1 : length vs1 = length vs) by apply update_length.
    rewrite addEdgeAt_spec by (auto; lia). cbn [bind].
    set (vs2 := update vs1 (snd e) _).
    assert (L2 : length vs2 = length vs) by (unfold vs2; rewrite update_length; auto).
    destruct (IH vs2 (S b)) as [vs' [E [L HV]]].
    { rewrite L2; auto. }
    exists vs'. split; auto. split; [lia|]. intros v Hv.
    destruct (HV v ltac:(lia)) as [I O]. rewrite I, O.
    rewrite combine_seq_cons. cbn [flat_map]. rewrite !app_assoc.
    assert (D : vertexAt vs2 v =
       mkVertex (outIds (vertexAt vs v) ++ outOf v (b, e)) (inIds (vertexAt vs v) ++ inOf v (b, e))).
    { unfold vs2. unfold vertexAt at 1.
      destruct (Nat.eq_dec (snd e) v) as [Es|Es].
      - rewrite <- Es at 1. rewrite nth_update_same by lia.
        unfold vs1, vertexAt. rewrite nth_update_other by auto. subst v. reflexivity.
      - rewrite nth_update_other by auto.
        unfold vs1. destruct (Nat.eq_dec (fst e) v) as [Ef|Ef].
        + rewrite <- Ef at 1. rewrite nth_update_same by lia. subst v. reflexivity.
        + rewrite nth_update_other by auto.
          unfold inOf, outOf; cbn [fst snd].
          rewrite (proj2 (Nat.eqb_neq _ _) Ef), (proj2 (Nat.eqb_neq _ _) Es), !app_nil_r.
          unfold vertexAt. destruct (nth v vs (mkVertex [] [])); reflexivity. }
    rewrite D. split; reflexivity.
Qed.

Definition graphVertices (es : list edge) (vs : list vertex) : Prop :=
  length vs = S (length es) /\
  forall v, v <= length es ->
     inIds (vertexAt vs v) = flat_map (inOf v) (combine (seq 0 (length es)) es) /\
     outIds (vertexAt vs v) = flat_map (outOf v) (combine (seq 0 (length es)) es).

Lemma addEdges_graph : forall es, well_formed es ->
  exists vs, addEdges (initVertices (length es)) 0 es = Ok vs /\ graphVertices es vs.
Proof.
  intros es HW. destruct (addEdges_ok es (initVertices (length es)) 0) as [vs [E [L HV]]].
  - unfold initVertices. rewrite repeat_length. unfold well_formed in HW.
    eapply Forall_impl; [|exact HW]. simpl. intros; lia.
  - exists vs. split; auto. unfold initVertices in *. rewrite repeat_length in *.
    split; auto. intros v Hv. destruct (HV v ltac:(lia)) as [I O]. rewrite I, O.
    assert (G : forall n k, nth k (repeat (mkVertex [] []) n) (mkVertex [] []) = mkVertex [] []).
    { induction n; destruct k; simpl; auto. }
    unfold vertexAt. rewrite G. auto.
Qed.

Lemma in_combine_seq : forall (es : list edge) s b e,
  In (b, e) (combine (seq s (length es)) es) <->
  s <= b < s + length es /\ nth (b - s) es (0,0) = e.
Proof.
  induction es as [|e0 es IH]; intros s b e.
  - simpl. split; [tauto|lia].
  - rewrite combine_seq_cons. cbn [In]. rewrite IH. cbn [length]. split.
    + intros [H|[H1 H2]].
      * inversion H; subst. rewrite Nat.sub_diag. split; auto. lia.
      * split; [lia|]. replace (b - s) with (S (b - S s)) by lia. auto.
    + intros [H1 H2]. destruct (Nat.eq_dec b s).
      * left. subst. rewrite Nat.sub_diag. auto.
      * right. split; [lia|]. replace (b - s) with (S (b - S s)) in H2 by lia. auto.
Qed.

Lemma wf_edge : forall es b, well_formed es -> b < length es ->
  fst (s_edge es b) <= length es /\ snd (s_edge es b) <= length es /\
  fst (s_edge es b) <> snd (s_edge es b).
Proof.
  intros es b HW Hb. unfold well_formed in HW. rewrite Forall_forall in HW.
  apply HW. apply nth_In; auto.
Qed.

Lemma in_inIds : forall es vs v x, well_formed es -> graphVertices es vs -> v <= length es ->
  (In x (inIds (vertexAt vs v)) <-> is_prop es x /\ s_end es x = v).
Proof.
  intros es vs v [b d] HW [_ HV] Hv. destruct (HV v Hv) as [I _]. rewrite I.
  rewrite in_flat_map. unfold is_prop, s_end, s_edge; cbn [fst snd]. split.
  - intros [[b' e] [H1 H2]]. apply in_combine_seq in H1. destruct H1 as [H1 H3].
    rewrite Nat.sub_0_r in H3. unfold inOf in H2; cbn [fst snd] in H2.
    destruct (Nat.eqb_spec (fst e) v); [|destruct (Nat.eqb_spec (snd e) v)];
      simpl in H2; try tauto; destruct H2 as [H2|[]]; inversion H2; subst b' d;
      rewrite H3; split; auto; lia.
  - intros [H1 H2]. exists (b, nth b es (0,0)). split.
    + apply in_combine_seq. rewrite Nat.sub_0_r. split; auto; lia.
    + destruct (wf_edge es b HW H1) as [_ [_ N]]. unfold s_edge in N.
      unfold inOf; cbn [fst snd]. destruct d.
      * rewrite (proj2 (Nat.eqb_eq _ _) H2). simpl; auto.
      * destruct (Nat.eqb_spec (fst (nth b es (0,0))) v); [congruence|].
        rewrite (proj2 (Nat.eqb_eq _ _) H2). simpl; auto.
Qed.

Lemma in_outIds : forall es vs v x, well_formed es -> graphVertices es vs -> v <= length es ->
  (In x (outIds (vertexAt vs v)) <-> is_prop es x /\ s_start es x = v).
Proof.
  intros es vs v [b d] HW [_ HV] Hv. destruct (HV v Hv) as [_ I]. rewrite I.
  rewrite in_flat_map. unfold is_prop, s_start, s_edge; cbn [fst snd]. split.
  - intros [[b' e] [H1 H2]]. apply in_combine_seq in H1. destruct H1 as [H1 H3].
    rewrite Nat.sub_0_r in H3. unfold outOf in H2; cbn [fst snd] in H2.
    destruct (Nat.eqb_spec (fst e) v); [|destruct (Nat.eqb_spec (snd e) v)];
      simpl in H2; try tauto; destruct H2 as [H2|[]]; inversion H2; subst b' d;
      rewrite H3; split; auto; lia.
  - intros [H1 H2]. exists (b, nth b es (0,0)). split.
    + apply in_combine_seq. rewrite Nat.sub_0_r. split; auto; lia.
    + destruct (wf_edge es b HW H1) as [_ [_ N]]. unfold s_edge in N.
      unfold outOf; cbn [fst snd]. destruct d.
      * destruct (Nat.eqb_spec (fst (nth b es (0,0))) v); [congruence|].
        rewrite (proj2 (Nat.eqb_eq _ _) H2). simpl; auto.
      * rewrite (proj2 (Nat.eqb_eq _ _) H2). simpl; auto.
Qed.

Lemma start_le : forall es x, well_formed es -> is_prop es x -> s_start es x <= length es.
Proof.
  intros es [b d] HW H. destruct (wf_edge es b HW H) as [A [B _]]. unfold s_start.
  cbn [fst snd]. destruct d; auto.
Qed.
Lemma end_le : forall es x, well_formed es -> is_prop es x -> s_end es x <= length es.
Proof.
  intros es [b d] HW H. destruct (wf_edge es b HW H) as [A [B _]]. unfold s_end.
  cbn [fst snd]. destruct d; auto.
Qed.

(* ---------- darts ---------- *)
Lemma dart_eqb_eq : forall x y, dart_eqb x y = true <-> x = y.
Proof.
  intros [a b] [c d]. unfold dart_eqb; cbn [fst snd].
  rewrite andb_true_iff, Nat.eqb_eq, Bool.eqb_true_iff. split.
  - intros [? ?]; subst; auto.
  - intros H; inversion H; auto.
Qed.

Lemma isFinished_iff : forall s x, isFinished s x = true <-> In x (finished s).
Proof.
  intros. unfold isFinished. rewrite existsb_exists. split.
  - intros [y [H1 H2]]. apply dart_eqb_eq in H2. subst; auto.
  - intros H. exists x. split; auto. apply dart_eqb_eq; auto.
Qed.

Lemma in_allDarts : forall n x, In x (allDarts n) <-> fst x < n.
Proof.
  intros n [b d]. unfold allDarts. rewrite in_flat_map. split.
  - intros [b' [H1 H2]]. apply in_seq in H1. simpl in H2.
    destruct H2 as [H2|[H2|[]]]; inversion H2; subst; simpl; lia.
  - simpl. intros. exists b. split. apply in_seq; lia. destruct d; simpl; auto.
Qed.

Lemma allDarts_length : forall n, length (allDarts n) = n * 2.
Proof.
  intros. unfold allDarts.
  assert (G : forall s, length (flat_map (fun b => [(b, false); (b, true)]) (seq s n)) = n * 2).
  { induction n; intros; simpl; auto. }
  apply G.
Qed.

Lemma allDarts_NoDup : forall n, NoDup (allDarts n).
Proof.
  intros. unfold allDarts.
  assert (G : forall n s, NoDup (flat_map (fun b => [(b, false); (b, true)]) (seq s n)) /\
     forall x, In x (flat_map (fun b => [(b, false); (b, true)]) (seq s n)) -> s <= fst x).
  { induction n0 as [|n0 IHn0]; intros s; simpl.
    - split. constructor. tauto.
    - destruct (IHn0 (S s)) as [N M]. split.
      + constructor; [|constructor]; auto.
        * intros [H|H]; [discriminate|]. apply M in H. simpl in H. lia.
        * intros H. apply M in H. simpl in H. lia.
      + intros x [H|[H|H]]; subst; simpl; auto. apply M in H. lia. }
  apply G.
Qed.

(* ---------- makePlan ---------- *)
Section Plan.
Variable es : list edge.
Variable vs : list vertex.
Hypothesis HW : well_formed es.
Hypothesis HV : graphVertices es vs.

Lemma planReady_iff : forall s x, is_prop es x ->
  (planReady es vs s x = true <-> forall y, feeds es y x -> In y (finished s)).
Proof.
  intros s x Hx. unfold planReady. rewrite forallb_forall.
  change (vertexId (edgeAt es (fst x)) (snd x)) with (s_start es x).
  split.
  - intros H y [F1 [F2 [F3 F4]]].
    specialize (H y). rewrite (in_inIds es) in H by (auto; apply start_le; auto).
    specialize (H (conj F1 F3)). apply orb_true_iff in H. destruct H as [H|H].
    + apply Nat.eqb_eq in H. tauto.
    + apply isFinished_iff; auto.
  - intros H y Hy. rewrite (in_inIds es) in Hy by (auto; apply start_le; auto).
    destruct Hy as [Y1 Y2]. apply orb_true_iff.
    destruct (Nat.eqb_spec (fst y) (fst x)); auto. right.
    apply isFinished_iff, H. repeat split; auto.
Qed.

(** invariant of plan states *)
Definition planInv (s : plan_state) : Prop :=
  NoDup (plan s) /\
  (forall x, In x (finished s) <-> In x (plan s)) /\
  (forall x, In x (plan s) -> is_prop es x) /\
  (forall l1 y l2, plan s = l1 ++ y :: l2 -> forall x, feeds es x y -> In x l1).

Lemma planVisit_inv : forall s x, is_prop es x -> planInv s -> planInv (planVisit es vs s x).
Proof.
  intros s x Hx [N [F [P O]]]. unfold planVisit.
  destruct (isFinished s x) eqn:E1; [split; auto|].
  destruct (planReady es vs s x) eqn:E2; [|split; auto].
  assert (NI : ~ In x (plan s)).
  { intros H. apply F in H. apply isFinished_iff in H. congruence. }
  unfold planInv; cbn [plan finished]. split; [|split; [|split]].
  - apply Permutation_NoDup with (x :: plan s).
    + apply Permutation_cons_append.
    + constructor; auto.
  - intros y. rewrite in_app_iff. simpl. rewrite F. tauto.
  - intros y. rewrite in_app_iff. simpl. intros [H|[H|[]]]; subst; auto.
  - intros l1 y l2 E z Hz.
    destruct (exists_last (l := y :: l2)) as [l2' [a Ea]]; [congruence|].
    rewrite Ea, app_assoc in E. apply app_inj_tail in E. destruct E as [E E'].
    destruct l2' as [|b l2'].
    + simpl in Ea. inversion Ea; subst. rewrite app_nil_r in E. subst l1.
      apply F. apply (proj1 (planReady_iff s a Hx) E2). auto.
    + simpl in Ea. inversion Ea; subst b. eapply O; eauto.
Qed.

Lemma planVisit_mono : forall s x y, In y (finished s) -> In y (finished (planVisit es vs s x)).
Proof.
  intros. unfold planVisit. destruct (isFinished s x); auto.
  destruct (planReady es vs s x); simpl; auto.
Qed.

Lemma fold_mono : forall l s y, In y (finished s) ->
  In y (finished (fold_left (planVisit es vs) l s)).
Proof. induction l; simpl; intros; auto. apply IHl, planVisit_mono; auto. Qed.

Lemma fold_inv : forall l s, (forall x, In x l -> is_prop es x) -> planInv s ->
  planInv (fold_left (planVisit es vs) l s).
Proof.
  induction l; simpl; intros; auto. apply IHl; auto. apply planVisit_inv; auto.
Qed.

Lemma planVisit_length : forall s x, length (plan s) <= length (plan (planVisit es vs s x)).
Proof.
  intros. unfold planVisit. destruct (isFinished s x); auto.
  destruct (planReady es vs s x); simpl; auto. rewrite app_length; lia.
Qed.
Lemma fold_length : forall l s, length (plan s) <= length (plan (fold_left (planVisit es vs) l s)).
Proof.
  induction l; simpl; intros; auto. etransitivity; [apply planVisit_length|apply IHl].
Qed.

Lemma fold_visits : forall l s x, (forall y, In y l -> is_prop es y) -> In x l ->
  (forall y, feeds es y x -> In y (finished s)) ->
  In x (finished (fold_left (planVisit es vs) l s)).
Proof.
  induction l; intros s x HP Hin HR; [destruct Hin|].
  destruct Hin as [H|H].
  - subst a. simpl. apply fold_mono. unfold planVisit.
    destruct (isFinished s x) eqn:E; [apply isFinished_iff; auto|].
    rewrite (proj2 (planReady_iff s x (HP x (or_introl eq_refl))) HR). simpl; auto.
  - simpl. apply IHl; auto.
    + intros; apply HP; simpl; auto.
    + intros; apply planVisit_mono; auto.
Qed.

Lemma allDarts_prop : forall x, In x (allDarts (length es)) -> is_prop es x.
Proof. intros x H. apply in_allDarts in H. auto. Qed.

Lemma planInv_bound : forall s, planInv s -> length (plan s) <= length es * 2.
Proof.
  intros s [N [_ [P _]]]. rewrite <- allDarts_length.
  apply NoDup_incl_length; auto. intros x Hx. apply in_allDarts, P; auto.
Qed.

Lemma planInv_full : forall s, planInv s -> length es * 2 <= length (plan s) ->
  Permutation (plan s) (allDarts (length es)).
Proof.
  intros s [N [F [P O]]] L. apply NoDup_Permutation_bis; auto.
  - rewrite allDarts_length; auto.
  - intros x Hx. apply in_allDarts, P; auto.
Qed.

(** every finite relation without cycles has a minimal element among any
    nonempty set *)
Lemma minimal_unfinished : acyclic es -> forall (fin : list dart),
  (exists x, is_prop es x /\ ~ In x fin) ->
  exists x, is_prop es x /\ ~ In x fin /\ forall y, feeds es y x -> In y fin.
Proof.
  intros HA fin.
  assert (DD : forall x y : dart, {x = y} + {x <> y}) by (intros; decide equality; decide equality).
  (* walk backwards; strictly shrinking set of candidates *)
  assert (G : forall (k : nat) (avail : list dart) x,
     length avail <= k ->
     is_prop es x -> ~ In x fin ->
     (forall z, is_prop es z -> ~ In z avail -> z = x \/ clos_trans _ (feeds es) x z) ->
     exists m, is_prop es m /\ ~ In m fin /\ forall y, feeds es y m -> In y fin).
  { induction k; intros avail x Hlen Hx Hnf HC.
    - (* no candidates left: any unfinished predecessor closes a cycle *)
      destruct avail; [|simpl in Hlen; lia].
      exists x. repeat split; auto. intros y Hy.
      destruct (in_dec DD y fin) as [H|H]; auto. exfalso.
      assert (Py : is_prop es y) by (destruct Hy; auto).
      destruct (HC y Py ltac:(simpl; auto)) as [E|E].
      + subst. apply (HA x). apply t_step; auto.
      + apply (HA x). eapply t_trans; [exact E|apply t_step; auto].
    - (* look for an unfinished predecessor among all darts *)
      destruct (Exists_dec (fun y => feeds es y x /\ ~ In y fin) (allDarts (length es))) as [H|H].
      { intros y. unfold feeds, is_prop.
        destruct (lt_dec (fst y) (length es)); [|right; tauto].
        destruct (lt_dec (fst x) (length es)); [|right; tauto].
        destruct (Nat.eq_dec (s_end es y) (s_start es x)); [|right; tauto].
        destruct (Nat.eq_dec (fst y) (fst x)); [right; tauto|].
        destruct (in_dec DD y fin); [right; tauto|left; tauto]. }
      + apply Exists_exists in H. destruct H as [y [Hin [Hf Hnfy]]].
        assert (Py : is_prop es y) by (destruct Hf; auto).
        destruct (in_dec DD y avail) as [Ha|Ha].
        * (* recurse with y removed *)
          apply (IHk (remove DD y avail) y); auto.
          -- assert (length (remove DD y avail) < length avail) by (apply remove_length_lt; auto). lia.
          -- intros z Pz Hz. destruct (DD z y) as [E|E]; [left; auto|right].
             assert (~ In z avail). { intros Q. apply Hz. apply in_in_remove; auto. }
             destruct (HC z Pz H) as [E1|E1].
             ++ subst z. apply t_step; auto.
             ++ eapply t_trans; [apply t_step; exact Hf|exact E1].
        * exfalso. destruct (HC y Py Ha) as [E|E].
          -- subst. apply (HA x). apply t_step; auto.
          -- apply (HA x). eapply t_trans; [exact E|apply t_step; auto].
      + exists x. repeat split; auto. intros y Hy.
        destruct (in_dec DD y fin) as [Q|Q]; auto. exfalso. apply H.
        apply Exists_exists. exists y. split; auto. apply in_allDarts. destruct Hy; auto. }
  intros [x [Hx Hn]].
  apply (G (length (allDarts (length es))) (allDarts (length es)) x); auto.
  intros z Pz Hz. exfalso. apply Hz, in_allDarts; auto.
Qed.

Lemma planSweep_progress : acyclic es -> forall s, planInv s ->
  length (plan s) < length es * 2 ->
  length (plan s) < length (plan (planSweep es vs s)).
Proof.
  intros HA s Hs Hlt.
  assert (U : exists x, is_prop es x /\ ~ In x (finished s)).
  { assert (DD : forall x y : dart, {x = y} + {x <> y}) by (intros; decide equality; decide equality).
    destruct (Exists_dec (fun x => ~ In x (finished s)) (allDarts (length es))) as [H|H].
    - intros x. destruct (in_dec DD x (finished s)); [right; tauto|left; auto].
    - apply Exists_exists in H. destruct H as [x [H1 H2]]. exists x. split; auto.
      apply in_allDarts in H1; auto.
    - exfalso. destruct Hs as [N [F [P O]]].
      assert (length (allDarts (length es)) <= length (plan s)).
      { apply NoDup_incl_length. apply allDarts_NoDup. intros x Hx.
        destruct (in_dec DD x (finished s)) as [Q|Q]; [apply F; auto|].
        exfalso. apply H. apply Exists_exists. eauto. }
      rewrite allDarts_length in H0. lia. }
  destruct (minimal_unfinished HA _ U) as [x [Hx [Hn Hp]]].
  assert (I : In x (finished (planSweep es vs s))).
  { apply fold_visits; auto. apply allDarts_prop. apply in_allDarts; auto. }
  pose proof (fold_inv (allDarts (length es)) s allDarts_prop Hs) as Hs'.
  fold (planSweep es vs s) in Hs'.
  destruct Hs as [N [F [P O]]]. destruct Hs' as [N' [F' [P' O']]].
  assert (length (x :: plan s) <= length (plan (planSweep es vs s))); [|simpl in *; lia].
  apply NoDup_incl_length.
  - constructor; auto. rewrite <- F; auto.
  - intros y [Hy|Hy]; [subst; apply F'; auto|].
    apply F'. apply fold_mono, F; auto.
Qed.

Lemma planLoop_ok : acyclic es -> forall fuel s, planInv s ->
  length es * 2 <= length (plan s) + fuel ->
  exists l, planLoop fuel es vs s = Ok l /\ Permutation l (allDarts (length es)) /\
    forall l1 y l2, l = l1 ++ y :: l2 -> forall x, feeds es x y -> In x l1.
Proof.
  intros HA. induction fuel; intros s Hs Hf; cbn [planLoop].
  - rewrite (proj2 (Nat.leb_le _ _)) by lia. exists (plan s). split; auto.
    split. apply planInv_full; auto; lia. apply Hs.
  - destruct (Nat.leb_spec (length es * 2) (length (plan s))).
    + exists (plan s). split; auto. split. apply planInv_full; auto; lia. apply Hs.
    + apply IHfuel.
      * apply fold_inv; auto. apply allDarts_prop.
      * pose proof (planSweep_progress HA s Hs H). lia.
Qed.

Lemma planInv_init : planInv (mkPS [] []).
Proof.
  repeat split; simpl; intros; try tauto; try constructor.
  destruct l1; discriminate.
Qed.

(** with a cycle: darts on a cycle never finish *)
Lemma cyclic_invariant : forall l s x, (forall y, In y l -> is_prop es y) ->
  (forall y, clos_trans _ (feeds es) y y -> ~ In y (finished s)) ->
  clos_trans _ (feeds es) x x -> ~ In x (finished (fold_left (planVisit es vs) l s)).
Proof.
  induction l; simpl; intros s x HP HC Hx; [auto|].
  apply IHl; auto. intros y Hy. unfold planVisit.
  destruct (isFinished s a) eqn:E; [auto|].
  destruct (planReady es vs s a) eqn:R; [|auto].
  simpl. intros [Q|Q]; [|eapply HC; eauto]. subst a.
  assert (PR := proj1 (planReady_iff s y (HP y (or_introl eq_refl))) R).
  (* the last step of the cycle enters y *)
  assert (L : exists z, feeds es z y /\ clos_refl_trans _ (feeds es) y z).
  { clear -Hy. apply clos_trans_tn1 in Hy. inversion Hy; subst.
    - exists y. split; auto. apply rt_refl.
    - exists y0. split; auto. apply clos_tn1_trans in H0.
      clear -H0. induction H0. apply rt_step; auto. eapply rt_trans; eauto. }
  destruct L as [z [F1 F2]]. apply (HC z); [|apply PR; auto].
  clear -F1 F2. 
  assert (G : forall a b, clos_refl_trans _ (feeds es) a b -> a = b \/ clos_trans _ (feeds es) a b).
  { induction 1; auto. right; apply t_step; auto.
    destruct IHclos_refl_trans1, IHclos_refl_trans2; subst; auto.
    right. eapply t_trans; eauto. }
  destruct (G _ _ F2).
  - subst z. apply t_step; auto.
  - eapply t_trans; [apply t_step; exact F1|exact H].
Qed.

Lemma clos_feeds_prop : forall x y, clos_trans _ (feeds es) x y -> is_prop es x.
Proof. induction 1; auto. destruct H; auto. Qed.

Lemma planLoop_cyclic : forall x, clos_trans _ (feeds es) x x -> forall fuel s, planInv s ->
  (forall y, clos_trans _ (feeds es) y y -> ~ In y (finished s)) ->
  planLoop fuel es vs s = NoFuel.
Proof.
  intros x Hx. induction fuel; intros s Hs HC; cbn [planLoop].
  - destruct (Nat.leb_spec (length es * 2) (length (plan s))); auto. exfalso.
    apply (HC x Hx). destruct Hs as [N [F [P O]]] eqn:?. apply F.
    eapply Permutation_in; [apply Permutation_sym, planInv_full; eauto|].
    apply in_allDarts. apply (clos_feeds_prop _ _ Hx).
  - destruct (Nat.leb_spec (length es * 2) (length (plan s))).
    + exfalso. apply (HC x Hx). destruct Hs as [N [F [P O]]] eqn:?. apply F.
      eapply Permutation_in; [apply Permutation_sym, planInv_full; eauto|].
      apply in_allDarts. apply (clos_feeds_prop _ _ Hx).
    + apply IHfuel.
      * apply fold_inv; auto. apply allDarts_prop.
      * intros y Hy. apply cyclic_invariant; auto. apply allDarts_prop.
Qed.

End Plan.
