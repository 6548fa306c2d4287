(** C06-C08: propagator plan, vertex paths and validation of branched polymers. *)
From Coq Require Import ZArith List Bool Arith Lia Permutation Relations.
From Verif Require Import Base Polymer PolymerSpec PolymerProofs PolymerTree PolymerPaths.
Import ListNotations.

(* ---- lemmas ---- *)

Lemma makePlan_tree : forall es vs fuel, tree es -> graphVertices es vs -> length es * 2 <= fuel ->
  exists l, makePlan fuel es vs = Ok l /\ Permutation l (allDarts (length es)) /\
    forall l1 y l2, l = l1 ++ y :: l2 -> forall x, feeds es x y -> In x l1.
Proof.
  intros es vs fuel HT HV Hf. unfold makePlan. apply planLoop_ok; auto.
  - apply HT. - apply tree_acyclic; auto. - apply planInv_init.
Qed.

Lemma isValid_tree : forall es vs pl pa, tree es -> graphVertices es vs ->
  length pa = S (length es) ->
  (forall t w v, nbw es t w v -> pathAt pa v t = snd (entryOf (t, w))) ->
  isValid (mkPolymer es vs pl pa) = Ok tt.
Proof.
  intros es vs pl pa [HW HC] HV HL HP. assert (HA := tree_acyclic es (conj HW HC)).
  assert (HV2 := HV). destruct HV2 as [LV HV'].
  unfold isValid; cbn [p_edges p_vertices p_paths].
  assert (E1 : validEdges es (length vs) = true).
  { unfold validEdges. apply forallb_forall. intros e He.
    unfold well_formed in HW. rewrite Forall_forall in HW. destruct (HW e He) as [A [B C]].
    rewrite !andb_true_iff, negb_true_iff, Nat.eqb_neq, !Nat.ltb_lt. lia. }
  assert (E2 : validOut es vs = true).
  { unfold validOut. apply forallb_forall. intros v Hv. apply in_seq in Hv.
    apply forallb_forall. intros x Hx. apply (in_outIds es) in Hx; [|auto|auto|lia].
    destruct Hx as [A B]. rewrite andb_true_iff, Nat.ltb_lt, Nat.eqb_eq. split; auto. }
  assert (E3 : validIn es vs = true).
  { unfold validIn. apply forallb_forall. intros v Hv. apply in_seq in Hv.
    apply forallb_forall. intros x Hx. apply (in_inIds es) in Hx; [|auto|auto|lia].
    destruct Hx as [A B]. rewrite andb_true_iff, Nat.ltb_lt, Nat.eqb_eq. split; auto.
    rewrite <- B. unfold vertexId, edgeAt, s_end, s_edge. destruct (snd x); auto. }
  assert (E4 : validPaths es (length vs) pa = true).
  { unfold validPaths. apply forallb_forall. intros i Hi. apply forallb_forall. intros j Hj.
    apply in_seq in Hi. apply in_seq in Hj.
    destruct (nbw_exists es HW j i ltac:(lia) (HC j i ltac:(lia) ltac:(lia))) as [w Hw].
    rewrite (HP j w i Hw). unfold entryOf; cbn [fst snd].
    destruct w as [|x w].
    - inversion Hw; subst. apply Nat.eqb_refl.
    - unfold flip. rewrite andb_true_iff, negb_true_iff, Nat.eqb_neq, Nat.eqb_eq. split.
      + intros Q. subst j. eapply (no_closed es HW HA); [reflexivity| |exact Hw]. congruence.
      + inversion Hw; subst. unfold vertexId, edgeAt, s_end, s_edge. destruct (snd x); auto. }
  rewrite E1, E2, E3, E4. reflexivity.
Qed.

Lemma readGraph_tree : forall es fuel, tree es -> length es * 2 <= fuel ->
  exists p, readGraph fuel es = Ok p /\ p_edges p = es /\ graphVertices es (p_vertices p) /\
    Permutation (p_plan p) (allDarts (length es)) /\
    (forall l1 y l2, p_plan p = l1 ++ y :: l2 -> forall x, feeds es x y -> In x l1) /\
    (forall t w v, nbw es t w v -> pathAt (p_paths p) v t = snd (entryOf (t, w))).
Proof.
  intros es fuel HT Hf. assert (HT' := HT). destruct HT' as [HW HC]. assert (HA := tree_acyclic es HT).
  destruct (addEdges_graph es HW) as [vs [E1 HV]].
  destruct (makePlan_tree es vs fuel HT HV Hf) as [pl [E2 [P1 P2]]].
  destruct (makePaths_tree es HW vs HV HA HC) as [pa [E3 [P3 P4]]].
  exists (mkPolymer es vs pl pa). unfold readGraph. rewrite E1. cbn [bind]. rewrite E2. cbn [bind].
  rewrite E3. cbn [bind]. rewrite (isValid_tree es vs pl pa HT HV P3 P4). cbn [bind].
  split; [reflexivity|]. split; [reflexivity|]. split; [exact HV|]. auto.
Qed.

Lemma walk_spec : forall es p, tree es -> p_edges p = es ->
  (forall t w v, nbw es t w v -> pathAt (p_paths p) v t = snd (entryOf (t, w))) ->
  forall t w v, nbw es t w v -> forall fuel, length w <= fuel ->
  walk fuel p v t = Ok (verts es t w).
Proof.
  intros es p HT Hes HP t w v H. assert (HA := tree_acyclic es HT). destruct HT as [HW HC].
  induction H as [Ht|l u x Hl IH Hx Hs Hh]; intros fuel Hf.
  - destruct fuel; simpl; rewrite Nat.eqb_refl; auto.
  - assert (HN : nbw es t (x :: l) (s_end es x)) by (econstructor; eauto).
    assert (NE : s_end es x <> t).
    { intros Q. eapply (no_closed es HW HA); [reflexivity| |rewrite Q in HN; exact HN]. congruence. }
    destruct fuel as [|fuel]; [simpl in Hf; lia|].
    cbn [walk]. rewrite (proj2 (Nat.eqb_neq _ _) NE).
    unfold nextVertex. rewrite (proj2 (Nat.eqb_neq _ _) NE). cbn [negb check bind].
    rewrite (HP t (x :: l) _ HN). cbn [entryOf snd flip fst].
    unfold flip. rewrite Hes. unfold is_prop in Hx. rewrite (proj2 (Nat.ltb_lt _ _) Hx). cbn [check bind].
    replace (vertexId (edgeAt es (fst x)) (negb (negb (snd x)))) with u.
    + rewrite IH by (simpl in Hf; lia). reflexivity.
    + rewrite <- Hs. unfold vertexId, edgeAt, s_start, s_edge. destruct (snd x); auto.
Qed.

Lemma addEdgeAt_inv : forall vs id b e vs', addEdgeAt vs id b e = Ok vs' ->
  id < length vs /\ fst e <> snd e /\ length vs' = length vs.
Proof.
  intros vs id b e vs' H. unfold addEdgeAt in H.
  destruct (nth_error vs id) eqn:E; [|discriminate].
  assert (id < length vs) by (apply nth_error_Some; congruence).
  unfold addEdge in H. destruct (Nat.eqb_spec (fst e) (snd e)); [discriminate|].
  destruct (fst e =? id); [|destruct (snd e =? id); [|discriminate]];
    simpl in H; inversion H; rewrite update_length; auto.
Qed.

Lemma addEdges_inv : forall es vs b vs', addEdges vs b es = Ok vs' ->
  Forall (fun e => fst e < length vs /\ snd e < length vs /\ fst e <> snd e) es.
Proof.
  induction es as [|e es IH]; intros vs b vs' H; constructor.
  - cbn [addEdges] in H. destruct (addEdgeAt vs (fst e) b e) as [vs1| | |] eqn:E1; try discriminate.
    cbn [bind] in H. destruct (addEdgeAt vs1 (snd e) b e) as [vs2| | |] eqn:E2; try discriminate.
    apply addEdgeAt_inv in E1. apply addEdgeAt_inv in E2. repeat split; try tauto; lia.
  - cbn [addEdges] in H. destruct (addEdgeAt vs (fst e) b e) as [vs1| | |] eqn:E1; try discriminate.
    cbn [bind] in H. destruct (addEdgeAt vs1 (snd e) b e) as [vs2| | |] eqn:E2; try discriminate.
    cbn [bind] in H. apply addEdgeAt_inv in E1. apply addEdgeAt_inv in E2.
    specialize (IH _ _ _ H). eapply Forall_impl; [|exact IH]. simpl. intros; lia.
Qed.

Lemma planLoop_Ok_or_NoFuel : forall fuel es vs s,
  (exists l, planLoop fuel es vs s = Ok l) \/ planLoop fuel es vs s = NoFuel.
Proof.
  induction fuel; intros; cbn [planLoop]; destruct (length es * 2 <=? length (plan s)); eauto.
Qed.

Lemma readGraph_sound_lemma : forall fuel es p, readGraph fuel es = Ok p -> tree es.
Proof.
  intros fuel es p H. unfold readGraph in H.
  destruct (addEdges (initVertices (length es)) 0 es) as [vs| | |] eqn:E1; try discriminate.
  cbn [bind] in H.
  assert (HW : well_formed es).
  { apply addEdges_inv in E1. unfold initVertices in E1. rewrite repeat_length in E1.
    eapply Forall_impl; [|exact E1]. simpl; intros; lia. }
  destruct (addEdges_graph es HW) as [vs' [E1' HV]]. rewrite E1 in E1'. inversion E1'; subst vs'.
  destruct (makePlan fuel es vs) as [pl| | |] eqn:E2; try discriminate.
  split; auto. apply acyclic_connected; auto.
  intros x Hx. unfold makePlan in E2.
  rewrite (planLoop_cyclic es vs HW HV x Hx) in E2; try discriminate.
  - apply planInv_init. - simpl; auto.
Qed.

Lemma verts_last : forall es t w d, last (verts es t w) d = t.
Proof.
  induction w as [|x w IH]; intros d; auto.
  simpl. destruct (verts es t w) eqn:Q; [destruct w; discriminate|]. apply (IH d).
Qed.

(* ---- C06 ---- *)

(** For every valid architecture and enough iterations (2*nBlock passes always
    suffice; the real loop is unbounded), reading succeeds; each propagator
    occurs exactly once in the plan and after everything that feeds it. *)
Theorem polymer_plan_is_valid_order : forall es fuel,
  tree es -> 2 * length es <= fuel ->
  exists p, readGraph fuel es = Ok p /\
    NoDup (p_plan p) /\
    (forall x, In x (p_plan p) <-> fst x < length es) /\
    length (p_plan p) = 2 * length es /\
    (forall x y, feeds es x y -> before (p_plan p) x y).
Proof.
  intros es fuel HT Hf.
  destruct (readGraph_tree es fuel HT ltac:(lia)) as [p [E [_ [_ [P1 [P2 _]]]]]].
  exists p. split; auto. split.
  { eapply Permutation_NoDup; [apply Permutation_sym; exact P1|apply allDarts_NoDup]. }
  split.
  { intros x. rewrite <- in_allDarts. split; apply Permutation_in; auto. apply Permutation_sym; auto. }
  split.
  { rewrite (Permutation_length P1), allDarts_length. lia. }
  intros x y F. assert (In y (p_plan p)).
  { eapply Permutation_in; [apply Permutation_sym; exact P1|]. apply in_allDarts. apply F. }
  apply in_split in H. destruct H as [l1 [l2 H]]. exists l1, l2. split; auto. eapply P2; eauto.
Qed.

(** The result does not depend on the fuel. *)
Theorem polymer_read_fuel_independent : forall es f1 f2 p1,
  tree es -> 2 * length es <= f1 -> readGraph f1 es = Ok p1 ->
  f1 <= f2 -> readGraph f2 es = Ok p1.
Proof.
  intros es f1 f2 p1 HT Hf H Hle.
  assert (M : forall g1 vs s l g2, planLoop g1 es vs s = Ok l -> g1 <= g2 -> planLoop g2 es vs s = Ok l).
  { induction g1; intros vs s l g2 E L; cbn [planLoop] in E.
    - destruct g2; cbn [planLoop]; destruct (length es * 2 <=? length (plan s)); congruence.
    - destruct g2 as [|g2]; [lia|]. cbn [planLoop].
      destruct (length es * 2 <=? length (plan s)); auto. apply IHg1; auto; lia. }
  unfold readGraph, makePlan in *.
  destruct (addEdges (initVertices (length es)) 0 es) as [vs| | |]; try discriminate.
  cbn [bind] in *.
  destruct (planLoop f1 es vs (mkPS [] [])) as [pl| | |] eqn:E; try discriminate.
  rewrite (M _ _ _ _ f2 E Hle). auto.
Qed.

Lemma tree_by_parents : forall es (par : nat -> nat), well_formed es ->
  (forall v, 0 < v <= length es -> par v < v /\ adjacent es v (par v)) -> tree es.
Proof.
  intros es par HW H. split; auto.
  assert (R : forall v, v <= length es -> clos_refl_trans _ (adjacent es) v 0).
  { induction v as [v IH] using lt_wf_ind. intros Hv. destruct v; [apply rt_refl|].
    destruct (H (S v) ltac:(lia)) as [A B].
    eapply rt_trans; [apply rt_step; exact B|apply IH; lia]. }
  assert (SY : forall u v, clos_refl_trans _ (adjacent es) u v -> clos_refl_trans _ (adjacent es) v u).
  { induction 1. - apply rt_step. destruct H0 as [b [Hb E]]. exists b; tauto. - apply rt_refl.
    - eapply rt_trans; eauto. }
  intros u v Hu Hv. eapply rt_trans; [apply R; auto|apply SY, R; auto].
Qed.

(** Linear polymers, of any number of blocks, are valid architectures. *)
Theorem linear_polymer_is_tree : forall nBlock, tree (linearEdges nBlock).
Proof.
  intros n. assert (L : length (linearEdges n) = n).
  { unfold linearEdges. rewrite map_length, seq_length; auto. }
  assert (E : forall b, b < n -> s_edge (linearEdges n) b = (b, S b)).
  { intros b Hb. unfold s_edge, linearEdges.
    apply (nth_map_seq _ (fun b => (b, S b))); auto. }
  apply tree_by_parents with (par := pred).
  - unfold well_formed. rewrite L. apply Forall_forall. intros e He.
    unfold linearEdges in He. apply in_map_iff in He. destruct He as [b [Eb Hb]].
    apply in_seq in Hb. subst e. simpl. lia.
  - intros v Hv. rewrite L in Hv. split; [lia|]. exists (pred v). rewrite L. split; [lia|].
    right. rewrite E by lia. f_equal; lia.
Qed.

(** Example: a comb with mixed orientations. *)
Example comb : tree [(0,1);(2,1);(1,3);(4,3);(3,5)].
Proof.
  apply tree_by_parents with (par := fun v => match v with 1 => 0 | 2 => 1 | 3 => 1 | _ => 3 end).
  - repeat constructor.
    all: simpl; lia.
  - intros v Hv. simpl in Hv.
    destruct v as [|[|[|[|[|[|v]]]]]]; try lia; (split; [lia|]); unfold adjacent, s_edge.
    + exists 0; simpl; split; [lia|auto].
    + exists 1; simpl; split; [lia|auto].
    + exists 2; simpl; split; [lia|auto].
    + exists 3; simpl; split; [lia|auto].
    + exists 4; simpl; split; [lia|auto].
Qed.
Example comb_plan : exists p, readGraph 10 [(0,1);(2,1);(1,3);(4,3);(3,5)] = Ok p /\
  p_plan p = [(0,false);(1,false);(2,false);(3,false);(4,false);(4,true);(2,true);(3,true);(0,true);(1,true)].
Proof. eexists. split; vm_compute; reflexivity. Qed.

(* ---- C07 ---- *)

(** The signpost of a vertex pair is a propagator that leaves the first vertex;
    following signposts with VertexIterator reaches the second vertex, through
    adjacent vertices, none of them visited twice. *)
Theorem polymer_signposts_route_everywhere : forall es fuel p,
  tree es -> 2 * length es <= fuel -> readGraph fuel es = Ok p ->
  forall u v, u <= length es -> v <= length es ->
    (u = v -> pathAt (p_paths p) u v = None) /\
    (u <> v -> exists x, pathAt (p_paths p) u v = Some x /\ fst x < length es /\ s_start es x = u) /\
    exists l, walk (length es) p u v = Ok l /\
      hd_error l = Some u /\ last l u = v /\ NoDup l /\
      (forall i a b, nth_error l i = Some a -> nth_error l (S i) = Some b -> adjacent es a b).
Proof.
  intros es fuel p HT Hf HR u v Hu Hv. assert (HA := tree_acyclic es HT).
  destruct (readGraph_tree es fuel HT ltac:(lia)) as [p' [E [E1 [_ [_ [_ P]]]]]].
  rewrite HR in E. inversion E; subst p'. clear E.
  assert (HT' := HT). destruct HT' as [HW HC].
  destruct (nbw_exists es HW v u Hv (HC v u Hv Hu)) as [w Hw].
  split; [|split].
  - intros ->. rewrite (P v w v Hw). destruct w as [|x w]; auto. exfalso.
    eapply (no_closed es HW HA); [reflexivity| |exact Hw]. congruence.
  - intros N. rewrite (P v w u Hw). destruct w as [|x w].
    + inversion Hw; subst; congruence.
    + exists (flip x). cbn [entryOf snd]. split; auto. rewrite flip_start.
      inversion Hw; subst. split; auto.
  - exists (verts es v w). assert (Lw := nbw_length es HW HA _ _ _ Hw).
    split; [apply (walk_spec es); auto|].
    split; [inversion Hw; auto|]. split; [|split; [eapply verts_NoDup; eauto|]].
    + apply verts_last.
    + clear -Hw HW. induction Hw as [|l u x Hl IH Hx Hs Hh]; intros i a b H1 H2.
      * destruct i as [|[|i]]; simpl in H2; discriminate.
      * destruct i as [|i].
        -- simpl in H1. inversion H1; subst a.
           assert (b = s_start es x).
           { simpl in H2. rewrite Hs. destruct Hl; simpl in H2; congruence. }
           subst b. exists (fst x). split; [exact Hx|].
           unfold s_end, s_start, s_edge. destruct (snd x); [left|right]; apply surjective_pairing.
        -- simpl in H1. eapply IH; eauto.
Qed.

Example comb_walk : exists p, readGraph 10 [(0,1);(2,1);(1,3);(4,3);(3,5)] = Ok p /\
  walk 5 p 2 5 = Ok [2;1;3;5] /\ pathAt (p_paths p) 2 5 = Some (1, false).
Proof. eexists. split; [vm_compute; reflexivity|]. vm_compute. auto. Qed.

(* ---- C08 ---- *)

(** Soundness: whatever is accepted is a valid architecture. *)
Theorem polymer_accepted_is_tree : forall fuel es p, readGraph fuel es = Ok p -> tree es.
Proof. exact readGraph_sound_lemma. Qed.

(** ... but an invalid one is not rejected: every well-formed block list that is
    not a tree makes the loop in makePlan run forever (no fuel suffices), so the
    later validity tests are never reached. *)
Theorem polymer_invalid_graph_hangs : forall es, well_formed es -> ~ tree es ->
  forall fuel, readGraph fuel es = NoFuel.
Proof.
  intros es HW HN fuel. unfold readGraph.
  destruct (addEdges_graph es HW) as [vs [E HV]]. rewrite E. cbn [bind].
  destruct (planLoop_Ok_or_NoFuel fuel es vs (mkPS [] [])) as [[l Hl]|Hl].
  - exfalso. apply HN. split; auto. apply acyclic_connected; auto. intros x Hx.
    rewrite (planLoop_cyclic es vs HW HV x Hx) in Hl; try discriminate.
    apply planInv_init. simpl; auto.
  - unfold makePlan. rewrite Hl. reflexivity.
Qed.

(** Witnesses: a triangle with an isolated vertex hangs, a vertex id out of range
    is an out-of-bounds access. *)
Theorem polymer_invalid_graph_rejected_refuted :
  (exists es, ~ tree es /\ forall fuel, readGraph fuel es = NoFuel) /\
  (exists es, ~ tree es /\ forall fuel, readGraph fuel es = UB) /\
  (exists ez, forall fuel, readGraphZ fuel ez = UB).
Proof.
  split; [|split].
  - exists [(0,1);(1,2);(2,0)].
    assert (N : ~ tree [(0,1);(1,2);(2,0)]).
    { intros [_ H]. specialize (H 3 0 ltac:(simpl; lia) ltac:(simpl; lia)).
      destruct (crt_inv _ _ _ _ H) as [Q|[z [[b [Hb E]] _]]]; [discriminate|].
      simpl in Hb. unfold s_edge in E.
      destruct b as [|[|[|b]]]; simpl in E; try lia; destruct E as [E|E]; inversion E. }
    split; auto. apply polymer_invalid_graph_hangs; auto.
    repeat constructor; simpl; lia.
  - exists [(0,7)]. split; [|intros; reflexivity].
    intros [H _]. inversion H; subst. simpl in H2. lia.
  - exists [((-1)%Z, 0%Z)]. intros; reflexivity.
Qed.

(** What is rejected: a block that joins a vertex to itself. *)
Theorem polymer_self_loop_rejected : forall es1 v es2 fuel,
  (forall e, In e es1 -> fst e <> snd e /\ fst e <= length (es1 ++ (v, v) :: es2) /\
                         snd e <= length (es1 ++ (v, v) :: es2)) ->
  v <= length (es1 ++ (v, v) :: es2) ->
  readGraph fuel (es1 ++ (v, v) :: es2) = Throw.
Proof.
  intros es1 v es2 fuel H Hv. unfold readGraph. set (n := length (es1 ++ (v, v) :: es2)) in *.
  assert (G : forall es1 vs b, (forall e, In e es1 -> fst e <> snd e /\ fst e <= n /\ snd e <= n) ->
     length vs = S n -> addEdges vs b (es1 ++ (v, v) :: es2) = Throw).
  { induction es0 as [|e es0 IH]; intros vs b H1 H2.
    - cbn [app addEdges fst snd]. unfold addEdgeAt.
      rewrite (nth_error_nth' vs (mkVertex [] [])) by lia.
      unfold addEdge; cbn [fst snd]. rewrite Nat.eqb_refl. reflexivity.
    - destruct (H1 e (or_introl eq_refl)) as [A [B C]].
      cbn [app addEdges]. rewrite addEdgeAt_spec by (auto; lia). cbn [bind].
      rewrite addEdgeAt_spec by (rewrite ?update_length; auto; lia). cbn [bind].
      apply IH; [intros; apply H1; simpl; auto|rewrite !update_length; auto]. }
  rewrite G; auto. unfold initVertices. rewrite repeat_length. reflexivity.
Qed.

Print Assumptions polymer_plan_is_valid_order.
Print Assumptions polymer_read_fuel_independent.
Print Assumptions linear_polymer_is_tree.
Print Assumptions polymer_signposts_route_everywhere.
Print Assumptions polymer_accepted_is_tree.
Print Assumptions polymer_invalid_graph_hangs.
Print Assumptions polymer_invalid_graph_rejected_refuted.
Print Assumptions polymer_self_loop_rejected.
