(** Correctness of the propagator schedule and the reciprocity argument. *)
From Coq Require Import Reals List Bool Arith Lia Lra Permutation Relations.
From Verif Require Import Base RSum Polymer PolymerSpec PolymerProofs PolymerTree PolymerPaths PropsPolymer Solve.
Import ListNotations.
Local Open Scope R_scope.

Section S.
Variable slices : nat -> bool -> bool -> field -> list field.
Variable tailOk : bool -> bool.
Variable skipAtEnd : bool.
Variable es : list edge.
Variable vs : list vertex.
Hypothesis HW : well_formed es.
Hypothesis HV : graphVertices es vs.
Hypothesis HtailOk : tailOk false = true.

Lemma headVertex_in : forall x y, is_prop es x ->
  (In y (inIds (headVertex es vs x)) <-> is_prop es y /\ s_end es y = s_start es x).
Proof.
  intros x y Hx. unfold headVertex.
  change (vertexId (edgeAt es (fst x)) (snd x)) with (s_start es x).
  apply in_inIds; auto. apply start_le; auto.
Qed.

Lemma sources_iff : forall x y, is_prop es x -> (In y (sources es vs x) <-> feeds es y x).
Proof.
  intros x y Hx. unfold sources. rewrite filter_In, headVertex_in by auto.
  rewrite negb_true_iff, Nat.eqb_neq. unfold feeds. tauto.
Qed.

Lemma flat_map_in_NoDup : forall v n (l : list (nat * edge)),
  map fst l = seq n (length l) -> NoDup (flat_map (inOf v) l) /\
  forall x, In x (flat_map (inOf v) l) -> (n <= fst x)%nat.
Proof.
  intros v n l. revert n. induction l as [|[b e] l IH]; intros n H; simpl.
  - split; [constructor|tauto].
  - simpl in H. inversion H; subst b. destruct (IH (S n) H2) as [N B].
    assert (G : forall x, In x (inOf v (n, e)) -> fst x = n).
    { intros x. unfold inOf; cbn [fst snd].
      destruct (fst e =? v); [|destruct (snd e =? v)]; simpl; intros; intuition; subst; auto. }
    split.
    + assert (NI : NoDup (inOf v (n, e))).
      { unfold inOf; cbn [fst snd].
        destruct (fst e =? v); [|destruct (snd e =? v)]; repeat constructor; simpl; tauto. }
      clear -NI N B G. induction (inOf v (n, e)) as [|a l' IH]; simpl; auto.
      inversion NI; subst. constructor.
      * rewrite in_app_iff. intros [H|H]; [tauto|]. apply B in H.
        rewrite (G a) in H by (simpl; auto). lia.
      * apply IH; auto. intros; apply G; simpl; auto.
    + intros x Hx. rewrite in_app_iff in Hx. destruct Hx as [Hx|Hx].
      * rewrite (G x Hx). lia.
      * apply B in Hx. lia.
Qed.

Lemma inIds_NoDup : forall v, (v <= length es)%nat -> NoDup (inIds (vertexAt vs v)).
Proof.
  intros v Hv. destruct HV as [_ H]. destruct (H v Hv) as [E _]. rewrite E.
  apply (flat_map_in_NoDup v 0).
  assert (G : forall n (l : list edge), map fst (combine (seq n (length l)) l) = seq n (length l) /\
      length (combine (seq n (length l)) l) = length l).
  { intros n l. revert n. induction l; intros; simpl; auto.
    destruct (IHl (S n)) as [A B]. rewrite A, B. auto. }
  destruct (G O es) as [A B]. rewrite B. auto.
Qed.

Lemma partner_in : forall x, is_prop es x -> In (partner x) (inIds (headVertex es vs x)).
Proof.
  intros [b d] Hx. apply headVertex_in; auto. split; auto.
  unfold partner, s_end, s_start; cbn [fst snd]. destruct d; auto.
Qed.

Lemma in_own_block : forall x y, is_prop es x -> In y (inIds (headVertex es vs x)) ->
  fst y = fst x -> y = partner x.
Proof.
  intros [b d] [b' d'] Hx Hy E. apply headVertex_in in Hy; auto. destruct Hy as [_ Hy].
  simpl in E. subst b'. unfold partner; cbn [fst snd]. f_equal.
  destruct (wf_edge es b HW Hx) as [_ [_ N]].
  unfold s_end, s_start in Hy; cbn [fst snd] in Hy. destruct d, d'; simpl; auto; congruence.
Qed.

(** The in-propagators of the head vertex are the partner and the sources. *)
Lemma head_perm : forall x, is_prop es x ->
  Permutation (inIds (headVertex es vs x)) (partner x :: sources es vs x).
Proof.
  intros x Hx.
  assert (ND : NoDup (inIds (headVertex es vs x))).
  { unfold headVertex. apply inIds_NoDup.
    change (vertexId (edgeAt es (fst x)) (snd x)) with (s_start es x). apply start_le; auto. }
  apply NoDup_Permutation; auto.
  - constructor.
    + unfold sources. rewrite filter_In. intros [_ H]. simpl in H.
      rewrite Nat.eqb_refl in H. discriminate.
    + unfold sources. apply NoDup_filter; auto.
  - intros y. simpl. split.
    + intros Hy. destruct (Nat.eq_dec (fst y) (fst x)) as [E|E].
      * left. symmetry. apply in_own_block; auto.
      * right. unfold sources. rewrite filter_In. split; auto.
        rewrite negb_true_iff. apply Nat.eqb_neq; auto.
    + intros [H|H]; [subst; apply partner_in; auto|].
      unfold sources in H. apply filter_In in H. tauto.
Qed.

Lemma headEnd_no_sources : forall x, is_prop es x -> isHeadEnd es vs x = true -> sources es vs x = [].
Proof.
  intros x Hx H. unfold isHeadEnd in H. apply Nat.eqb_eq in H.
  assert (P := Permutation_length (head_perm x Hx)). simpl in P.
  destruct (sources es vs x); auto. simpl in P. lia.
Qed.

Lemma headEnd_iff : forall x, is_prop es x ->
  isHeadEnd es vs x = match sources es vs x with [] => true | _ => false end.
Proof.
  intros x Hx. unfold isHeadEnd. rewrite (Permutation_length (head_perm x Hx)).
  destruct (sources es vs x); reflexivity.
Qed.

Lemma tailEnd_partner : forall x, isTailEnd es vs x = isHeadEnd es vs (partner x).
Proof. intros [b d]; reflexivity. Qed.

Lemma source_not_tailEnd : forall x y, is_prop es x -> In y (sources es vs x) ->
  isTailEnd es vs y = false.
Proof.
  intros x y Hx Hy. apply sources_iff in Hy; auto. destruct Hy as [Py [_ [E N]]].
  rewrite tailEnd_partner, headEnd_iff by exact Py.
  assert (I : In (partner x) (sources es vs (partner y))).
  { apply sources_iff; [exact Py|]. split; [exact Hx|]. split; [exact Py|]. split.
    - destruct x as [b d], y as [b' d']. unfold partner, s_end, s_start in *; cbn [fst snd] in *.
      destruct d, d'; auto.
    - simpl. auto. }
  destruct (sources es vs (partner y)); [destruct I|reflexivity].
Qed.

Lemma tmplValid_true : tmplValid es vs = true.
Proof.
  unfold tmplValid. apply andb_true_iff. split; apply forallb_forall; intros x Hx;
    apply in_allDarts in Hx.
  - unfold sourceChecks. apply forallb_forall. intros y Hy.
    destruct (Nat.eqb_spec (fst y) (fst x)) as [E|E]; simpl; auto.
    rewrite (in_own_block x y Hx Hy E). unfold partner; cbn [snd]. destruct (snd x); auto.
  - apply Nat.eqb_eq. rewrite (Permutation_length (head_perm x Hx)). simpl. lia.
Qed.

(** What solve() establishes for one propagator. *)
Definition solved (st : props) (x : dart) : Prop :=
  exists h, st x = Some (slices (fst x) (isHeadEnd es vs x) (isTailEnd es vs x) h) /\
    (forall y, In y (sources es vs x) -> exists l, st y = Some l) /\
    forall i, h i = lprod (fun y => match st y with Some l => last l zero_field i | None => 0 end)
                          (sources es vs x).

Lemma headLoop_ok : forall st l qh,
  (forall y, In y l -> isTailEnd es vs y = false /\ exists s, st y = Some s) ->
  exists h, headLoop tailOk es vs st l qh = Ok h /\
    forall i, h i = qh i * lprod (fun y => match st y with Some l => last l zero_field i | None => 0 end) l.
Proof.
  intros st. induction l as [|y l IH]; intros qh H; cbn [headLoop].
  - exists qh. split; auto. intros; simpl; lra.
  - destruct (H y (or_introl eq_refl)) as [T [s E]].
    unfold tailOf. rewrite E, T, HtailOk. cbn [check bind].
    destruct (IH (mul_field qh (last s zero_field))) as [h [E1 E2]].
    { intros; apply H; simpl; auto. }
    exists h. split; auto. intros i. rewrite E2. simpl. rewrite E. unfold mul_field. lra.
Qed.

Lemma lprod_ext : forall {A} (f g : A -> R) l, (forall a, In a l -> f a = g a) -> lprod f l = lprod g l.
Proof. induction l; intros; simpl; auto. rewrite IHl by (intros; apply H; simpl; auto). rewrite H; simpl; auto. Qed.

Lemma lprod_perm : forall {A} (f : A -> R) l1 l2, Permutation l1 l2 -> lprod f l1 = lprod f l2.
Proof. induction 1; simpl; try lra; try congruence. Qed.

Lemma set_prop_same : forall st x l, set_prop st x l x = Some l.
Proof. intros. unfold set_prop. rewrite (proj2 (dart_eqb_eq x x)); auto. Qed.
Lemma set_prop_other : forall st x y l, x <> y -> set_prop st x l y = st y.
Proof.
  intros. unfold set_prop. destruct (dart_eqb x y) eqn:E; auto. apply dart_eqb_eq in E. congruence.
Qed.

Lemma solveLoop_ok : forall todo done st,
  NoDup (done ++ todo) ->
  (forall x, In x (done ++ todo) -> is_prop es x) ->
  (forall l1 y l2, done ++ todo = l1 ++ y :: l2 -> forall x, feeds es x y -> In x l1) ->
  (forall x, In x done -> solved st x) ->
  (forall x, ~ In x done -> st x = None) ->
  exists st', solveLoop slices tailOk skipAtEnd es vs todo st = Ok st' /\
    (forall x, In x (done ++ todo) -> solved st' x).
Proof.
  induction todo as [|x todo IH]; intros done st ND HP HO HD HN; cbn [solveLoop].
  - exists st. split; auto. intros x Hx. rewrite app_nil_r in Hx. auto.
  - assert (Px : is_prop es x) by (apply HP; rewrite in_app_iff; simpl; auto).
    assert (HS : forall y, In y (sources es vs x) -> In y done).
    { intros y Hy. apply (HO done x todo eq_refl). apply sources_iff; auto. }
    assert (NX : ~ In x done).
    { intros H. apply NoDup_remove_2 in ND. apply ND. rewrite in_app_iff; auto. }
    assert (SS : forall y, In y (sources es vs x) -> exists l, st y = Some l).
    { intros y Hy. destruct (HD y (HS y Hy)) as [h [E _]]. eauto. }
    assert (HR : isReady es vs st x = true).
    { unfold isReady. apply forallb_forall. intros y Hy. unfold isSolved.
      destruct (SS y Hy) as [l E]. rewrite E; auto. }
    rewrite HR. cbn [check bind].
    assert (CH : exists h, computeHead tailOk skipAtEnd es vs st x = Ok h /\
       forall i, h i = lprod (fun y => match st y with Some l => last l zero_field i | None => 0 end)
                             (sources es vs x)).
    { unfold computeHead. destruct (skipAtEnd && isHeadEnd es vs x) eqn:E.
      - apply andb_true_iff in E. destruct E as [_ E]. apply headEnd_no_sources in E; auto.
        rewrite E. exists one_field. split; auto.
      - destruct (headLoop_ok st (sources es vs x) one_field) as [h [E1 E2]].
        { intros y Hy. split; [eapply source_not_tailEnd; eauto|auto]. }
        exists h. split; auto. intros i. rewrite E2. unfold one_field. lra. }
    destruct CH as [h [E1 E2]]. unfold solveProp. rewrite E1. cbn [bind].
    set (st1 := set_prop st x _).
    assert (SX : forall y, In y (sources es vs x) -> st1 y = st y).
    { intros y Hy. apply set_prop_other. intros ->. apply NX. apply HS; auto. }
    destruct (IH (done ++ [x]) st1) as [st' [E3 E4]].
    + rewrite <- app_assoc. exact ND.
    + rewrite <- app_assoc. exact HP.
    + rewrite <- app_assoc. exact HO.
    + intros z Hz. rewrite in_app_iff in Hz. simpl in Hz.
      destruct Hz as [Hz|[Hz|[]]].
      * destruct (HD z Hz) as [hz [A [B C]]].
        assert (SZ : forall y, In y (sources es vs z) -> st1 y = st y).
        { intros y Hy. apply set_prop_other. intros ->. destruct (B y Hy) as [l Hl].
          rewrite (HN y NX) in Hl. discriminate. }
        exists hz. split; [|split].
        -- unfold st1. rewrite set_prop_other; [exact A|]. intros ->. tauto.
        -- intros y Hy. rewrite SZ; auto.
        -- intros i. rewrite C. apply lprod_ext. intros y Hy. rewrite SZ; auto.
      * subst z. exists h. split; [|split].
        -- unfold st1. rewrite set_prop_same. reflexivity.
        -- intros y Hy. rewrite SX; auto.
        -- intros i. rewrite E2. apply lprod_ext. intros y Hy. rewrite SX; auto.
    + intros z Hz. unfold st1. rewrite in_app_iff in Hz. simpl in Hz.
      rewrite set_prop_other by tauto. apply HN; tauto.
    + exists st'. split; auto. intros z Hz. apply E4. rewrite <- app_assoc. exact Hz.
Qed.

(** Reciprocity argument.  [wt] are the weights of the average. *)
Variable nx : nat.
Variable wt : nat -> R.
Definition wavg (f g : field) : R := rsum nx (fun i => wt i * (f i * g i)).

Definition reciprocal : Prop :=
  forall b, (b < length es)%nat -> forall he te h h',
    wavg (hd zero_field (slices b he te h)) (last (slices b te he h') zero_field) =
    wavg (last (slices b he te h) zero_field) (hd zero_field (slices b te he h')) /\
    forall i, hd zero_field (slices b he te h) i = h i.

Definition headF (st : props) (x : dart) : field :=
  match st x with Some l => hd zero_field l | None => zero_field end.
Definition tailF (st : props) (x : dart) : field :=
  match st x with Some l => last l zero_field | None => zero_field end.

Lemma wavg_ext : forall f g f' g',
  (forall i, f i * g i = f' i * g' i) -> wavg f g = wavg f' g'.
Proof. intros. unfold wavg. apply rsum_ext. intros. rewrite H; auto. Qed.

Lemma partner_partner : forall x, partner (partner x) = x.
Proof. intros [b d]. unfold partner; simpl. rewrite negb_involutive; auto. Qed.
Lemma s_end_partner : forall x, s_end es (partner x) = s_start es x.
Proof. intros [b d]. unfold partner, s_end, s_start; simpl. destruct d; auto. Qed.
Lemma s_start_partner : forall x, s_start es (partner x) = s_end es x.
Proof. intros [b d]. unfold partner, s_end, s_start; simpl. destruct d; auto. Qed.

Hypothesis HR : reciprocal.
Variable st : props.
Hypothesis HS : forall x, is_prop es x -> solved st x.

(** At a vertex, head times partner tail is the product of all incoming tails. *)
Lemma vertex_product : forall x, is_prop es x -> forall i,
  headF st x i * tailF st (partner x) i =
  lprod (fun y => tailF st y i) (inIds (headVertex es vs x)).
Proof.
  intros x Hx i. rewrite (lprod_perm _ _ _ (head_perm x Hx)). simpl. rewrite Rmult_comm. f_equal.
  destruct (HS x Hx) as [h [E [F G]]]. unfold headF. rewrite E.
  rewrite (proj2 (HR (fst x) Hx _ _ h h)). rewrite G. apply lprod_ext.
  intros y Hy. unfold tailF. destruct (F y Hy) as [l El]. rewrite El. auto.
Qed.

Lemma same_vertex : forall x y, is_prop es x -> is_prop es y -> s_start es x = s_start es y ->
  wavg (headF st x) (tailF st (partner x)) = wavg (headF st y) (tailF st (partner y)).
Proof.
  intros x y Hx Hy E. apply wavg_ext. intros i.
  rewrite (vertex_product x Hx), (vertex_product y Hy). unfold headVertex.
  change (vertexId (edgeAt es (fst x)) (snd x)) with (s_start es x).
  change (vertexId (edgeAt es (fst y)) (snd y)) with (s_start es y). rewrite E. auto.
Qed.

Lemma wavg_comm : forall f g, wavg f g = wavg g f.
Proof. intros. unfold wavg. apply rsum_ext. intros. lra. Qed.

Lemma same_block : forall x, is_prop es x ->
  wavg (headF st x) (tailF st (partner x)) = wavg (headF st (partner x)) (tailF st x).
Proof.
  intros x Hx. destruct (HS x Hx) as [h [E _]].
  destruct (HS (partner x) Hx) as [h' [E' _]].
  unfold headF, tailF. rewrite E, E'.
  rewrite tailEnd_partner in *. rewrite tailEnd_partner in *. rewrite partner_partner in *.
  change (fst (partner x)) with (fst x).
  rewrite (proj1 (HR (fst x) Hx _ _ h h')). apply wavg_comm.
Qed.

Lemma Q_reach : forall u v, clos_refl_trans _ (adjacent es) u v ->
  forall x y, is_prop es x -> is_prop es y -> s_start es x = u -> s_start es y = v ->
  wavg (headF st x) (tailF st (partner x)) = wavg (headF st y) (tailF st (partner y)).
Proof.
  intros u v H. apply clos_rt_rt1n in H. induction H as [u|u w v [b [Hb E]] _ IH]; intros x y Hx Hy Sx Sy.
  - apply same_vertex; auto; congruence.
  - set (z := if Nat.eqb (fst (s_edge es b)) u then (b, false) else (b, true)).
    assert (Hz : is_prop es z) by (unfold z; destruct (fst (s_edge es b) =? u); exact Hb).
    assert (Sz : s_start es z = u /\ s_end es z = w).
    { unfold z. destruct (Nat.eqb_spec (fst (s_edge es b)) u) as [F|F];
        unfold s_start, s_end; cbn [fst snd]; destruct E as [E|E]; rewrite E in *; simpl in *; try congruence; auto. }
    destruct Sz as [Sz Ez].
    rewrite (same_vertex x z Hx Hz) by congruence. rewrite (same_block z Hz).
    rewrite <- (partner_partner z) at 2. apply IH; auto. rewrite s_start_partner. auto.
Qed.

Lemma Q_same : connected es -> forall x y, is_prop es x -> is_prop es y ->
  wavg (headF st x) (tailF st (partner x)) = wavg (headF st y) (tailF st (partner y)).
Proof.
  intros HC x y Hx Hy. apply (Q_reach (s_start es x) (s_start es y)); auto.
  apply HC; apply start_le; auto.
Qed.

End S.

(** solve() succeeds on every valid polymer and leaves every propagator solved. *)
Lemma solveAll_ok : forall slices tailOk skipAtEnd es fuel p,
  tree es -> tailOk false = true -> (2 * length es <= fuel)%nat -> readGraph fuel es = Ok p ->
  graphVertices es (p_vertices p) /\ tmplValid es (p_vertices p) = true /\
  exists st, solveAll slices tailOk skipAtEnd es (p_vertices p) (p_plan p) = Ok st /\
    forall x, is_prop es x -> solved slices es (p_vertices p) st x.
Proof.
  intros slices tailOk skipAtEnd es fuel p HT HtO Hf E.
  destruct (readGraph_tree es fuel HT ltac:(lia)) as [p' [E' [_ [HV [P1 [P2 _]]]]]].
  rewrite E in E'. inversion E'; subst p'. destruct HT as [HW HC].
  assert (I : forall x, In x (p_plan p) <-> is_prop es x).
  { intros x. unfold is_prop. rewrite <- in_allDarts. split; apply Permutation_in; auto.
    apply Permutation_sym; auto. }
  split; [exact HV|]. split; [apply tmplValid_true; auto|].
  destruct (solveLoop_ok slices tailOk skipAtEnd es (p_vertices p) HW HV HtO (p_plan p) [] (fun _ => None))
    as [st [E1 E2]]; simpl; auto.
  - eapply Permutation_NoDup; [apply Permutation_sym; exact P1|apply allDarts_NoDup].
  - intros x Hx. apply I; auto.
  - intros x Hx; tauto.
  - exists st. split; auto. intros x Hx. apply E2, I; auto.
Qed.
