(** C76: device arrays that own data or are associated with slices *)
From Coq Require Import Reals ZArith List Bool Arith Lia.
From Verif Require Import Base GpuKernel DevArray DevArraySpec DevArrayProofs DevArrayRuns.
Import ListNotations.
Local Open Scope Z_scope.

Lemma extent_of : forall s x o, inv s -> at_ s x o -> forall d, dataOf o = Some d -> extent s x d (capOf o).
Proof.
  intros s x o I H d D. destruct (shape_det s o (i_shape s I x o H)) as (D1 & D2 & _).
  exists o. repeat split; auto. congruence.
Qed.
Lemma extent_inv : forall s x d n, extent s x d n -> exists o, at_ s x o /\ dataOf o = Some d /\ capOf o = n.
Proof. intros s x d n (o & H & D & C). exists o. unfold dataOf, capOf. rewrite D, C. auto. Qed.
Lemma owns_inv : forall s x a n, owns s x a n -> exists o, at_ s x o /\ ownedBy o a n.
Proof.
  intros s x a n [(o & H & D & C) (o' & H' & W)]. assert (o' = o) by congruence. subst. exists o. repeat split; auto.
Qed.
Lemma usable_of : forall malloc s x o d, inv s -> at_ s x o -> valid s x -> dataOf o = Some d -> usable malloc s x.
Proof.
  intros malloc s x o d I H V D. unfold usable. simpl. rewrite (isAllocated_valid s x o I H V), D. reflexivity.
Qed.
Lemma usable_inv : forall malloc s x, inv s -> usable malloc s x ->
  exists o d, at_ s x o /\ valid s x /\ dataOf o = Some d.
Proof.
  intros malloc s x I U. unfold usable in U. simpl in U.
  destruct (find (s_objs s) x) as [o|] eqn:E.
  2:{ unfold isAllocated in U. destruct (depth s) eqn:D; [discriminate D|]. cbn [ownerChecks] in U.
      unfold object in U. rewrite E in U. discriminate. }
  exists o. assert (H : at_ s x o) by exact E.
  destruct (valid_dec s x o I H) as [V|V].
  - rewrite (isAllocated_valid s x o I H V) in U. destruct (dataOf o) as [d|]; [|discriminate]. eauto.
  - rewrite (isAllocated_invalid s x o I H V) in U. discriminate.
Qed.

Lemma inv_consistent : forall malloc s, inv s -> consistent malloc s.
Proof.
  intros malloc s I. constructor.
  - intros z N. apply (i_mem s I) in N. destruct N as (a & n & IN & B).
    destruct (i_owner s I a n IN) as (x & o & H & (W & D & C)). exists x. split.
    + exists a, n. split; auto. split; [exists o|exists o]; auto.
    + intros x' a' n' OW B'. destruct (owns_inv _ _ _ _ OW) as (o' & H' & OB').
      pose proof (used_of s x' o' a' n' I H' OB') as IN'.
      destruct (i_apart s I _ _ _ _ IN IN') as [E|E]; [|lia]. injection E; intros; subst.
      apply (i_unique s I x' o' x o a' n' n'); auto. repeat split; auto.
  - intros x a n OW. destruct (owns_inv _ _ _ _ OW) as (o & H & OB).
    pose proof (used_of s x o a n I H OB) as IN. split; [now apply (i_pos s I a)|].
    intros z B. apply (i_mem s I). exists a, n. auto.
  - intros x U. destruct (usable_inv malloc s x I U) as (o & d & H & V & D).
    destruct (valid_inside s x I V o d H D) as (P & a & n & IN & A1 & A2).
    exists d, (capOf o). split; [now apply extent_of|]. split; auto. split.
    + intros z B. apply (i_mem s I). exists a, n. split; auto. lia.
    + intros y (o' & H' & W). assert (o' = o) by (unfold at_ in *; congruence). subst o'.
      inversion V as [|? ? ? oy e m Ho Wo Vy Hy Dy OD Cy OC]; subst; unfold at_ in *; [congruence|].
      assert (o0 = o) by congruence. subst o0. assert (y0 = y) by congruence. subst y0.
      split; [apply (usable_of malloc s y oy e); auto; unfold dataOf; now rewrite Dy|].
      exists e, m. split; [exists oy; auto|].
      pose proof (i_shape s I x o H) as S. inversion S; try congruence.
      unfold dataOf in D. rewrite H2 in D. injection D as <-. unfold capOf. rewrite H3.
      assert (e0 = e) by congruence. assert (oc = m) by congruence. subst. lia.
Qed.

(** A state that some legal program leads to *)
Definition reachable (malloc : nat -> list (Z * Z) -> Z -> option Z) (s : state) : Prop :=
  exists l, legal_program malloc initial l /\ program malloc l initial = (s, Answer VUnit).
Lemma reachable_inv : forall malloc s, good_malloc malloc -> reachable malloc s -> inv s.
Proof.
  intros malloc s G (l & L & E). destruct (program_inv malloc G l initial inv_initial L) as [I _].
  now rewrite E in I.
Qed.

(** Legal programs have no undefined behaviour and no unbounded recursion, and memory
    is as specified at all times: no leak, no double free, slices inside their owners *)
Theorem C76_safe : forall malloc l, good_malloc malloc -> legal_program malloc initial l ->
  snd (program malloc l initial) <> Undefined /\ snd (program malloc l initial) <> Deep /\
  consistent malloc (fst (program malloc l initial)).
Proof.
  intros malloc l G L. destruct (program_inv malloc G l initial inv_initial L) as [I [A1 A2]].
  split; auto. split; auto. now apply inv_consistent.
Qed.

(** An exception leaves arrays and memory as they were *)
Definition base_call (c : call) : Prop :=
  match c with AllocateR _ _ | AssociateR _ _ _ _ | AssignR _ _ | AssignHostR _ _ | Destroy _ => False | _ => True end.
Theorem C76_exceptions : forall malloc s c, good_malloc malloc -> reachable malloc s -> legal s c -> base_call c ->
  snd (execute malloc c s) = Exception ->
  s_objs (fst (execute malloc c s)) = s_objs s /\ s_mem (fst (execute malloc c s)) = s_mem s /\
  s_used (fst (execute malloc c s)) = s_used s.
Proof.
  intros malloc s c G RS L BC. pose proof (reachable_inv malloc s G RS) as I.
  assert (NT : forall x, ~ there s x -> find (s_objs s) x = None).
  { intros x N. destruct (find (s_objs s) x) eqn:E; auto. destruct N. exists o; auto. }
  destruct c; cbn [execute]; cbn [legal] in L; try contradiction; unfold unit_, with_.
  - unfold construct. rewrite (NT _ L). simpl. discriminate.
  - unfold constructSize, bindM, construct. rewrite (NT _ L). unfold orNone.
    pose proof (inv_construct s x I (NT _ L)) as I1. set (o1 := Obj _ _ _ _ _ _) in *. set (s1 := setObj x o1 s) in *.
    assert (X1 : at_ s1 x o1) by apply at_set_same.
    assert (RM : remove x (s_objs s1) = s_objs s).
    { unfold s1, setObj. cbn [s_objs]. rewrite remove_set. apply remove_absent. auto. }
    destruct (allocate_spec malloc s1 x o1 n I1 X1); cbn [fst snd said]; intros E; try discriminate; repeat split; auto.
  - destruct L as [o H]. destruct (allocate_spec malloc s x o n I H); cbn [fst snd said]; intros E; try discriminate; auto.
  - destruct L as [[o H] [oy Hy]]. destruct (associate_spec s x y o oy b n I H Hy); cbn [fst snd said]; intros E; try discriminate; auto.
  - destruct L as [o H]. destruct (deallocate_spec s x o I H); cbn [fst snd said]; intros E; try discriminate; auto.
  - destruct L as [o H]. destruct (dissociate_spec s x o I H); cbn [fst snd said]; intros E; try discriminate; auto.
  - destruct L as ([o H] & [oy Hy] & AP). destruct (assign_spec malloc G s x y o oy I H Hy); cbn [fst snd said]; try (intros E; discriminate); auto.
    intros NE p q D Dy E. apply AP; auto; [rewrite <- E|]; apply extent_of; auto.
  - destruct L as [o H]. destruct h as [l|]; [|simpl; auto].
    destruct (assignHost_spec malloc G s x o l I H); cbn [fst snd said]; intros E; try discriminate; auto.
  - destruct L as [o H]. destruct (toHost_spec s x o hc I H); cbn [fst snd said]; auto.
  - destruct L as [[o H] B]. destruct hc as [h|].
    + destruct (copySlice_spec s x o h b I H B); cbn [fst snd said]; auto.
    + unfold copySlice, bindM, ask.
      destruct (valid_dec s x o I H) as [V|V]; [rewrite (isAllocated_valid s x o I H V); destruct (notNull (dataOf o))|rewrite (isAllocated_invalid s x o I H V)]; simpl; auto.
  - simpl. auto.
  - simpl. auto.
  - simpl. auto.
  - simpl. auto.
Qed.

(** Assignment copies the elements and changes no others *)
Theorem C76_assignment : forall malloc s x y, good_malloc malloc -> reachable malloc s -> legal s (Assign x y) -> x <> y ->
  snd (execute malloc (Assign x y) s) = Answer VUnit ->
  let s' := fst (execute malloc (Assign x y) s) in
  exists p q n, 0 < n /\ extent s' x p n /\ extent s y q n /\ extent s' y q n /\
    usable malloc s' x /\ usable malloc s' y /\
    (forall i, 0 <= i < n -> s_mem s' (p + i) = s_mem s (q + i) /\ s_mem s' (q + i) = s_mem s (q + i)) /\
    (forall z, ~ (p <= z < p + n) -> s_mem s' z = s_mem s z) /\
    (forall z r, z <> x -> find (s_objs s) z = Some r -> find (s_objs s') z = Some r).
Proof.
  intros malloc s x y G RS L NE E. pose proof (reachable_inv malloc s G RS) as I.
  pose proof (execute_inv malloc G (Assign x y) s I L) as [I' _].
  destruct L as ([o H] & [oy Hy] & AP). revert E I'. cbn [execute]. unfold unit_, with_. cbn [fst snd].
  destruct (assign_spec malloc G s x y o oy I H Hy) as [C| | |p q _ V Vy D Dy EC|p q _ V Vy D Dy MA F];
    cbn [fst snd said]; try discriminate; try congruence.
  { intros _ p q D Dy E. apply AP; auto; [rewrite <- E|]; apply extent_of; auto. }
  - intros _ I'. destruct (valid_inside s y I Vy oy q Hy Dy) as (P & _).
    assert (A : p + capOf oy <= q \/ q + capOf oy <= p).
    { apply AP; auto; [rewrite <- EC|]; apply extent_of; auto. }
    exists p, q, (capOf oy). split; auto.
    assert (VV : forall w, valid s w -> valid (copied s p q (capOf oy)) w).
    { intros w Vw. induction Vw; [eapply VRoot; eauto|eapply VLink; eauto]. }
    split; [rewrite <- EC; apply (extent_of (copied s p q (capOf o)) x o); auto; rewrite EC; auto|].
    split; [apply extent_of; auto|]. split; [apply (extent_of (copied s p q (capOf oy)) y oy); auto|].
    split; [apply (usable_of malloc _ x o p); auto|]. split; [apply (usable_of malloc _ y oy q); auto|].
    split; [|split].
    + intros i B. unfold copied; cbn [s_mem]. unfold span.
      replace ((p <=? p + i) && (p + i <? p + capOf oy)) with true by (symmetry; apply andb_true_iff; rewrite Z.leb_le, Z.ltb_lt; lia).
      replace ((p <=? q + i) && (q + i <? p + capOf oy)) with false.
      2:{ symmetry. apply andb_false_iff. rewrite Z.leb_gt, Z.ltb_ge. lia. }
      split; auto. f_equal. lia.
    + intros z B. unfold copied; cbn [s_mem]. unfold span.
      destruct (Z.leb_spec p z), (Z.ltb_spec z (p + capOf oy)); simpl; auto. lia.
    + auto.
  - intros _ I'. destruct (valid_inside s y I Vy oy q Hy Dy) as (P & a & m & IN & A1 & A2).
    exists p, q, (capOf oy). split; auto.
    set (s1 := setObj _ _ _) in *. set (o1 := Obj _ _ _ _ _ _) in *.
    assert (X1 : at_ (copied s1 p q (capOf oy)) x o1) by (apply copied_at; apply at_set_same).
    assert (Y1 : at_ (copied s1 p q (capOf oy)) y oy) by (apply copied_at; apply at_set_other; auto).
    assert (Vy1 : valid (copied s1 p q (capOf oy)) y).
    { apply (valid_other s _ x); auto.
      - intros z r Z N. apply copied_at. apply at_set_other; auto.
      - intros r R. assert (r = o) by (unfold at_ in *; congruence). subst. apply (data_none s); auto. now apply (i_shape s I x). }
    split; [apply (extent_of _ x o1); auto|].
    split; [apply extent_of; auto|]. split; [apply (extent_of _ y oy); auto|].
    split; [apply (usable_of malloc _ x o1 p); auto; eapply VRoot; [exact X1|reflexivity]|].
    split; [apply (usable_of malloc _ y oy q); auto|].
    split; [|split].
    + intros i B. unfold copied; cbn [s_mem]. unfold s1, setObj; cbn [s_mem]. unfold span.
      replace ((p <=? p + i) && (p + i <? p + capOf oy)) with true by (symmetry; apply andb_true_iff; rewrite Z.leb_le, Z.ltb_lt; lia).
      replace (q + (p + i - p)) with (q + i) by lia.
      replace ((p <=? q + i) && (q + i <? p + capOf oy)) with false.
      2:{ symmetry. apply andb_false_iff. rewrite Z.leb_gt, Z.ltb_ge. lia. }
      auto.
    + intros z B. unfold copied; cbn [s_mem]. unfold s1, setObj; cbn [s_mem]. unfold span.
      destruct (Z.leb_spec p z), (Z.ltb_spec z (p + capOf oy)); simpl; auto. lia.
    + intros z r N Z. apply copied_at. apply at_set_other; auto.
Qed.

(** An association is with elements b, ..., b + n - 1 of an owner *)
Theorem C76_association : forall malloc s x y b n, good_malloc malloc -> reachable malloc s -> there s x -> there s y ->
  snd (execute malloc (Associate x y b n) s) = Answer VUnit ->
  let s' := fst (execute malloc (Associate x y b n) s) in
  exists a m, owns s y a m /\ owns s' y a m /\ 0 <= b /\ 0 < n /\ b + n <= m /\ extent s' x (a + b) n /\
    associated s' x y /\ usable malloc s' x /\ s_mem s' = s_mem s.
Proof.
  intros malloc s x y b n G RS [o H] [oy Hy] E. pose proof (reachable_inv malloc s G RS) as I.
  pose proof (associate_inv s x y o oy b n I H Hy) as [I' _].
  revert E I'. cbn [execute]. unfold unit_, with_. cbn [fst snd].
  destruct (associate_spec s x y o oy b n I H Hy) as [|q V Vy D Wy Dy B0 Pn Bn]; cbn [fst snd said]; [discriminate|].
  intros _ I'. set (o1 := Obj _ _ _ _ _ _) in *.
  pose proof (owned_of s oy q (i_shape s I y oy Hy) Wy Dy) as (O1 & O2 & O3).
  assert (NE : y <> x) by (intros ->; assert (oy = o) by (unfold at_ in *; congruence); congruence).
  assert (X1 : at_ (setObj x o1 s) x o1) by apply at_set_same.
  assert (Y1 : at_ (setObj x o1 s) y oy) by (apply at_set_other; auto).
  exists q, (capOf oy). split; [split; exists oy; auto|]. split; [split; exists oy; auto|].
  split; auto. split; auto. split; auto. split; [exists o1; auto|]. split; [exists o1; auto|]. split; auto.
  apply (usable_of malloc _ x o1 (q + b)); auto.
  apply (VLink _ x o1 y oy q (capOf oy)); auto. eapply VRoot; eauto.
Qed.

(** While the owner y of the slice x holds no data, functions of x throw and change
    nothing, and the destructor ends the program *)
Theorem C76_stale : forall malloc s x y z oy n b h hc, good_malloc malloc -> reachable malloc s ->
  associated s x y -> find (s_objs s) y = Some oy -> o_data oy = Some None -> there s z -> z <> x ->
  Forall (fun c => execute malloc c s = (s, Exception))
    [IsAllocated x; CArray x; Allocate x n; Associate x z b n; Associate z x b n; Deallocate x; Dissociate x;
     Assign x z; Assign z x; AssignHost x h; ToHost x hc; CopySlice x hc b] /\
  execute malloc (Destroy x) s = (s, Terminate).
Proof.
  intros malloc s x y z oy n b h hc G RS (o & H & W) Hy D [oz Hz] NE. pose proof (reachable_inv malloc s G RS) as I.
  fold (at_ s x o) in H. fold (at_ s y oy) in Hy. fold (at_ s z oz) in Hz.
  assert (NV : ~ valid s x).
  { intros V. inversion V as [? o' Ho Wo|? o' ? oy' e m Ho Wo Vy Hy' Dy OD Cy OC]; subst; unfold at_ in *; [congruence|].
    assert (y0 = y) by congruence. subst. congruence. }
  pose proof (isAllocated_invalid s x o I H NV) as E. pose proof (cArray_invalid s x o I H NV) as E'.
  assert (EX : (x =? z)%nat = false) by (apply Nat.eqb_neq; auto).
  assert (EX' : (z =? x)%nat = false) by (apply Nat.eqb_neq; auto).
  split.
  - repeat constructor; cbn [execute]; unfold unit_, with_, ask; cbn [fst snd].
    + now rewrite E.
    + now rewrite E'.
    + unfold allocate, bindM, ask. now rewrite E.
    + destruct (associate_spec s x z o oz b n I H Hz) as [|q V]; [auto|contradiction].
    + destruct (associate_spec s z x oz o b n I Hz H) as [|q V V']; [auto|contradiction].
    + unfold deallocate, bindM, ask. now rewrite E.
    + destruct (dissociate_spec s x o I H) as [|q V]; [auto|contradiction].
    + unfold assign, bindM, ask. rewrite EX. destruct (valid_dec s z oz I Hz) as [Vz|Vz].
      * rewrite (isAllocated_valid s z oz I Hz Vz). destruct (notNull (dataOf oz)); cbn [assert check]; auto. unfold assert; cbn [check]. now rewrite E.
      * now rewrite (isAllocated_invalid s z oz I Hz Vz).
    + unfold assign, bindM, ask. rewrite EX'. now rewrite E.
    + destruct h; [|reflexivity]. unfold assignHost, bindM, ask. now rewrite E.
    + unfold toHost, bindM, ask. now rewrite E.
    + unfold copySlice, bindM, ask. now rewrite E.
  - cbn [execute]. unfold unit_, with_. destruct (destroy_spec s x o I H) as [| a k (W' & _)|V]; [reflexivity|congruence|contradiction].
Qed.

(** ** Programs that deallocate an array only when no array is associated with it *)

Definition tidy (s : state) (c : call) : Prop :=
  legal s c /\ match c with Deallocate x => forall y, ~ associated s y x | _ => True end.
Fixpoint tidy_program (malloc : nat -> list (Z * Z) -> Z -> option Z) (s : state) (l : list call) : Prop :=
  match l with
  | [] => True
  | c :: l' => tidy s c /\ tidy_program malloc (fst (execute malloc c s)) l'
  end.

Definition snug (s : state) : Prop :=
  forall x o y, at_ s x o -> o_owner o = Some (Some y) ->
    exists oy a c, at_ s y oy /\ ownedBy oy a c /\ o_odata o = Some (Some a) /\ o_ocap o = Some c.
Definition alone (s : state) (x : nat) : Prop := forall w o, at_ s w o -> o_owner o <> Some (Some x).
Lemma snug_valid : forall s x o, inv s -> snug s -> at_ s x o -> valid s x.
Proof.
  intros s x o I S H. pose proof (shape_det s o (i_shape s I x o H)) as (_ & _ & W).
  destruct (ownerOf o) as [y|] eqn:E; [|eapply VRoot; eauto].
  destruct (S x o y H W) as (oy & a & c & Hy & (O1 & O2 & O3) & OD & OC).
  apply (VLink s x o y oy a c); auto. eapply VRoot; eauto.
Qed.
Lemma snug_empty_alone : forall s x o, snug s -> at_ s x o -> o_data o = Some None -> alone s x.
Proof.
  intros s x o S H D w r R W. destruct (S w r x R W) as (ox & a & c & Hx & (_ & B & _) & _).
  assert (ox = o) by (unfold at_ in *; congruence). congruence.
Qed.
Lemma snug_slice_alone : forall s x o y, snug s -> at_ s x o -> o_owner o = Some (Some y) -> alone s x.
Proof.
  intros s x o y S H D w r R W. destruct (S w r x R W) as (ox & a & c & Hx & (B & _) & _).
  assert (ox = o) by (unfold at_ in *; congruence). congruence.
Qed.
Lemma snug_same : forall s s', s_objs s' = s_objs s -> snug s -> snug s'.
Proof. intros s s' E S x o y. unfold at_ in *. rewrite E. apply S. Qed.
Lemma snug_root : forall s s1 x o1, snug s -> alone s x -> s_objs s1 = s_objs s -> o_owner o1 = Some None ->
  snug (setObj x o1 s1).
Proof.
  intros s s1 x o1 S A E W w r y R RW. apply at_set in R. destruct R as [[-> ->]|[N R]]; [congruence|].
  unfold at_ in R. rewrite E in R. fold (at_ s w r) in R.
  destruct (S w r y R RW) as (oy & a & c & Hy & B). exists oy, a, c. split; auto.
  assert (y <> x) by (intros ->; apply (A w r); auto).
  apply at_set_other; auto. unfold at_ in *. now rewrite E.
Qed.
Lemma snug_mesh : forall s x o o', snug s -> at_ s x o -> same_but_mesh o o' -> snug (setObj x o' s).
Proof.
  intros s x o o' S H (E1 & E2 & E3 & E4 & E5) w r y R RW.
  assert (K : forall z q, at_ s z q -> exists q', at_ (setObj x o' s) z q' /\ (forall a c, ownedBy q a c -> ownedBy q' a c)).
  { intros z q Q. destruct (Nat.eq_dec z x).
    - subst. exists o'. split; [apply at_set_same|]. assert (q = o) by (unfold at_ in *; congruence). subst.
      intros a c (B1 & B2 & B3). repeat split; congruence.
    - exists q. split; [now apply at_set_other|auto]. }
  assert (exists r0, at_ s w r0 /\ o_owner r0 = o_owner r /\ o_odata r0 = o_odata r /\ o_ocap r0 = o_ocap r) as (r0 & R0 & F1 & F2 & F3).
  { apply at_set in R. destruct R as [[-> ->]|[N R]]; [exists o|exists r]; repeat split; auto. }
  destruct (S w r0 y R0) as (oy & a & c & Hy & B & B1 & B2); [congruence|].
  destruct (K y oy Hy) as (oy' & Hy' & KB). exists oy', a, c.
  split; auto. split; [now apply KB|]. split; congruence.
Qed.

Section Tidy.
Variable malloc : nat -> list (Z * Z) -> Z -> option Z.
Hypothesis good : good_malloc malloc.

Lemma allocate_snug : forall s x o n, inv s -> snug s -> at_ s x o -> snug (fst (allocate malloc x n s)).
Proof.
  intros s x o n I S H. destruct (allocate_spec malloc s x o n I H) as [| |p V W D P MA]; cbn [fst].
  - auto.
  - apply (snug_same s); auto.
  - apply (snug_root s); auto. apply (snug_empty_alone s x o); auto. apply (data_none s); auto. now apply (i_shape s I x).
Qed.
Lemma associate_snug : forall s x y o oy b n, inv s -> snug s -> at_ s x o -> at_ s y oy -> snug (fst (associate x y b n s)).
Proof.
  intros s x y o oy b n I S H Hy. destruct (associate_spec s x y o oy b n I H Hy) as [|q V Vy D Wy Dy B0 Pn Bn]; cbn [fst]; auto.
  assert (A : alone s x) by (apply (snug_empty_alone s x o); auto; apply (data_none s); auto; now apply (i_shape s I x)).
  assert (NE : y <> x) by (intros ->; assert (oy = o) by (unfold at_ in *; congruence); congruence).
  intros w r z R RW. apply at_set in R. destruct R as [[-> ->]|[N R]].
  - simpl in RW. injection RW as <-. exists oy, q, (capOf oy). split; [apply at_set_other; auto|].
    split; [apply (owned_of s); auto; now apply (i_shape s I y)|auto].
  - destruct (S w r z R RW) as (oz & a & c & Hz & B). exists oz, a, c. split; auto. apply at_set_other; auto.
    intros ->. now apply (A w r).
Qed.
Lemma assign_snug : forall s x y o oy, inv s -> snug s -> at_ s x o -> at_ s y oy ->
  (x <> y -> forall p q, dataOf o = Some p -> dataOf oy = Some q -> capOf o = capOf oy ->
     p + capOf oy <= q \/ q + capOf oy <= p) ->
  snug (fst (assign malloc x y s)).
Proof.
  intros s x y o oy I S H Hy AP. destruct (assign_spec malloc good s x y o oy I H Hy AP) as [| | | |p q NE V Vy D Dy MA F]; cbn [fst]; auto.
  intros w r z. rewrite copied_at. intros R RW.
  assert (SN : snug (setObj x (Obj (Some (Some p)) (Some (capOf oy)) (Some None) (o_ocap o) (o_odata o) (o_mesh o))
         (State (s_objs s) (fun z => if span p (capOf oy) z then Junk else s_mem s z)
            ((p, capOf oy) :: s_used s) (Datatypes.S (s_clock s))))).
  { apply (snug_root s); auto. apply (snug_empty_alone s x o); auto. apply (data_none s); auto. now apply (i_shape s I x). }
  apply (SN w r z R RW).
Qed.
Lemma host_snug : forall s x o h, inv s -> snug s -> at_ s x o -> snug (fst (assignHost malloc x h s)).
Proof.
  intros s x o [l|] I S H; [|auto]. destruct (assignHost_spec malloc good s x o l I H) as [| | |p V D P MA]; cbn [fst]; auto.
  intros w r z R RW.
  assert (SN : snug (setObj x (Obj (Some (Some p)) (Some (Z.of_nat (length l))) (Some None) (o_ocap o) (o_odata o) (o_mesh o))
         (State (s_objs s) (fun z => if span p (Z.of_nat (length l)) z then Junk else s_mem s z)
            ((p, Z.of_nat (length l)) :: s_used s) (Datatypes.S (s_clock s))))).
  { apply (snug_root s); auto. apply (snug_empty_alone s x o); auto. apply (data_none s); auto. now apply (i_shape s I x). }
  apply (SN w r z R RW).
Qed.
Lemma store_snug : forall s x o l, inv s -> snug s -> at_ s x o ->
  exists s' o' r, storeMesh x [] l 1 s = (s', r) /\ inv s' /\ snug s' /\ at_ s' x o' /\ fine r /\
    (forall y oy, at_ s y oy -> exists oy', at_ s' y oy').
Proof.
  intros s x o l I S H. destruct (storeMesh_spec l x [] 1 s o (o_mesh o) H eq_refl) as (s' & r & E & K2 & K3).
  assert (F : fine r) by (destruct K3 as [->|(-> & _)]; split; discriminate).
  destruct K2 as [->|[m [-> _]]].
  - exists s, o, r. split; auto. split; auto. split; auto. split; auto. split; auto. eauto.
  - exists (setObj x (setMesh m o) s), (setMesh m o), r. split; auto.
    split; [apply (inv_mesh_change s x o); auto; apply same_mesh|].
    split; [apply (snug_mesh s x o); auto; apply same_mesh|]. split; [apply at_set_same|]. split; auto.
    intros y oy Hy. destruct (Nat.eq_dec y x); [subst; eexists; apply at_set_same|exists oy; now apply at_set_other].
Qed.
Lemma remove_snug : forall s s1 x, snug s -> alone s x -> s_objs s1 = s_objs s ->
  snug (State (remove x (s_objs s1)) (s_mem s1) (s_used s1) (s_clock s1)).
Proof.
  intros s s1 x S A E. assert (AT : forall y q, at_ (State (remove x (s_objs s1)) (s_mem s1) (s_used s1) (s_clock s1)) y q <-> at_ s y q /\ y <> x).
  { intros y q. unfold at_; simpl. rewrite find_remove, E. destruct (Nat.eqb_spec x y); intuition congruence. }
  intros w r z R RW. apply AT in R. destruct R as [R N].
  destruct (S w r z R RW) as (oz & a & c & Hz & B). exists oz, a, c. split; auto. apply AT. split; auto.
  intros ->. now apply (A w r).
Qed.

Lemma execute_snug : forall c s, inv s -> snug s -> tidy s c ->
  snug (fst (execute malloc c s)) /\ snd (execute malloc c s) <> Terminate.
Proof.
  intros c s I S [L T].
  assert (NT : forall x, ~ there s x -> find (s_objs s) x = None).
  { intros x N. destruct (find (s_objs s) x) eqn:E; auto. destruct N. exists o; auto. }
  assert (NTA : forall x, find (s_objs s) x = None -> alone s x).
  { intros x N w o H W. destruct (S w o x H W) as (ox & a & k & Hx & _). unfold at_ in Hx. congruence. }
  assert (W : forall A (f : A -> value) (e : M A), snug (fst (e s)) -> snug (fst (with_ f e s)) /\ snd (with_ f e s) <> Terminate).
  { intros A f e K. split; auto. unfold with_; cbn [snd]. destruct (snd (e s)); discriminate. }
  destruct c; cbn [execute]; cbn [legal] in L; try contradiction.
  - apply W. unfold construct. rewrite (NT _ L). cbn [fst]. apply (snug_root s); auto.
  - apply W. unfold constructSize, bindM, construct. rewrite (NT _ L).
    pose proof (inv_construct s x I (NT _ L)) as I1. set (o1 := Obj _ _ _ _ _ _) in *. set (s1 := setObj x o1 s) in *.
    assert (X1 : at_ s1 x o1) by apply at_set_same.
    assert (S1 : snug s1) by (apply (snug_root s); auto).
    pose proof (allocate_snug s1 x o1 n I1 S1 X1) as S2. unfold orNone.
    assert (A1 : alone s1 x) by (apply (snug_empty_alone s1 x o1); auto).
    destruct (allocate_spec malloc s1 x o1 n I1 X1); cbn [fst] in *; auto.
    + apply (remove_snug s1); auto.
    + apply (remove_snug s1 (tickOnly s1)); auto.
  - destruct L as [[o H] NR]. unfold unit_, with_.
    assert (A : alone s x) by (intros w o' Ho Wo; apply (NR w); exists o'; auto).
    destruct (destroy_spec s x o I H) as [NV|a n B|V B]; cbn [fst snd said].
    + destruct NV. apply (snug_valid s x o); auto.
    + split; [|discriminate]. apply (remove_snug s (freed s a n)); auto.
    + split; [|discriminate]. apply (remove_snug s s); auto.
  - destruct L as [o H]. apply W. apply (allocate_snug s x o); auto.
  - destruct L as [[o H] [oy Hy]]. apply W. apply (associate_snug s x y o oy); auto.
  - destruct L as [o H]. apply W. destruct (deallocate_spec s x o I H) as [|a n B]; cbn [fst]; auto.
    apply (snug_root s); auto.
    + intros w o' Ho Wo. apply (T w). exists o'; auto.
    + destruct B as (B & _). auto.
  - destruct L as [o H]. apply W. destruct (dissociate_spec s x o I H) as [|y V WO]; cbn [fst]; auto.
    apply (snug_root s); auto. apply (snug_slice_alone s x o y); auto.
  - destruct L as ([o H] & [oy Hy] & AP). apply W. apply (assign_snug s x y o oy); auto.
    intros NE p q D Dy E. apply AP; auto; [rewrite <- E|]; apply extent_of; auto.
  - destruct L as [o H]. apply W. apply (host_snug s x o); auto.
  - destruct L as [o H]. apply W. destruct (toHost_spec s x o hc I H); auto.
  - destruct L as [[o H] B]. apply W. destruct hc as [h|].
    + destruct (copySlice_spec s x o h b I H B); auto.
    + unfold copySlice, bindM, ask. destruct (isAllocated s x) as [[]| | |]; simpl; auto.
  - apply W. auto.
  - apply W. auto.
  - apply W. auto.
  - apply W. auto.
  - destruct L as [o H]. apply W. destruct (store_snug s x o dims I S H) as (s' & o' & r & E & I' & S' & H' & F & _).
    unfold allocateR, bindM. rewrite E. destruct r; auto. apply (allocate_snug s' x o'); auto.
  - destruct L as [[o H] [oy Hy]]. apply W. destruct (store_snug s x o dims I S H) as (s' & o' & r & E & I' & S' & H' & F & K).
    destruct (K y oy Hy) as [oy' Hy'].
    unfold associateR, bindM. rewrite E. destruct r; auto. apply (associate_snug s' x y o' oy'); auto.
  - destruct L as ([o H] & [oy Hy] & AP). apply W.
    assert (AP' : x <> y -> forall p q, dataOf o = Some p -> dataOf oy = Some q -> capOf o = capOf oy ->
              p + capOf oy <= q \/ q + capOf oy <= p).
    { intros NE p q D Dy E. apply AP; auto; [rewrite <- E|]; apply extent_of; auto. }
    pose proof (assign_snug s x y o oy I S H Hy AP') as S1.
    unfold assignR, bindM, ask. destruct (assign malloc x y s) as [s' r]. cbn [fst] in S1.
    destruct r; auto. unfold object. destruct (find (s_objs s') y) as [oy'|] eqn:Ey; cbn [member bind fst]; auto.
    unfold assignTo. destruct (find (s_objs s') x) as [o'|] eqn:Ex; cbn [fst]; auto.
    apply (snug_mesh s' x o'); auto. apply same_mesh.
  - destruct L as [o H]. apply W. pose proof (host_snug s x o h I S H) as K. unfold assignHostR. destruct h as [l|]; auto.
    unfold bindM, ask, assert. destruct (isAllocated s x) as [[]| | |]; cbn [check fst]; auto.
    destruct (capacity s x) as [k| | |]; cbn [fst]; auto. destruct (k =? Z.of_nat (length l)); cbn [check fst]; auto.
Qed.

Lemma snug_initial : snug initial.
Proof. intros x o y H. discriminate. Qed.

Lemma tidy_all : forall l s, inv s -> snug s -> tidy_program malloc s l ->
  inv (fst (program malloc l s)) /\ snug (fst (program malloc l s)) /\ snd (program malloc l s) = Answer VUnit.
Proof.
  induction l as [|c l IH]; intros s I S T; [simpl; auto|].
  cbn [tidy_program] in T. destruct T as [T1 T2]. destruct (execute_snug c s I S T1) as [S' NT].
  destruct T1 as [L _]. destruct (execute_inv malloc good c s I L) as [I' [G1 G2]].
  cbn [program]. destruct (execute malloc c s) as [s' r]. cbn [fst snd] in *. destruct r; try congruence; auto.
Qed.

End Tidy.

(** Such programs run to their end, and no array ever becomes stale *)
Theorem C76_tidy : forall malloc l, good_malloc malloc -> tidy_program malloc initial l ->
  snd (program malloc l initial) = Answer VUnit /\
  forall x, there (fst (program malloc l initial)) x ->
    exists b, snd (execute malloc (IsAllocated x) (fst (program malloc l initial))) = Answer (VBool b).
Proof.
  intros malloc l G T. destruct (tidy_all malloc G l initial inv_initial snug_initial T) as (I & S & E).
  split; auto. intros x [o H]. simpl. rewrite (isAllocated_valid _ x o I H (snug_valid _ x o I S H)). simpl. eauto.
Qed.

(** ** Fields: the product of meshDimensions_ is the capacity *)

Section Fields.
Variable malloc : nat -> list (Z * Z) -> Z -> option Z.
Hypothesis good : good_malloc malloc.
(** Objects of class RField<D>; the others are plain DeviceArray objects *)
Variables (field : nat -> Prop) (D : nat).

(** Fields are used through the functions of RField, and allocate and associate of a
    field only while it holds no data *)
Definition field_call (s : state) (c : call) : Prop :=
  match c with
  | ConstructSize x _ | Allocate x _ | Associate x _ _ _ | Assign x _ | AssignHost x _ => ~ field x
  | AllocateR x dims | AssociateR x _ _ dims => length dims = D /\ dims <> [] /\ forall d n, ~ extent s x d n
  | AssignR x y => field y
  | _ => True
  end.
Fixpoint field_program (s : state) (l : list call) : Prop :=
  match l with
  | [] => True
  | c :: l' =>
      field_call s c /\
      match snd (execute malloc c s) with
      | Answer _ | Exception => field_program (fst (execute malloc c s)) l'
      | _ => True
      end
  end.

Definition fitting (o : obj) : Prop :=
  (length (o_mesh o) <= D)%nat /\
  forall d n, o_data o = Some (Some d) -> o_cap o = Some n -> fold_left Z.mul (o_mesh o) 1 = n.
Definition fit (s : state) : Prop := forall x o, at_ s x o -> field x -> fitting o.

Lemma fit_same : forall s s', s_objs s' = s_objs s -> fit s -> fit s'.
Proof. intros s s' E F x o. unfold at_. rewrite E. apply F. Qed.
Lemma fit_set : forall s s1 x o1, fit s -> s_objs s1 = s_objs s -> (field x -> fitting o1) -> fit (setObj x o1 s1).
Proof.
  intros s s1 x o1 F E K y o H. apply at_set in H. destruct H as [[-> ->]|[_ H]]; auto.
  apply F. unfold at_ in *. congruence.
Qed.
Lemma fit_remove : forall s s1 x, fit s -> s_objs s1 = s_objs s ->
  fit (State (remove x (s_objs s1)) (s_mem s1) (s_used s1) (s_clock s1)).
Proof.
  intros s s1 x F E y o. unfold at_; simpl. rewrite find_remove, E. destruct (x =? y)%nat; [discriminate|apply F].
Qed.
Lemma null_fitting : forall o c w oc od, (length (o_mesh o) <= D)%nat ->
  fitting (Obj (Some None) c w oc od (o_mesh o)).
Proof. intros. split; auto. simpl. discriminate. Qed.

(** The stored dimensions *)
Lemma store_fit : forall s x o l, inv s -> fit s -> at_ s x o -> length l = D -> l <> [] -> o_data o = Some None ->
  exists s' r, storeMesh x [] l 1 s = (s', r) /\ inv s' /\ fit s' /\
    (forall y oy, at_ s y oy -> exists oy', at_ s' y oy' /\ same_but_mesh oy oy') /\
    (r = Throw \/ exists m, r = Ok m /\ s' = setObj x (setMesh (l ++ skipn (length l) (o_mesh o)) o) s /\
       m = fold_left Z.mul l 1).
Proof.
  intros s x o l I F H LE NE DN. destruct (storeMesh_spec l x [] 1 s o (o_mesh o) H eq_refl) as (s' & r & E & K2 & K3).
  assert (LO : field x -> (length (o_mesh o) <= D)%nat) by (intros; now apply (F x o)).
  exists s', r. split; auto.
  assert (KR : r = Throw \/ exists m, r = Ok m /\ s' = setObj x (setMesh (l ++ skipn (length l) (o_mesh o)) o) s /\
       m = fold_left Z.mul l 1).
  { destruct K3 as [->|(-> & P & K3)]; auto. right. eexists. split; eauto. }
  destruct K2 as [->|[m [-> LM]]].
  - split; auto. split; auto. split; auto. intros y oy Hy. exists oy. split; auto. repeat split.
  - split; [apply (inv_mesh_change s x o); auto; apply same_mesh|]. split; [|split; auto].
    + apply (fit_set s); auto. intros FX. split; [|simpl; rewrite DN; discriminate].
      simpl. specialize (LO FX). simpl in LM. lia.
    + intros y oy Hy. destruct (Nat.eq_dec y x).
      * subst. exists (setMesh m o). split; [apply at_set_same|]. assert (oy = o) by (unfold at_ in *; congruence). subst. apply same_mesh.
      * exists oy. split; [now apply at_set_other|]. repeat split.
Qed.

Lemma no_extent : forall s x o, inv s -> at_ s x o -> (forall d n, ~ extent s x d n) -> o_data o = Some None.
Proof.
  intros s x o I H N. destruct (shape_det s o (i_shape s I x o H)) as (D1 & D2 & _).
  destruct (dataOf o) as [d|] eqn:E; auto. destruct (N d (capOf o)). exists o. auto.
Qed.
Lemma mesh_full : forall (l m : list Z), (length m <= length l)%nat -> l ++ skipn (length l) m = l.
Proof. intros. rewrite skipn_all2 by auto. apply app_nil_r. Qed.

Lemma execute_fit : forall c s, inv s -> fit s -> legal s c -> field_call s c -> fit (fst (execute malloc c s)).
Proof.
  intros c s I F L C.
  assert (NT : forall x, ~ there s x -> find (s_objs s) x = None).
  { intros x N. destruct (find (s_objs s) x) eqn:E; auto. destruct N. exists o; auto. }
  destruct c; cbn [execute]; cbn [legal] in L; cbn [field_call] in C; try contradiction; unfold unit_, with_; cbn [fst]; auto.
  - unfold construct. rewrite (NT _ L). cbn [fst]. apply (fit_set s); auto. intros _. split; simpl; [lia|discriminate].
  - unfold constructSize, bindM, construct. rewrite (NT _ L).
    pose proof (inv_construct s x I (NT _ L)) as I1. set (o1 := Obj _ _ _ _ _ _) in *. set (s1 := setObj x o1 s) in *.
    assert (X1 : at_ s1 x o1) by apply at_set_same.
    assert (F1 : fit s1) by (apply (fit_set s); auto; tauto).
    unfold orNone. destruct (allocate_spec malloc s1 x o1 n I1 X1); cbn [fst] in *; auto.
    + apply (fit_remove s1 s1); auto.
    + apply (fit_remove s1 (tickOnly s1)); auto.
    + apply (fit_set s1); auto. tauto.
  - destruct L as [[o H] NR].
    assert (K : fit (fst (destroy x s))).
    { destruct (destroy_spec s x o I H) as [NV|a n B|V B]; cbn [fst]; auto.
      + apply (fit_remove s (freed s a n)); auto.
      + apply (fit_remove s s); auto. }
    destruct (destroy x s) as [s' []]; simpl in *; auto.
  - destruct L as [o H]. destruct (allocate_spec malloc s x o n I H); cbn [fst]; auto.
    apply (fit_set s); auto. tauto.
  - destruct L as [[o H] [oy Hy]]. destruct (associate_spec s x y o oy b n I H Hy); cbn [fst]; auto.
    apply (fit_set s); auto. tauto.
  - destruct L as [o H]. destruct (deallocate_spec s x o I H); cbn [fst]; auto.
    apply (fit_set s); auto. intros FX. apply null_fitting. now apply (F x o).
  - destruct L as [o H]. destruct (dissociate_spec s x o I H); cbn [fst]; auto.
    apply (fit_set s); auto. intros FX. apply null_fitting. now apply (F x o).
  - destruct L as ([o H] & [oy Hy] & AP). destruct (assign_spec malloc good s x y o oy I H Hy); cbn [fst]; auto.
    + intros NE p q DA Dy E. apply AP; auto; [rewrite <- E|]; apply extent_of; auto.
    + match goal with |- fit (copied ?u _ _ _) => apply (fit_same u); auto end. apply (fit_set s); auto. tauto.
  - destruct L as [o H]. destruct h as [l|]; [|auto].
    destruct (assignHost_spec malloc good s x o l I H); cbn [fst]; auto.
    match goal with |- fit (uploaded ?u _ _ _) => apply (fit_same u); auto end. apply (fit_set s); auto. tauto.
  - destruct L as [o H]. destruct (toHost_spec s x o hc I H); auto.
  - destruct L as [[o H] B]. destruct hc as [h|].
    + destruct (copySlice_spec s x o h b I H B); auto.
    + unfold copySlice, bindM, ask. destruct (isAllocated s x) as [[]| | |]; simpl; auto.
  - destruct L as [o H]. destruct C as (LE & NE & NX). pose proof (no_extent s x o I H NX) as DN.
    destruct (store_fit s x o dims I F H LE NE DN) as (s' & r & E & I' & F' & K & KR).
    unfold allocateR, bindM. rewrite E. destruct KR as [->|(m & -> & ES & EM)]; auto.
    assert (LO : field x -> (length (o_mesh o) <= D)%nat) by (intros; now apply (F x o)).
    set (o1 := setMesh _ o) in ES. assert (X1 : at_ s' x o1) by (rewrite ES; apply at_set_same).
    destruct (allocate_spec malloc s' x o1 m I' X1); cbn [fst]; auto.
    apply (fit_set s'); auto. intros FX. unfold o1. cbn [o_mesh setMesh]. specialize (LO FX). rewrite mesh_full by lia.
    split; simpl; [lia|]. intros d n' _ EQ. injection EQ as <-. auto.
  - destruct L as [[o H] [oy Hy]]. destruct C as (LE & NE & NX). pose proof (no_extent s x o I H NX) as DN.
    destruct (store_fit s x o dims I F H LE NE DN) as (s' & r & E & I' & F' & K & KR).
    unfold associateR, bindM. rewrite E. destruct KR as [->|(m & -> & ES & EM)]; auto.
    assert (LO : field x -> (length (o_mesh o) <= D)%nat) by (intros; now apply (F x o)).
    destruct (K y oy Hy) as (oy' & Hy' & _).
    set (o1 := setMesh _ o) in ES. assert (X1 : at_ s' x o1) by (rewrite ES; apply at_set_same).
    destruct (associate_spec s' x y o1 oy' b m I' X1 Hy'); cbn [fst]; auto.
    apply (fit_set s'); auto. intros FX. unfold o1. cbn [o_mesh setMesh]. specialize (LO FX). rewrite mesh_full by lia.
    split; simpl; [lia|]. intros d n' _ EQ. injection EQ as <-. auto.
  - destruct L as ([o H] & [oy Hy] & AP).
    assert (AP' : x <> y -> forall p q, dataOf o = Some p -> dataOf oy = Some q -> capOf o = capOf oy ->
              p + capOf oy <= q \/ q + capOf oy <= p).
    { intros NE p q DA Dy E. apply AP; auto; [rewrite <- E|]; apply extent_of; auto. }
    pose proof (F y oy Hy C) as [FY1 FY2].
    destruct (shape_det s oy (i_shape s I y oy Hy)) as (DY & CY & _).
    unfold assignR, bindM, ask. destruct (assign_spec malloc good s x y o oy I H Hy AP') as [EX| | |p q NE V Vy DA Dy EC|p q NE V Vy DA Dy MA A]; cbn [fst]; auto.
    + subst y. rewrite (object_at _ _ _ Hy). cbn [bind]. unfold assignTo. unfold at_ in Hy. rewrite Hy. cbn [fst].
      apply (fit_set s); auto. intros FX. split; simpl; auto.
    + assert (Yc : at_ (copied s p q (capOf oy)) y oy) by (apply copied_at; auto).
      assert (Xc : at_ (copied s p q (capOf oy)) x o) by (apply copied_at; auto).
      rewrite (object_at _ _ _ Yc). cbn [bind]. unfold assignTo. unfold at_ in Xc. rewrite Xc. cbn [fst].
      apply (fit_set s); auto. intros FX. split; simpl; auto. intros d n Q1 Q2. apply (FY2 q n); [congruence|].
      destruct (shape_det s o (i_shape s I x o H)) as (_ & CO & _). congruence.
    + set (o1 := Obj _ _ _ _ _ _). set (s1 := copied _ _ _ _).
      assert (Yc : at_ s1 y oy) by (apply copied_at; apply at_set_other; auto).
      assert (Xc : at_ s1 x o1) by (apply copied_at; apply at_set_same).
      assert (F1 : forall z r, z <> x -> at_ s1 z r -> field z -> fitting r).
      { intros z r NZ Z FZ. apply (proj1 (copied_at _ _ _ _ _ _)) in Z. apply at_set in Z.
        destruct Z as [[Z _]|[_ Z]]; [congruence|]. apply (F z); auto. }
      rewrite (object_at _ _ _ Yc). cbn [bind]. unfold assignTo. pose proof Xc as Xc'. unfold at_ in Xc'. rewrite Xc'. cbn [fst].
      intros z r Z FZ. apply at_set in Z. destruct Z as [[-> ->]|[NZ Z]]; [|apply (F1 z); auto].
      split; simpl; auto. intros d n Q1 Q2. apply (FY2 q n); congruence.
  - destruct L as [o H]. unfold assignHostR. destruct h as [l|]; auto. unfold bindM at 1 2, ask at 1, assert at 1.
    destruct (valid_dec s x o I H) as [V|V].
    2:{ rewrite (isAllocated_invalid s x o I H V). auto. }
    rewrite (isAllocated_valid s x o I H V). destruct (dataOf o) as [d|] eqn:DO; cbn [notNull check]; auto.
    unfold bindM, ask, assert. rewrite (capacity_at s x o I H). destruct (capOf o =? Z.of_nat (length l)); cbn [check]; auto.
    destruct (assignHost_spec malloc good s x o l I H) as [| | |p V' DN]; cbn [fst]; auto. congruence.
Qed.
Lemma fit_initial : fit initial.
Proof. intros x o H. discriminate. Qed.
Lemma program_fit : forall l s, inv s -> fit s -> legal_program malloc s l -> field_program s l ->
  fit (fst (program malloc l s)).
Proof.
  induction l as [|c l IH]; intros s I F L FP; [auto|].
  cbn [legal_program] in L. cbn [field_program] in FP. destruct L as [L1 L2], FP as [P1 P2].
  pose proof (execute_inv malloc good c s I L1) as [I' _]. pose proof (execute_fit c s I F L1 P1) as F'.
  cbn [program]. destruct (execute malloc c s) as [s' []]; cbn [fst snd] in *; auto.
Qed.
End Fields.

(** A field that holds data has meshDimensions_ whose product is its capacity, if
    allocate and associate are called for fields without data only *)
Theorem C76_mesh : forall malloc field D l, good_malloc malloc -> legal_program malloc initial l ->
  field_program malloc field D initial l ->
  forall x o d n, field x -> find (s_objs (fst (program malloc l initial))) x = Some o ->
    o_data o = Some (Some d) -> o_cap o = Some n -> fold_left Z.mul (o_mesh o) 1 = n.
Proof.
  intros malloc field D l G L FP x o d n FX H DA C.
  exact (proj2 (program_fit malloc G field D l initial inv_initial (fit_initial field D) L FP x o H FX) d n DA C).
Qed.

Print Assumptions C76_safe.
Print Assumptions C76_exceptions.
Print Assumptions C76_assignment.
Print Assumptions C76_association.
Print Assumptions C76_stale.
Print Assumptions C76_tidy.
Print Assumptions C76_mesh.

(** ** Concrete programs *)

(** An allocator: memory after all that is in use *)
Definition bump (k : nat) (used : list (Z * Z)) (n : Z) : option Z :=
  Some (fold_right (fun b m => Z.max m (fst b + snd b)) 0 used).
Lemma bump_good : good_malloc bump.
Proof.
  intros k used n a P E b m IN. injection E as <-. right. clear - IN. induction used as [|c used IH]; [contradiction|].
  cbn [fold_right]. destruct IN as [->|IN]; [cbn [fst snd]; lia|]. specialize (IH IN). lia.
Qed.

Ltac thing := eexists; vm_compute; reflexivity.
Ltac nothing := let H := fresh in intros [? H]; vm_compute in H; discriminate H.
Ltac nobody :=
  let y := fresh "y" in let F := fresh in let W := fresh in
  intros y (? & F & W); vm_compute in F;
  repeat (match goal with
          | F : context [match y with _ => _ end] |- _ => destruct y
          | F : (match ?e with _ => _ end) = Some _ |- _ => destruct e
          end; try discriminate; try (injection F as <-; vm_compute in W; discriminate)).

(** An owner of 6 elements, two slices, a copy of a slice, a transfer from the host,
    one attempt to allocate a slice (refused), and destruction of all *)
Definition demo : list call :=
  [ConstructSize 0 6; Construct 1; Construct 2; Construct 3; Associate 1 0 0 3; Associate 2 0 3 3;
   AssignHost 1 (Some [1; 2; 3]%R); Assign 2 1; Assign 3 2; Allocate 1 2; Associate 1 2 0 1;
   ToHost 0 None; CopySlice 0 (Some 2) 2;
   Dissociate 1; Destroy 1; Destroy 2; Deallocate 0; Allocate 0 4; Destroy 0; Destroy 3].
Definition after (l : list call) : state := fst (program bump l initial).

Ltac split_apart :=
  let NE := fresh in let p := fresh in let q := fresh in let n := fresh in
  intros NE p q n (? & ? & ? & ?) (? & ? & ? & ?); vm_compute in * |-;
  repeat match goal with H : Some _ = Some _ |- _ => injection H as ? end; subst; cbn in *;
  repeat match goal with H : Some _ = Some _ |- _ => injection H as ? end; subst; try discriminate; lia.
Ltac lawful := first
  [ exact I | nothing | thing
  | split; [thing|nobody] | split; [thing|split; [thing|split_apart]] | split; [thing|lia] | split; thing ].

Lemma demo_tidy : tidy_program bump initial demo.
Proof.
  unfold demo. repeat (cbn [tidy_program]; split; [split; [cbn [legal]; try lawful|cbv beta iota; try exact I; try nobody]|]).
  exact I.
Qed.
Lemma tidy_legal : forall malloc l s, tidy_program malloc s l -> legal_program malloc s l.
Proof.
  induction l as [|c l IH]; intros s T; cbn [legal_program]; [auto|]. destruct T as [[T1 _] T2]. split; auto.
  destruct (snd (execute malloc c s)); auto.
Qed.
Lemma tidy_prefix : forall malloc l k s, tidy_program malloc s l -> tidy_program malloc s (firstn k l).
Proof.
  induction l as [|c l IH]; intros [|k] s T; simpl; auto. destruct T as [T1 T2]. split; auto.
Qed.
Lemma after_tidy : forall k l, tidy_program bump initial l -> reachable bump (after (firstn k l)).
Proof.
  intros k l T. apply (tidy_prefix _ _ k) in T. exists (firstn k l). split; [now apply tidy_legal|].
  destruct (tidy_all bump bump_good (firstn k l) initial inv_initial snug_initial T) as (_ & _ & E). unfold after.
  rewrite <- E. now destruct (program bump (firstn k l) initial).
Qed.
(** Cases of C76_assignment, C76_association and C76_exceptions *)
Example demo_assignment : legal (after (firstn 7 demo)) (Assign 2 1) /\
  snd (execute bump (Assign 2 1) (after (firstn 7 demo))) = Answer VUnit /\
  snd (execute bump (Associate 2 0 3 3) (after (firstn 5 demo))) = Answer VUnit /\
  snd (execute bump (Associate 1 2 0 1) (after (firstn 10 demo))) = Exception.
Proof. split; [cbn [legal]; lawful|]. repeat split. Qed.
Example demo_answers :
  map (fun k => snd (execute bump (nth k demo (IsOwner 0)) (after (firstn k demo)))) [8; 9; 10; 13; 19]%nat =
    [Answer VUnit; Exception; Exception; Answer VUnit; Answer VUnit] /\
  snd (program bump demo initial) = Answer VUnit /\
  s_objs (after demo) = [] /\ s_used (after demo) = [] /\
  snd (execute bump (ToHost 0 None) (after (firstn 8 demo))) =
    Answer (VData [Val 1; Val 2; Val 3; Val 1; Val 2; Val 3]%R).
Proof. repeat split. Qed.

(** ** What does not hold *)

Lemma checks_more : forall s s', (forall z o, find (s_objs s) z = Some o -> find (s_objs s') z = Some o) ->
  forall f f' y, (f <= f')%nat -> ownerChecks f s y = Ok tt -> ownerChecks f' s' y = Ok tt.
Proof.
  intros s s' E. assert (OB : forall z o, object s z = Ok o -> object s' z = Ok o).
  { unfold object. intros z o. destruct (find (s_objs s) z) eqn:F; [|discriminate]. now rewrite (E _ _ F). }
  induction f as [|f IH]; intros f' y L; [discriminate|]. destruct f' as [|f']; [lia|]. cbn [ownerChecks].
  destruct (object s y) as [o| | |] eqn:O; try discriminate. rewrite (OB _ _ O). cbn [bind].
  destruct (member (o_owner o)) as [[z|]| | |]; cbn [bind]; auto.
  destruct (ownerChecks f s z) as [[]| | |] eqn:C; try discriminate. rewrite (IH f' z ltac:(lia) C). cbn [bind].
  destruct (object s z) as [oz| | |] eqn:Z; try discriminate. rewrite (OB _ _ Z). cbn [bind].
  unfold capacity. rewrite Z, (OB _ _ Z). auto.
Qed.
(** The copy constructor reads members that have no value *)
Theorem C76_copy_constructor_refuted : forall malloc s x y, good_malloc malloc -> reachable malloc s ->
  ~ there s x -> usable malloc s y -> snd (execute malloc (ConstructCopy x y) s) = Undefined.
Proof.
  intros malloc s x y G RS NT U. pose proof (reachable_inv malloc s G RS) as I.
  destruct (usable_inv malloc s y I U) as (o & d & H & V & D).
  assert (NX : find (s_objs s) x = None) by (destruct (find (s_objs s) x) eqn:E; auto; destruct NT; eexists; eauto).
  cbn [execute]. unfold unit_, with_, constructCopy, constructBare. cbn [snd].
  unfold bindM at 1. rewrite NX.
  set (b := Obj _ _ _ _ _ _). set (s1 := setObj x b s).
  assert (K : forall z oz, find (s_objs s) z = Some oz -> find (s_objs s1) z = Some oz).
  { intros z oz Hz. unfold s1. rewrite find_set. destruct (Nat.eqb_spec x z); congruence. }
  assert (X1 : object s1 x = Ok b) by (apply object_at; apply at_set_same).
  assert (Y1 : object s1 y = Ok o) by (apply object_at; unfold at_; auto).
  destruct (shape_det s o (i_shape s I y o H)) as (DY & CY & _).
  assert (A1 : isAllocated s1 y = Ok true).
  { unfold isAllocated. destruct (checks s y o I H) as [[_ C]|[NV _]]; [|contradiction].
    rewrite (checks_more s s1 K (depth s) (depth s1) y); auto.
    - cbn [bind]. rewrite Y1. cbn [bind]. rewrite DY, D. reflexivity.
    - unfold depth, s1, setObj. cbn [s_objs length]. rewrite remove_absent by auto. lia. }
  assert (C1 : capacity s1 y = Ok (capOf o)) by (unfold capacity; rewrite Y1; cbn [bind]; now rewrite CY).
  assert (AX : isAllocated s1 x = UB) by (unfold isAllocated, depth; cbn [ownerChecks]; rewrite X1; reflexivity).
  unfold orNone, bindM, ask, assert. rewrite A1. cbn [check]. rewrite C1.
  unfold allocate, bindM, ask. rewrite AX. reflexivity.
Qed.
Example copy_constructor_case : reachable bump (after (firstn 1 demo)) /\ ~ there (after (firstn 1 demo)) 1 /\
  usable bump (after (firstn 1 demo)) 0.
Proof.
  split; [|split; [nothing|reflexivity]]. exists (firstn 1 demo). split; [|auto].
  cbn [demo firstn legal_program]. split; [cbn [legal]; nothing|exact I].
Qed.
(** Destruction of a slice after its owner was deallocated ends the program *)
Definition stale_demo : list call := [ConstructSize 0 4; Construct 1; Associate 1 0 1 2; Deallocate 0; Destroy 1].
Theorem C76_stale_refuted : exists l, legal_program bump initial l /\ snd (program bump l initial) = Terminate.
Proof.
  exists stale_demo. split; [|reflexivity].
  unfold stale_demo. repeat (cbn [legal_program]; split; [cbn [legal]; lawful|cbv beta iota]). exact I.
Qed.
(** Destruction of an owner before its slice leaves a pointer to no object *)
Theorem C76_dangling_refuted : exists s c, reachable bump s /\ c = Destroy 1 /\
  snd (execute bump (Destroy 0) s) = Answer VUnit /\
  snd (execute bump (IsAllocated 1) (fst (execute bump (Destroy 0) s))) = Undefined /\
  snd (execute bump c (fst (execute bump (Destroy 0) s))) = Undefined.
Proof.
  exists (after (firstn 3 stale_demo)), (Destroy 1). split; [|repeat split].
  exists (firstn 3 stale_demo). split; [|auto].
  unfold stale_demo. cbn [firstn]. repeat (cbn [legal_program]; split; [cbn [legal]; lawful|cbv beta iota]). exact I.
Qed.
(** Two overlapping slices: assignment copies between overlapping regions *)
Definition overlap_demo : list call := [ConstructSize 0 4; Construct 1; Construct 2; Associate 1 0 0 3; Associate 2 0 1 3].
Theorem C76_overlap_refuted : exists s x y, reachable bump s /\ usable bump s x /\ usable bump s y /\ x <> y /\
  snd (execute bump (Assign x y) s) = Undefined.
Proof.
  exists (after overlap_demo), 1%nat, 2%nat. split; [|repeat split; auto].
  exists overlap_demo. split; [|auto].
  unfold overlap_demo. repeat (cbn [legal_program]; split; [cbn [legal]; lawful|cbv beta iota]). exact I.
Qed.
(** copySlice does not test beginId *)
Theorem C76_copySlice_refuted : exists s, reachable bump s /\ usable bump s 0 /\
  snd (execute bump (CopySlice 0 (Some 2) (-1)) s) = Undefined.
Proof.
  exists (after (firstn 1 stale_demo)). split; [|repeat split; auto].
  exists (firstn 1 stale_demo). split; [|auto].
  unfold stale_demo. cbn [firstn]. repeat (cbn [legal_program]; split; [cbn [legal]; lawful|cbv beta iota]). exact I.
Qed.
(** A second allocate of a field throws, but has stored other dimensions: 2 x 3
    elements, dimensions 5 x 5 *)
Definition mesh_demo : list call := [Construct 0; AllocateR 0 [2; 3]; AllocateR 0 [5; 5]].
Theorem C76_mesh_refuted : exists s s' o, reachable bump s /\ usable bump s 0 /\
  execute bump (AllocateR 0 [5; 5]) s = (s', Exception) /\
  find (s_objs s') 0%nat = Some o /\ o_cap o = Some 6 /\ fold_left Z.mul (o_mesh o) 1 = 25.
Proof.
  exists (after (firstn 2 mesh_demo)). do 2 eexists. split; [|repeat split; auto].
  exists (firstn 2 mesh_demo). split; [|auto].
  unfold mesh_demo. cbn [firstn]. repeat (cbn [legal_program]; split; [cbn [legal]; lawful|cbv beta iota]). exact I.
Qed.
(** Fields 1 and 2 that meet the conditions of C76_mesh; the array 0 is no field *)
Definition field_demo : list call :=
  [ConstructSize 0 12; Construct 1; Construct 2; AssociateR 1 0 6 [2; 3]; AssignR 2 1].
Definition isField (x : nat) : Prop := x = 1%nat \/ x = 2%nat.
Example field_demo_ok : legal_program bump initial field_demo /\ field_program bump isField 2 initial field_demo /\
  exists o, find (s_objs (after field_demo)) 2%nat = Some o /\ o_mesh o = [2; 3] /\ o_cap o = Some 6.
Proof.
  split; [|split; [|eexists; repeat split]].
  - apply tidy_legal. unfold field_demo. repeat (cbn [tidy_program]; split; [split; [cbn [legal]; try lawful|cbv beta iota; try exact I]|]). exact I.
  - unfold field_demo. repeat (cbn [field_program]; split; [cbn [field_call]|]); unfold isField; try exact I; try lia; auto.
    + discriminate.
    + intros d n (o & H & D & _). vm_compute in H. injection H as <-. discriminate.
Qed.
Print Assumptions C76_copy_constructor_refuted.
Print Assumptions C76_stale_refuted.
Print Assumptions C76_dangling_refuted.
Print Assumptions C76_overlap_refuted.
Print Assumptions C76_copySlice_refuted.
Print Assumptions C76_mesh_refuted.
