(** Invariant of device arrays (DevArray.v) *)
From Coq Require Import Reals ZArith List Bool Arith Lia.
From Verif Require Import Base GpuKernel DevArray.
Import ListNotations.
Local Open Scope Z_scope.

(** ** Lists of objects *)

Lemma find_cons : forall x o l y,
  find ((x, o) :: l) y = if (x =? y)%nat then Some o else find l y.
Proof. intros. unfold find; simpl. destruct (x =? y)%nat; auto. Qed.
Lemma find_remove : forall l x y, find (remove x l) y = if (x =? y)%nat then None else find l y.
Proof.
  induction l as [|[k o] l IH]; intros x y; simpl.
  - destruct (x =? y)%nat; auto.
  - destruct (Nat.eqb_spec k x); simpl.
    + rewrite IH, find_cons. subst. destruct (Nat.eqb_spec x y); auto.
    + rewrite !find_cons, IH. destruct (Nat.eqb_spec k y), (Nat.eqb_spec x y); subst; auto; congruence.
Qed.
Lemma find_set : forall x o s y,
  find (s_objs (setObj x o s)) y = if (x =? y)%nat then Some o else find (s_objs s) y.
Proof.
  intros. unfold setObj; simpl. rewrite find_cons, find_remove. destruct (x =? y)%nat; auto.
Qed.
Lemma find_in : forall l x o, find l x = Some o -> In x (map fst l).
Proof.
  induction l as [|[k q] l IH]; simpl; intros x o H; [discriminate|].
  rewrite find_cons in H. destruct (Nat.eqb_spec k x); subst; auto. right; eauto.
Qed.
Lemma in_find : forall l x, In x (map fst l) -> exists o, find l x = Some o.
Proof.
  induction l as [|[k q] l IH]; simpl; intros x H; [contradiction|].
  rewrite find_cons. destruct (Nat.eqb_spec k x); eauto. destruct H; [congruence|auto].
Qed.
Lemma remove_in : forall l x y, In y (map fst (remove x l)) <-> In y (map fst l) /\ y <> x.
Proof.
  induction l as [|[k q] l IH]; simpl; intros x y; [tauto|].
  destruct (Nat.eqb_spec k x); simpl; rewrite IH; intuition (subst; congruence || auto).
Qed.
Lemma remove_nodup : forall l x, NoDup (map fst l) -> NoDup (map fst (remove x l)).
Proof.
  induction l as [|[k q] l IH]; simpl; intros x H; auto. inversion H; subst.
  destruct (Nat.eqb_spec k x); simpl; auto. constructor; auto.
  rewrite remove_in. tauto.
Qed.
Lemma set_nodup : forall x o s, NoDup (map fst (s_objs s)) -> NoDup (map fst (s_objs (setObj x o s))).
Proof.
  intros x o s H; simpl. constructor; [rewrite remove_in; tauto|now apply remove_nodup].
Qed.
Lemma remove_absent : forall l x, find l x = None -> remove x l = l.
Proof.
  induction l as [|[k q] l IH]; simpl; intros x H; auto. rewrite find_cons in H.
  destruct (k =? x)%nat; [discriminate|]. simpl. now rewrite IH.
Qed.

(** ** Invariant *)

Definition at_ (s : state) (x : nat) (o : obj) : Prop := find (s_objs s) x = Some o.
Definition ownedBy (o : obj) (a n : Z) : Prop :=
  o_owner o = Some None /\ o_data o = Some (Some a) /\ o_cap o = Some n.

Inductive shape (s : state) (o : obj) : Prop :=
| Empty oc od : o_owner o = Some None -> o_data o = Some None -> o_cap o = Some 0 ->
    o_ocap o = Some oc -> o_odata o = Some od -> shape s o
| Own a n oc od : o_owner o = Some None -> o_data o = Some (Some a) -> o_cap o = Some n -> In (a, n) (s_used s) ->
    o_ocap o = Some oc -> o_odata o = Some od -> shape s o
| Slice y o' d n e oc : o_owner o = Some (Some y) -> at_ s y o' -> o_data o = Some (Some d) -> o_cap o = Some n ->
    o_ocap o = Some oc -> o_odata o = Some (Some e) -> 0 < n -> e <= d -> d + n <= e + oc -> shape s o.

Inductive chain (s : state) : nat -> list nat -> Prop :=
| Root x o : at_ s x o -> o_owner o = Some None -> chain s x []
| Link x o y l : at_ s x o -> o_owner o = Some (Some y) -> chain s y l -> chain s x (y :: l).

Record inv (s : state) : Prop := {
  i_nodup : NoDup (map fst (s_objs s));
  i_shape : forall x o, at_ s x o -> shape s o;
  i_chain : forall x o, at_ s x o -> exists l, chain s x l;
  i_pos : forall a n, In (a, n) (s_used s) -> 0 < n;
  i_apart : forall a n b m, In (a, n) (s_used s) -> In (b, m) (s_used s) -> (a, n) = (b, m) \/ a + n <= b \/ b + m <= a;
  i_mem : forall z, s_mem s z <> Free <-> exists a n, In (a, n) (s_used s) /\ a <= z < a + n;
  i_owner : forall a n, In (a, n) (s_used s) -> exists x o, at_ s x o /\ ownedBy o a n;
  i_unique : forall x o x' o' a n n', at_ s x o -> at_ s x' o' -> ownedBy o a n -> ownedBy o' a n' -> x = x'
}.

Lemma inv_initial : inv initial.
Proof.
  constructor; simpl; try contradiction; try (unfold at_; simpl; discriminate).
  - constructor.
  - intros z. split; [congruence|]. intros (a & n & [] & _).
Qed.

(** Chains *)
Lemma chain_det : forall s x l l', chain s x l -> chain s x l' -> l = l'.
Proof.
  intros s x l l' H. revert l'. induction H; intros l' H'; inversion H'; subst; unfold at_ in *; try congruence.
  f_equal; [congruence|]. apply IHchain. congruence.
Qed.
Lemma chain_at : forall s x l, chain s x l -> exists o, at_ s x o.
Proof. intros s x l H; inversion H; subst; eauto. Qed.
Lemma chain_in : forall s x l y, chain s x l -> In y l -> exists l1 l2, l = l1 ++ y :: l2 /\ chain s y l2.
Proof.
  intros s x l y H. induction H; simpl; intros Hy; [contradiction|].
  destruct Hy as [<-|Hy]; [exists [], l; auto|].
  destruct (IHchain Hy) as (l1 & l2 & -> & C). exists (y0 :: l1), l2; auto.
Qed.
Lemma chain_nodup : forall s x l, chain s x l -> NoDup (x :: l).
Proof.
  intros s x l H. assert (K : NoDup l -> NoDup (x :: l)).
  { intros N. constructor; auto. intros I. destruct (chain_in s x l x H I) as (l1 & l2 & E & C).
    pose proof (chain_det _ _ _ _ H C) as E'. rewrite E in E'.
    apply (f_equal (@length nat)) in E'. rewrite app_length in E'. simpl in E'. lia. }
  apply K. clear K. induction H; [constructor|]. constructor.
  - intros I. destruct (chain_in s y l y H1 I) as (l1 & l2 & E & C).
    pose proof (chain_det _ _ _ _ H1 C) as E'. rewrite E in E'.
    apply (f_equal (@length nat)) in E'. rewrite app_length in E'. simpl in E'. lia.
  - auto.
Qed.
Lemma chain_short : forall s x l, chain s x l -> (length l < depth s)%nat.
Proof.
  intros s x l H. pose proof (chain_nodup s x l H) as N.
  assert (I : incl (x :: l) (map fst (s_objs s))).
  { intros y [<-|Hy].
    - destruct (chain_at s x l H) as [o Ho]. now apply find_in in Ho.
    - destruct (chain_in s x l y H Hy) as (l1 & l2 & _ & C).
      destruct (chain_at s y l2 C) as [o Ho]. now apply find_in in Ho. }
  pose proof (NoDup_incl_length N I) as L. rewrite map_length in L. simpl in L. unfold depth. lia.
Qed.

(** Valid arrays: the data of the owner are those that were there at association *)
Inductive valid (s : state) : nat -> Prop :=
| VRoot x o : at_ s x o -> o_owner o = Some None -> valid s x
| VLink x o y o' e n : at_ s x o -> o_owner o = Some (Some y) -> valid s y -> at_ s y o' ->
    o_data o' = Some (Some e) -> o_odata o = Some (Some e) -> o_cap o' = Some n -> o_ocap o = Some n -> valid s x.

Lemma object_at : forall s x o, at_ s x o -> object s x = Ok o.
Proof. unfold at_, object. intros s x o ->. auto. Qed.

Lemma ownerChecks_spec : forall s, inv s -> forall l x f, chain s x l -> (length l < f)%nat ->
  (valid s x /\ ownerChecks f s x = Ok tt) \/ (~ valid s x /\ ownerChecks f s x = Throw).
Proof.
  intros s I. induction l as [|y l IH]; intros x f C L; destruct f as [|f]; try (simpl in L; lia).
  - inversion C; subst. left. split; [eapply VRoot; eauto|]. cbn [ownerChecks].
    rewrite (object_at _ _ _ H). cbn [bind]. rewrite H0. reflexivity.
  - inversion C as [|? o ? ? Ho Hw Cy]; subst. cbn [ownerChecks]. rewrite (object_at _ _ _ Ho). cbn [bind].
    rewrite Hw. cbn [member bind].
    destruct (IH y f Cy) as [[V E]|[V E]]; [simpl in L; lia| |].
    2:{ right. rewrite E. split; [|reflexivity]. intros V'. inversion V'; subst; unfold at_ in *; [congruence|].
        apply V. congruence. }
    rewrite E. cbn [bind]. destruct (chain_at _ _ _ Cy) as [o' Ho']. rewrite (object_at _ _ _ Ho'). cbn [bind].
    unfold capacity. rewrite (object_at _ _ _ Ho'). cbn [bind].
    assert (K : forall e n, o_data o' = Some (Some e) -> o_cap o' = Some n -> forall oc od,
              o_ocap o = Some oc -> o_odata o = Some (Some od) -> valid s x <-> n = oc /\ e = od).
    { intros e n D K oc od Q1 Q2. split.
      - intros V'. inversion V'; subst; unfold at_ in *; [congruence|].
        assert (y0 = y) by congruence. subst y0. assert (o0 = o) by congruence. subst o0.
        assert (o'0 = o') by congruence. subst o'0. split; congruence.
      - intros [-> ->]. eapply VLink; eauto. }
    assert (Kn : o_data o' = Some None -> ~ valid s x).
    { intros D V'. inversion V'; subst; unfold at_ in *; [congruence|].
      assert (y0 = y) by congruence. subst y0. assert (o0 = o) by congruence. subst o0. congruence. }
    pose proof (i_shape s I _ _ Ho) as S. inversion S; try congruence.
    pose proof (i_shape s I _ _ Ho') as S'. inversion S'.
    + right. split; auto. match goal with D : o_data o' = _ |- _ => rewrite D end. reflexivity.
    + match goal with D : o_data o' = _, C' : o_cap o' = _, OC : o_ocap o = _, OD : o_odata o = _ |- _ =>
        pose proof (K _ _ D C' _ _ OC OD) as KK; rewrite D, C', OC, OD end.
      cbn [bind member notNull check ptr_eqb].
      destruct (Z.eqb_spec n0 oc); cbn [check bind]; [|right; split; [rewrite KK; tauto|reflexivity]].
      destruct (Z.eqb_spec a e); cbn [check bind]; [left|right]; split; auto; rewrite KK; tauto.
    + match goal with D : o_data o' = _, C' : o_cap o' = _, OC : o_ocap o = _, OD : o_odata o = _ |- _ =>
        pose proof (K _ _ D C' _ _ OC OD) as KK; rewrite D, C', OC, OD end.
      cbn [bind member notNull check ptr_eqb].
      destruct (Z.eqb_spec n0 oc); cbn [check bind]; [|right; split; [rewrite KK; tauto|reflexivity]].
      destruct (Z.eqb_spec d0 e); cbn [check bind]; [left|right]; split; auto; rewrite KK; tauto.
Qed.

Lemma checks : forall s x o, inv s -> at_ s x o ->
  (valid s x /\ ownerChecks (depth s) s x = Ok tt) \/ (~ valid s x /\ ownerChecks (depth s) s x = Throw).
Proof.
  intros s x o I H. destruct (i_chain s I x o H) as [l C]. eapply ownerChecks_spec; eauto. eapply chain_short; eauto.
Qed.

Definition dataOf (o : obj) : option Z := match o_data o with Some p => p | None => None end.
Definition capOf (o : obj) : Z := match o_cap o with Some p => p | None => 0 end.
Definition ownerOf (o : obj) : option nat := match o_owner o with Some p => p | None => None end.

Lemma shape_det : forall s o, shape s o -> o_data o = Some (dataOf o) /\ o_cap o = Some (capOf o) /\ o_owner o = Some (ownerOf o).
Proof.
  intros s o H; inversion H; unfold dataOf, capOf, ownerOf; repeat match goal with E : _ = Some _ |- _ => rewrite E end; auto.
Qed.

Lemma isAllocated_valid : forall s x o, inv s -> at_ s x o -> valid s x -> isAllocated s x = Ok (notNull (dataOf o)).
Proof.
  intros s x o I H V. unfold isAllocated. destruct (checks s x o I H) as [[_ ->]|[N _]]; [|contradiction].
  cbn [bind]. rewrite (object_at _ _ _ H). cbn [bind].
  destruct (shape_det s o (i_shape s I _ _ H)) as (D & _ & _). rewrite D. reflexivity.
Qed.
Lemma isAllocated_invalid : forall s x o, inv s -> at_ s x o -> ~ valid s x -> isAllocated s x = Throw.
Proof.
  intros s x o I H V. unfold isAllocated. destruct (checks s x o I H) as [[N _]|[_ ->]]; [contradiction|reflexivity].
Qed.
Lemma cArray_valid : forall s x o, inv s -> at_ s x o -> valid s x -> cArray s x = Ok (dataOf o).
Proof.
  intros s x o I H V. unfold cArray. destruct (checks s x o I H) as [[_ ->]|[N _]]; [|contradiction].
  cbn [bind]. rewrite (object_at _ _ _ H). cbn [bind].
  destruct (shape_det s o (i_shape s I _ _ H)) as (D & _ & _). rewrite D. reflexivity.
Qed.
Lemma cArray_invalid : forall s x o, inv s -> at_ s x o -> ~ valid s x -> cArray s x = Throw.
Proof.
  intros s x o I H V. unfold cArray. destruct (checks s x o I H) as [[N _]|[_ ->]]; [contradiction|reflexivity].
Qed.
Lemma valid_dec : forall s x o, inv s -> at_ s x o -> valid s x \/ ~ valid s x.
Proof. intros s x o I H. destruct (checks s x o I H) as [[V _]|[V _]]; auto. Qed.
Lemma capacity_at : forall s x o, inv s -> at_ s x o -> capacity s x = Ok (capOf o).
Proof.
  intros s x o I H. unfold capacity. rewrite (object_at _ _ _ H). cbn [bind].
  destruct (shape_det s o (i_shape s I _ _ H)) as (_ & D & _). rewrite D. reflexivity.
Qed.
Lemma data_at : forall s x o, inv s -> at_ s x o -> (o <- object s x ;; member (o_data o)) = Ok (dataOf o).
Proof.
  intros s x o I H. rewrite (object_at _ _ _ H). cbn [bind].
  destruct (shape_det s o (i_shape s I _ _ H)) as (D & _ & _). rewrite D. reflexivity.
Qed.
Lemma owner_at : forall s x o, inv s -> at_ s x o -> (o <- object s x ;; member (o_owner o)) = Ok (ownerOf o).
Proof.
  intros s x o I H. rewrite (object_at _ _ _ H). cbn [bind].
  destruct (shape_det s o (i_shape s I _ _ H)) as (_ & _ & D). rewrite D. reflexivity.
Qed.
Lemma isOwner_at : forall s x o, inv s -> at_ s x o ->
  isOwner s x = Ok (negb (notNull (ownerOf o)) && notNull (dataOf o)).
Proof.
  intros s x o I H. unfold isOwner. rewrite (object_at _ _ _ H). cbn [bind].
  destruct (shape_det s o (i_shape s I _ _ H)) as (D & _ & W). rewrite W, D. cbn [member bind].
  destruct (ownerOf o); reflexivity.
Qed.

(** The elements of a valid array lie in one allocation *)
Lemma valid_inside : forall s x, inv s -> valid s x -> forall o d, at_ s x o -> dataOf o = Some d ->
  0 < capOf o /\ exists a n, In (a, n) (s_used s) /\ a <= d /\ d + capOf o <= a + n.
Proof.
  intros s x I V. induction V as [x o H W|x o y o' e n H W V IH H' D' OD C' OC]; intros o1 d H1 D.
  - assert (o1 = o) by (unfold at_ in *; congruence). subst o1.
    pose proof (i_shape s I _ _ H) as S. unfold dataOf, capOf in *. inversion S; try congruence.
    + rewrite H2 in D. discriminate.
    + rewrite H2 in D. injection D as <-. rewrite H3. split; [now apply (i_pos s I a)|].
      exists a, n. repeat split; auto; lia.
  - assert (o1 = o) by (unfold at_ in *; congruence). subst o1.
    pose proof (i_shape s I _ _ H) as S. unfold dataOf, capOf in *. inversion S; try congruence.
    rewrite H3 in D. injection D as <-. rewrite H4. split; auto.
    destruct (IH o' e H') as (P & a & m & IN & A1 & A2); [unfold dataOf; now rewrite D'|].
    unfold capOf in A2. rewrite C' in A2.
    assert (e0 = e) by congruence. assert (oc = n) by congruence. subst.
    exists a, m. split; auto. lia.
Qed.

Lemma valid_live : forall s x o d, inv s -> valid s x -> at_ s x o -> dataOf o = Some d ->
  live (s_mem s) d (capOf o) = true.
Proof.
  intros s x o d I V H D. destruct (valid_inside s x I V o d H D) as (P & a & n & IN & A1 & A2).
  unfold live. apply forallb_forall. intros i Hi. apply in_seq in Hi.
  assert (N : s_mem s (d + Z.of_nat i) <> Free).
  { apply (i_mem s I). exists a, n. split; auto. lia. }
  destruct (s_mem s (d + Z.of_nat i)); congruence.
Qed.

(** ** Changes that keep the invariant *)

(** Objects keep their names and owners *)
Definition alike (s s' : state) : Prop :=
  forall y o, at_ s y o -> exists o', at_ s' y o' /\ o_owner o' = o_owner o.
Lemma chain_alike : forall s s' x l, alike s s' -> chain s x l -> chain s' x l.
Proof.
  intros s s' x l A C. induction C.
  - destruct (A _ _ H) as (o' & H' & E). eapply Root; eauto. congruence.
  - destruct (A _ _ H) as (o' & H' & E). eapply Link; eauto. congruence.
Qed.
Lemma shape_alike : forall s s' o, alike s s' ->
  (forall a n, o_owner o = Some None -> o_data o = Some (Some a) -> o_cap o = Some n -> In (a, n) (s_used s) -> In (a, n) (s_used s')) ->
  shape s o -> shape s' o.
Proof.
  intros s s' o A U S. inversion S.
  - eapply Empty; eauto.
  - eapply Own; eauto.
  - destruct (A _ _ H0) as (o2 & H' & _). eapply Slice; eauto.
Qed.

Lemma inv_mem_change : forall s m k, inv s -> (forall z, m z = Free <-> s_mem s z = Free) ->
  inv (State (s_objs s) m (s_used s) k).
Proof.
  intros s m k [N S C P A Mm O U] E.
  assert (AL : alike s (State (s_objs s) m (s_used s) k)) by (intros y o H; exists o; auto).
  constructor; simpl; auto.
  - intros x o H. eapply shape_alike; eauto.
  - intros x o H. destruct (C x o H) as [l Hl]. exists l. eapply chain_alike; eauto.
  - intros z. rewrite <- Mm. specialize (E z). intuition.
Qed.

(** An object changes in its mesh only *)
Definition same_but_mesh (o o' : obj) : Prop :=
  o_data o' = o_data o /\ o_cap o' = o_cap o /\ o_owner o' = o_owner o /\ o_ocap o' = o_ocap o /\ o_odata o' = o_odata o.
Lemma shape_mesh : forall s o o', same_but_mesh o o' -> shape s o -> shape s o'.
Proof.
  intros s o o' (E1 & E2 & E3 & E4 & E5) S. inversion S.
  - eapply Empty; rewrite ?E1, ?E2, ?E3, ?E4, ?E5; eassumption.
  - eapply Own; rewrite ?E1, ?E2, ?E3, ?E4, ?E5; eassumption.
  - eapply Slice; rewrite ?E1, ?E2, ?E3, ?E4, ?E5; eassumption.
Qed.
Lemma at_set : forall s x o y q, at_ (setObj x o s) y q -> (y = x /\ q = o) \/ (y <> x /\ at_ s y q).
Proof.
  unfold at_. intros s x o y q H. rewrite find_set in H. destruct (Nat.eqb_spec x y); [left|right]; split; congruence.
Qed.
Lemma at_set_same : forall s x o, at_ (setObj x o s) x o.
Proof. intros. unfold at_. now rewrite find_set, Nat.eqb_refl. Qed.
Lemma at_set_other : forall s x o y q, y <> x -> at_ s y q -> at_ (setObj x o s) y q.
Proof. intros. unfold at_. rewrite find_set. destruct (Nat.eqb_spec x y); congruence. Qed.

Lemma alike_set : forall s x o o', at_ s x o -> o_owner o' = o_owner o -> alike s (setObj x o' s).
Proof.
  intros s x o o' H E y q Q. destruct (Nat.eq_dec y x).
  - subst. exists o'. split; [apply at_set_same|]. assert (q = o) by (unfold at_ in *; congruence). congruence.
  - exists q. split; auto. now apply at_set_other.
Qed.

Lemma inv_mesh_change : forall s x o o', inv s -> at_ s x o -> same_but_mesh o o' -> inv (setObj x o' s).
Proof.
  intros s x o o' [N S C P A Mm O U] H E.
  assert (AL : alike s (setObj x o' s)) by (apply (alike_set s x o o' H); apply E).
  constructor; simpl; auto.
  - apply (set_nodup x o' s N).
  - intros y q Q. apply at_set in Q. destruct Q as [[-> ->]|[_ Q]].
    + apply (shape_mesh _ o); auto. apply (shape_alike s); eauto.
    + apply (shape_alike s); eauto.
  - intros y q Q. assert (exists q', at_ s y q') as [q' Q'].
    { apply at_set in Q. destruct Q as [[-> ->]|[_ Q]]; eauto. }
    destruct (C y q' Q') as [l Hl]. exists l. eapply chain_alike; eauto.
  - intros a n IN. destruct (O a n IN) as (y & q & Q & B). destruct (Nat.eq_dec y x).
    + subst. exists x, o'. split; [apply at_set_same|]. assert (q = o) by (unfold at_ in *; congruence). subst q.
      destruct E as (E1 & E2 & E3 & _), B as (B1 & B2 & B3). repeat split; congruence.
    + exists y, q. split; auto. now apply at_set_other.
  - intros y q y' q' a n n' Q Q' B B'.
    assert (T : forall z r k, at_ (setObj x o' s) z r -> ownedBy r a k -> exists r', at_ s z r' /\ ownedBy r' a k).
    { intros z r k R RB. apply at_set in R. destruct R as [[-> ->]|[_ R]]; [|eauto].
      exists o. split; auto. destruct E as (E1 & E2 & E3 & _), RB as (B1 & B2 & B3). repeat split; congruence. }
    destruct (T _ _ _ Q B) as (r & R1 & R2), (T _ _ _ Q' B') as (r' & R1' & R2'). eauto.
Qed.

(** A new allocation for the empty object x *)
Lemma inv_allocate : forall s x o p n k ocx odx m, inv s -> at_ s x o ->
  o_owner o = Some None -> o_data o = Some None -> 0 < n ->
  (forall b j, In (b, j) (s_used s) -> p + n <= b \/ b + j <= p) ->
  inv (setObj x (Obj (Some (Some p)) (Some n) (Some None) (Some ocx) (Some odx) m)
         (State (s_objs s) (fun y => if span p n y then Junk else s_mem s y) ((p, n) :: s_used s) k)).
Proof.
  intros s x o p n k ocx odx m [N S C P A Mm O U] H W D Pn F.
  set (o' := Obj _ _ _ _ _ _). set (s1 := State _ _ _ k).
  assert (H1 : at_ s1 x o) by exact H.
  assert (AL : alike s (setObj x o' s1)).
  { intros y q Q. destruct (alike_set s1 x o o' H1) with (y := y) (o := q) as (q' & Q1 & Q2); auto. exists q'. auto. }
  constructor; simpl; auto.
  - apply (set_nodup x o' s1 N).
  - intros y q Q. apply at_set in Q. destruct Q as [[-> ->]|[_ Q]].
    + eapply Own; try reflexivity. simpl. auto.
    + apply (shape_alike s); simpl; eauto.
  - intros y q Q. assert (exists q', at_ s y q') as [q' Q'].
    { apply at_set in Q. destruct Q as [[-> ->]|[_ Q]]; eauto. }
    destruct (C y q' Q') as [l Hl]. exists l. eapply chain_alike; eauto.
  - intros a j [E|E]; [injection E; intros; subst; auto|eauto].
  - intros a j b i [E|E] [E'|E'].
    + left. congruence.
    + injection E; intros; subst. right. destruct (F _ _ E'); auto.
    + injection E'; intros; subst. right. destruct (F _ _ E); auto.
    + auto.
  - intros z. unfold span. destruct (Z.leb_spec p z), (Z.ltb_spec z (p + n)); simpl.
    + split; [|discriminate]. intros _. exists p, n. split; auto; lia.
    + rewrite Mm. split; intros (a & j & IN & B).
      * exists a, j; auto.
      * destruct IN as [E|IN]; [injection E; intros; subst; lia|exists a, j; auto].
    + rewrite Mm. split; intros (a & j & IN & B).
      * exists a, j; auto.
      * destruct IN as [E|IN]; [injection E; intros; subst; lia|exists a, j; auto].
    + rewrite Mm. split; intros (a & j & IN & B).
      * exists a, j; auto.
      * destruct IN as [E|IN]; [injection E; intros; subst; lia|exists a, j; auto].
  - intros a j [E|IN].
    + injection E; intros; subst. exists x, o'. split; [apply at_set_same|repeat split].
    + destruct (O a j IN) as (y & q & Q & B). exists y, q. split; auto. apply at_set_other; auto.
      intros ->. assert (q = o) by (unfold at_ in *; congruence). subst. destruct B as (_ & B & _). congruence.
  - assert (T : forall z r a j, at_ s z r -> ownedBy r a j -> a <> p).
    { intros z r a j R (B1 & B2 & B3) ->. pose proof (S z r R) as SR. inversion SR; try congruence.
      assert (IN : In (p, j) (s_used s)) by congruence. pose proof (P _ _ IN). destruct (F _ _ IN); lia. }
    intros y q y' q' a j j' Q Q' B B'. apply at_set in Q. apply at_set in Q'.
    destruct Q as [[-> ->]|[_ Q]], Q' as [[-> ->]|[_ Q']]; auto.
    + destruct B as (_ & B & _). injection B as <-. destruct (T _ _ _ _ Q' B'); auto.
    + destruct B' as (_ & B' & _). injection B' as <-. destruct (T _ _ _ _ Q B); auto.
    + eauto.
Qed.

(** The empty object x becomes a slice of the owner y *)
Lemma inv_associate : forall s x o y oy q c b n m, inv s -> at_ s x o ->
  o_owner o = Some None -> o_data o = Some None -> at_ s y oy -> ownedBy oy q c ->
  0 <= b -> 0 < n -> b + n <= c ->
  inv (setObj x (Obj (Some (Some (q + b))) (Some n) (Some (Some y)) (Some c) (Some (Some q)) m) s).
Proof.
  intros s x o y oy q c b n m [N S C P A Mm O U] H W D Hy (Y1 & Y2 & Y3) B0 Pn Bn.
  set (o' := Obj _ _ _ _ _ _).
  assert (NE : y <> x) by (intros ->; assert (oy = o) by (unfold at_ in *; congruence); congruence).
  assert (EX : forall z r, at_ s z r -> exists r', at_ (setObj x o' s) z r').
  { intros z r R. destruct (Nat.eq_dec z x); [subst; exists o'; apply at_set_same|exists r; now apply at_set_other]. }
  constructor; simpl; auto.
  - apply (set_nodup x o' s N).
  - intros z r R. apply at_set in R. destruct R as [[-> ->]|[NZ R]].
    + eapply Slice with (y := y) (e := q); try reflexivity; try lia. apply at_set_other; eauto.
    + pose proof (S z r R) as SR. inversion SR.
      * eapply Empty; eauto.
      * eapply Own; eauto.
      * destruct (EX _ _ H1) as [r' R']. eapply Slice; eauto.
  - assert (CY : chain (setObj x o' s) y []).
    { eapply Root with (o := oy); auto. apply at_set_other; auto. }
    assert (CX : chain (setObj x o' s) x [y]).
    { eapply Link; [apply at_set_same|reflexivity|auto]. }
    assert (T : forall z l, chain s z l -> exists l', chain (setObj x o' s) z l').
    { intros z l Cz. induction Cz as [z r R Rw|z r w l R Rw Cz IH].
      - destruct (Nat.eq_dec z x); [subst; eauto|]. exists []. eapply Root with (o := r); auto. now apply at_set_other.
      - destruct IH as [l' IH]. destruct (Nat.eq_dec z x); [subst; eauto|].
        exists (w :: l'). eapply Link with (o := r); auto. now apply at_set_other. }
    intros z r R. assert (exists r', at_ s z r') as [r' R'].
    { apply at_set in R. destruct R as [[-> ->]|[_ R]]; eauto. }
    destruct (C z r' R') as [l Hl]. eauto.
  - intros a j IN. destruct (O a j IN) as (z & r & R & B). exists z, r. split; auto. apply at_set_other; auto.
    intros ->. assert (r = o) by (unfold at_ in *; congruence). subst. destruct B as (_ & B & _). congruence.
  - intros z r z' r' a j j' R R' B B'. apply at_set in R. apply at_set in R'.
    destruct R as [[-> ->]|[_ R]]; [destruct B as (B & _); discriminate|].
    destruct R' as [[-> ->]|[_ R']]; [destruct B' as (B' & _); discriminate|]. eauto.
Qed.

(** The allocation of the owner x is freed and x is empty *)
Lemma used_find : forall s a n, inv s -> In (a, n) (s_used s) ->
  List.find (fun b => fst b =? a) (s_used s) = Some (a, n).
Proof.
  intros s a n I IN. destruct (List.find (fun b => fst b =? a) (s_used s)) as [[b m]|] eqn:E.
  - apply find_some in E. destruct E as [E1 E2]. simpl in E2. apply Z.eqb_eq in E2. subst b.
    pose proof (i_pos s I _ _ IN). pose proof (i_pos s I _ _ E1).
    destruct (i_apart s I _ _ _ _ IN E1) as [K|K]; [congruence|lia].
  - pose proof (List.find_none _ _ E (a, n) IN) as K. simpl in K. rewrite Z.eqb_refl in K. discriminate.
Qed.
Lemma inv_free : forall s x o a n oc od m, inv s -> at_ s x o -> ownedBy o a n ->
  inv (setObj x (Obj (Some None) (Some 0) (Some None) (Some oc) (Some od) m)
         (State (s_objs s) (fun y => if span a n y then Free else s_mem s y)
            (filter (fun c => negb (fst c =? a)) (s_used s)) (s_clock s))).
Proof.
  intros s x o a n ocx odx m I H OB. pose proof I as [N S C P A Mm O U].
  set (o' := Obj _ _ _ _ _ _). set (s1 := State _ _ _ (s_clock s)).
  assert (AN : In (a, n) (s_used s)).
  { destruct OB as (B1 & B2 & B3). pose proof (S x o H) as SR. inversion SR; congruence. }
  assert (FI : forall b j, In (b, j) (filter (fun c => negb (fst c =? a)) (s_used s)) <-> In (b, j) (s_used s) /\ b <> a).
  { intros b j. rewrite filter_In. simpl. destruct (Z.eqb_spec b a); simpl; intuition congruence. }
  assert (H1 : at_ s1 x o) by exact H.
  assert (AL : alike s (setObj x o' s1)).
  { intros y q Q. destruct (alike_set s1 x o o' H1) with (y := y) (o := q) as (q' & Q1 & Q2); auto.
    - destruct OB as (-> & _). reflexivity.
    - exists q'; auto. }
  constructor; simpl; auto.
  - apply (set_nodup x o' s1 N).
  - intros y q Q. apply at_set in Q. destruct Q as [[-> ->]|[NZ Q]].
    + eapply Empty; reflexivity.
    + apply (shape_alike s); simpl; eauto. intros b j B1 B2 B3 IN. apply FI. split; auto. intros ->.
      assert (y = x) by (apply (U y q x o a j n); auto; repeat split; auto). auto.
  - intros y q Q. assert (exists q', at_ s y q') as [q' Q'].
    { apply at_set in Q. destruct Q as [[-> ->]|[_ Q]]; eauto. }
    destruct (C y q' Q') as [l Hl]. exists l. eapply chain_alike; eauto.
  - intros b j IN. apply FI in IN. destruct IN. eauto.
  - intros b j c i IN IN'. apply FI in IN. apply FI in IN'. destruct IN, IN'. auto.
  - intros z. unfold span. destruct (Z.leb_spec a z), (Z.ltb_spec z (a + n)); simpl.
    + split; [congruence|]. intros (b & j & IN & B). apply FI in IN. destruct IN as [IN NB].
      destruct (A _ _ _ _ IN AN) as [E|E]; [congruence|lia].
    + rewrite Mm. split; intros (b & j & IN & B); exists b, j; split; auto.
      * apply FI. split; auto. intros ->. destruct (A _ _ _ _ IN AN) as [E|E]; [injection E; intros; subst; lia|].
        pose proof (P _ _ IN); pose proof (P _ _ AN); lia.
      * apply FI in IN. tauto.
    + rewrite Mm. split; intros (b & j & IN & B); exists b, j; split; auto.
      * apply FI. split; auto. intros ->. lia.
      * apply FI in IN. tauto.
    + rewrite Mm. split; intros (b & j & IN & B); exists b, j; split; auto.
      * apply FI. split; auto. intros ->. lia.
      * apply FI in IN. tauto.
  - intros b j IN. apply FI in IN. destruct IN as [IN NB]. destruct (O b j IN) as (y & q & Q & B).
    exists y, q. split; auto. apply at_set_other; auto. intros ->.
    assert (q = o) by (unfold at_ in *; congruence). subst. destruct B as (_ & B & _), OB as (_ & OB & _). congruence.
  - intros z r z' r' b j j' R R' B B'. apply at_set in R. apply at_set in R'.
    destruct R as [[-> ->]|[_ R]]; [destruct B as (_ & B & _); discriminate|].
    destruct R' as [[-> ->]|[_ R']]; [destruct B' as (_ & B' & _); discriminate|]. eauto.
Qed.

(** The slice x becomes empty *)
Lemma inv_dissociate : forall s x o y oc od m, inv s -> at_ s x o -> o_owner o = Some (Some y) ->
  inv (setObj x (Obj (Some None) (Some 0) (Some None) (Some oc) (Some od) m) s).
Proof.
  intros s x o y ocx odx m [N S C P A Mm O U] H W.
  set (o' := Obj _ _ _ _ _ _).
  assert (EX : forall z r, at_ s z r -> exists r', at_ (setObj x o' s) z r').
  { intros z r R. destruct (Nat.eq_dec z x); [subst; exists o'; apply at_set_same|exists r; now apply at_set_other]. }
  constructor; simpl; auto.
  - apply (set_nodup x o' s N).
  - intros z r R. apply at_set in R. destruct R as [[-> ->]|[NZ R]].
    + eapply Empty; reflexivity.
    + pose proof (S z r R) as SR. inversion SR.
      * eapply Empty; eauto.
      * eapply Own; eauto.
      * destruct (EX _ _ H1) as [r' R']. eapply Slice; eauto.
  - assert (CX : chain (setObj x o' s) x []) by (eapply Root; [apply at_set_same|reflexivity]).
    assert (T : forall z l, chain s z l -> exists l', chain (setObj x o' s) z l').
    { intros z l Cz. induction Cz as [z r R Rw|z r w l R Rw Cz IH].
      - destruct (Nat.eq_dec z x); [subst; eauto|]. exists []. eapply Root with (o := r); auto. now apply at_set_other.
      - destruct IH as [l' IH]. destruct (Nat.eq_dec z x); [subst; eauto|].
        exists (w :: l'). eapply Link with (o := r); auto. now apply at_set_other. }
    intros z r R. assert (exists r', at_ s z r') as [r' R'].
    { apply at_set in R. destruct R as [[-> ->]|[_ R]]; eauto. }
    destruct (C z r' R') as [l Hl]. eauto.
  - intros a j IN. destruct (O a j IN) as (z & r & R & B). exists z, r. split; auto. apply at_set_other; auto.
    intros ->. assert (r = o) by (unfold at_ in *; congruence). subst. destruct B as (B & _). congruence.
  - intros z r z' r' a j j' R R' B B'. apply at_set in R. apply at_set in R'.
    destruct R as [[-> ->]|[_ R]]; [destruct B as (_ & B & _); discriminate|].
    destruct R' as [[-> ->]|[_ R']]; [destruct B' as (_ & B' & _); discriminate|]. eauto.
Qed.

(** A new empty object *)
Lemma inv_construct : forall s x, inv s -> find (s_objs s) x = None ->
  inv (setObj x (Obj (Some None) (Some 0) (Some None) (Some 0) (Some None) []) s).
Proof.
  intros s x [N S C P A Mm O U] H. set (o' := Obj _ _ _ _ _ _).
  assert (NE : forall y q, at_ s y q -> y <> x) by (unfold at_; intros y q Q ->; congruence).
  assert (AL : alike s (setObj x o' s)).
  { intros y q Q. exists q. split; auto. apply at_set_other; eauto. }
  constructor; simpl; auto.
  - apply (set_nodup x o' s N).
  - intros y q Q. apply at_set in Q. destruct Q as [[-> ->]|[NZ Q]].
    + eapply Empty; reflexivity.
    + apply (shape_alike s); simpl; eauto.
  - intros y q Q. apply at_set in Q. destruct Q as [[-> ->]|[NZ Q]].
    + exists []. eapply Root; [apply at_set_same|reflexivity].
    + destruct (C y q Q) as [l Hl]. exists l. eapply chain_alike; eauto.
  - intros a j IN. destruct (O a j IN) as (z & r & R & B). exists z, r. split; auto. apply at_set_other; eauto.
  - intros z r z' r' a j j' R R' B B'. apply at_set in R. apply at_set in R'.
    destruct R as [[-> ->]|[_ R]]; [destruct B as (_ & B & _); discriminate|].
    destruct R' as [[-> ->]|[_ R']]; [destruct B' as (_ & B' & _); discriminate|]. eauto.
Qed.

(** An object that owns nothing, and that no object is associated with, ends *)
Lemma inv_remove : forall s x, inv s ->
  (forall o, at_ s x o -> forall a n, ~ ownedBy o a n) ->
  (forall y o, at_ s y o -> y <> x -> o_owner o <> Some (Some x)) ->
  inv (State (remove x (s_objs s)) (s_mem s) (s_used s) (s_clock s)).
Proof.
  intros s x I. pose proof I as [N S C P A Mm O U]. intros NO NR. set (s' := State _ _ _ _).
  assert (AT : forall y q, at_ s' y q <-> at_ s y q /\ y <> x).
  { intros y q. unfold at_, s'; simpl. rewrite find_remove. destruct (Nat.eqb_spec x y); intuition congruence. }
  constructor; simpl; auto.
  - now apply remove_nodup.
  - intros y q Q. apply AT in Q. destruct Q as [Q NZ]. pose proof (S y q Q) as SR. inversion SR.
    + eapply Empty; eauto.
    + eapply Own; eauto.
    + eapply Slice with (y := y0); eauto. apply AT. split; eauto. intros ->. apply (NR y q); auto.
  - intros y q Q. apply AT in Q. destruct Q as [Q NZ]. destruct (C y q Q) as [l Hl]. exists l.
    clear q Q. induction Hl as [z r R Rw|z r w l R Rw Cz IH].
    + eapply Root; eauto. apply AT; auto.
    + assert (w <> x) by (intros ->; apply (NR z r); auto). eapply Link; eauto. apply AT; auto.
  - intros a j IN. destruct (O a j IN) as (z & r & R & B). exists z, r. split; auto. apply AT. split; auto.
    intros ->. now apply (NO r R a j).
  - intros z r z' r' a j j' R R' B B'. apply AT in R. apply AT in R'. destruct R, R'. eauto.
Qed.
