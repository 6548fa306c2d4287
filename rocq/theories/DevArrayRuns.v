(** Calls on device arrays keep the invariant *)
From Coq Require Import Reals ZArith List Bool Arith Lia.
From Verif Require Import Base GpuKernel DevArray DevArrayProofs DevArraySpec.
Import ListNotations.
Local Open Scope Z_scope.

Section Calls.
Variable malloc : nat -> list (Z * Z) -> Z -> option Z.
Hypothesis good : good_malloc malloc.

Definition fine {A} (r : outcome A) : Prop := r <> UB /\ r <> NoFuel.
Lemma fine_ok : forall A (a : A), fine (Ok a). Proof. split; discriminate. Qed.
Lemma fine_throw : forall A, fine (@Throw A). Proof. split; discriminate. Qed.
Hint Resolve fine_ok fine_throw : core.

Definition tickOnly (s : state) : state := State (s_objs s) (s_mem s) (s_used s) (S (s_clock s)).

(** allocate *)
Inductive allocSpec (s : state) (x : nat) (o : obj) (n : Z) : state * outcome unit -> Prop :=
| AllocNo : allocSpec s x o n (s, Throw)
| AllocFail : valid s x -> ownerOf o = None -> dataOf o = None -> allocSpec s x o n (tickOnly s, Throw)
| AllocYes p : valid s x -> ownerOf o = None -> dataOf o = None -> 0 < n ->
    malloc (s_clock s) (s_used s) n = Some p ->
    allocSpec s x o n
      (setObj x (Obj (Some (Some p)) (Some n) (Some None) (o_ocap o) (o_odata o) (o_mesh o))
         (State (s_objs s) (fun y => if span p n y then Junk else s_mem s y) ((p, n) :: s_used s) (S (s_clock s))), Ok tt).

Lemma allocate_spec : forall s x o n, inv s -> at_ s x o -> allocSpec s x o n (allocate malloc x n s).
Proof.
  intros s x o n I H. unfold allocate, bindM at 1, ask at 1.
  destruct (valid_dec s x o I H) as [V|V].
  2:{ rewrite (isAllocated_invalid s x o I H V). constructor. }
  rewrite (isAllocated_valid s x o I H V). unfold bindM, assert, ask.
  destruct (notNull (dataOf o)) eqn:D; cbn [negb check]; [constructor|].
  rewrite (owner_at s x o I H). destruct (notNull (ownerOf o)) eqn:W; cbn [negb check]; [constructor|].
  destruct (Z.ltb_spec 0 n); cbn [check]; [|constructor].
  assert (D0 : dataOf o = None) by (destruct (dataOf o); [discriminate|auto]).
  assert (W0 : ownerOf o = None) by (destruct (ownerOf o); [discriminate|auto]).
  unfold cudaMalloc. destruct (malloc (s_clock s) (s_used s) n) as [p|] eqn:E; [|constructor; auto].
  unfold assignTo. cbn [s_objs]. unfold at_ in H. rewrite H. econstructor; eauto.
Qed.

Lemma owner_none : forall s o, shape s o -> ownerOf o = None -> o_owner o = Some None.
Proof. intros s o S E. destruct (shape_det s o S) as (_ & _ & W). congruence. Qed.
Lemma data_none : forall s o, shape s o -> dataOf o = None -> o_data o = Some None.
Proof. intros s o S E. destruct (shape_det s o S) as (W & _ & _). congruence. Qed.
Lemma shape_rest : forall s o, shape s o -> exists oc od, o_ocap o = Some oc /\ o_odata o = Some od.
Proof. intros s o S. inversion S; eauto. Qed.

Lemma inv_tick : forall s, inv s -> inv (tickOnly s).
Proof. intros s I. apply inv_mem_change; auto. tauto. Qed.

Lemma allocate_inv : forall s x o n, inv s -> at_ s x o ->
  inv (fst (allocate malloc x n s)) /\ fine (snd (allocate malloc x n s)).
Proof.
  intros s x o n I H. destruct (allocate_spec s x o n I H); simpl fst; simpl snd.
  - auto.
  - split; auto. now apply inv_tick.
  - split; auto. pose proof (i_shape s I x o H) as S. destruct (shape_rest s o S) as (oc & od & -> & ->).
    apply (inv_allocate s x o); auto.
    + apply (owner_none s); auto.
    + apply (data_none s); auto.
    + intros b j IN. eapply good; eauto.
Qed.

(** associate *)
Inductive assocSpec (s : state) (x y : nat) (o oy : obj) (b n : Z) : state * outcome unit -> Prop :=
| AssocNo : assocSpec s x y o oy b n (s, Throw)
| AssocYes q : valid s x -> valid s y -> dataOf o = None -> ownerOf oy = None -> dataOf oy = Some q ->
    0 <= b -> 0 < n -> b + n <= capOf oy ->
    assocSpec s x y o oy b n
      (setObj x (Obj (Some (Some (q + b))) (Some n) (Some (Some y)) (Some (capOf oy)) (Some (Some q)) (o_mesh o)) s, Ok tt).

Lemma associate_spec : forall s x y o oy b n, inv s -> at_ s x o -> at_ s y oy ->
  assocSpec s x y o oy b n (associate x y b n s).
Proof.
  intros s x y o oy b n I H Hy. unfold associate, bindM at 1, ask at 1.
  destruct (valid_dec s y oy I Hy) as [Vy|Vy].
  2:{ rewrite (isAllocated_invalid s y oy I Hy Vy). constructor. }
  rewrite (isAllocated_valid s y oy I Hy Vy). unfold bindM, assert, ask.
  destruct (dataOf oy) as [q|] eqn:Dy; cbn [notNull negb check]; [|constructor].
  rewrite (isOwner_at s y oy I Hy). rewrite Dy. destruct (ownerOf oy) eqn:Wy; cbn [notNull negb check andb]; [constructor|].
  destruct (Z.leb_spec 0 b); cbn [check]; [|constructor].
  destruct (Z.ltb_spec 0 n); cbn [check]; [|constructor].
  rewrite (capacity_at s y oy I Hy). destruct (Z.leb_spec (b + n) (capOf oy)); cbn [check]; [|constructor].
  destruct (valid_dec s x o I H) as [V|V].
  2:{ rewrite (isAllocated_invalid s x o I H V). constructor. }
  rewrite (isAllocated_valid s x o I H V). destruct (dataOf o) eqn:D; cbn [notNull negb check]; [constructor|].
  rewrite (cArray_valid s y oy I Hy Vy). rewrite Dy. unfold assignTo. unfold at_ in H. rewrite H.
  constructor; auto.
Qed.
Lemma empty_owner : forall s o, shape s o -> dataOf o = None -> o_owner o = Some None.
Proof. intros s o S D. inversion S; auto. unfold dataOf in D. rewrite H1 in D. discriminate. Qed.
Lemma owned_of : forall s o q, shape s o -> ownerOf o = None -> dataOf o = Some q -> ownedBy o q (capOf o).
Proof.
  intros s o q S W D. destruct (shape_det s o S) as (E1 & E2 & E3). repeat split; congruence.
Qed.
Lemma associate_inv : forall s x y o oy b n, inv s -> at_ s x o -> at_ s y oy ->
  inv (fst (associate x y b n s)) /\ fine (snd (associate x y b n s)).
Proof.
  intros s x y o oy b n I H Hy. destruct (associate_spec s x y o oy b n I H Hy); simpl fst; simpl snd.
  - auto.
  - split; auto. pose proof (i_shape s I x o H) as S. pose proof (i_shape s I y oy Hy) as Sy.
    apply (inv_associate s x o y oy); auto.
    + apply (empty_owner s); auto.
    + apply (data_none s); auto.
    + apply (owned_of s); auto.
Qed.

(** deallocate *)
Definition freed (s : state) (a n : Z) : state :=
  State (s_objs s) (fun y => if span a n y then Free else s_mem s y)
    (filter (fun c => negb (fst c =? a)) (s_used s)) (s_clock s).
Inductive deallocSpec (s : state) (x : nat) (o : obj) : state * outcome unit -> Prop :=
| DeallocNo : deallocSpec s x o (s, Throw)
| DeallocYes a n : ownedBy o a n ->
    deallocSpec s x o (setObj x (Obj (Some None) (Some 0) (o_owner o) (o_ocap o) (o_odata o) (o_mesh o)) (freed s a n), Ok tt).
Lemma used_of : forall s x o a n, inv s -> at_ s x o -> ownedBy o a n -> In (a, n) (s_used s).
Proof.
  intros s x o a n I H (B1 & B2 & B3). pose proof (i_shape s I x o H) as S. inversion S; congruence.
Qed.
Lemma cudaFree_owned : forall s x o a n, inv s -> at_ s x o -> ownedBy o a n ->
  cudaFree (Some a) s = (freed s a n, Ok tt).
Proof.
  intros s x o a n I H B. unfold cudaFree. rewrite (used_find s a n I (used_of s x o a n I H B)). reflexivity.
Qed.
Lemma deallocate_spec : forall s x o, inv s -> at_ s x o -> deallocSpec s x o (deallocate x s).
Proof.
  intros s x o I H. unfold deallocate, bindM at 1, ask at 1.
  destruct (valid_dec s x o I H) as [V|V].
  2:{ rewrite (isAllocated_invalid s x o I H V). constructor. }
  rewrite (isAllocated_valid s x o I H V). unfold bindM, assert, ask.
  destruct (dataOf o) as [a|] eqn:D; cbn [notNull negb check]; [|constructor].
  rewrite (isOwner_at s x o I H), D. destruct (ownerOf o) eqn:W; cbn [notNull negb andb check]; [constructor|].
  rewrite (data_at s x o I H), D.
  pose proof (owned_of s o a (i_shape s I x o H) W D) as B.
  rewrite (cudaFree_owned s x o a (capOf o) I H B). unfold assignTo. cbn [freed s_objs].
  unfold at_ in H. rewrite H. constructor. auto.
Qed.
Lemma deallocate_inv : forall s x o, inv s -> at_ s x o ->
  inv (fst (deallocate x s)) /\ fine (snd (deallocate x s)).
Proof.
  intros s x o I H. destruct (deallocate_spec s x o I H); simpl fst; simpl snd; [auto|]. split; auto.
  pose proof (i_shape s I x o H) as S. destruct (shape_rest s o S) as (oc & od & -> & ->).
  destruct H0 as (W & D & C). rewrite W. apply (inv_free s x o a n); auto. repeat split; auto.
Qed.

(** dissociate *)
Inductive dissocSpec (s : state) (x : nat) (o : obj) : state * outcome unit -> Prop :=
| DissocNo : dissocSpec s x o (s, Throw)
| DissocYes y : valid s x -> o_owner o = Some (Some y) ->
    dissocSpec s x o (setObj x (Obj (Some None) (Some 0) (Some None) (Some 0) (Some None) (o_mesh o)) s, Ok tt).
Lemma dissociate_spec : forall s x o, inv s -> at_ s x o -> dissocSpec s x o (dissociate x s).
Proof.
  intros s x o I H. unfold dissociate, bindM at 1, ask at 1. rewrite (isOwner_at s x o I H).
  unfold bindM, assert, ask. destruct (negb (notNull (ownerOf o)) && notNull (dataOf o)) eqn:W; cbn [negb check]; [constructor|].
  destruct (valid_dec s x o I H) as [V|V].
  2:{ rewrite (isAllocated_invalid s x o I H V). constructor. }
  rewrite (isAllocated_valid s x o I H V).
  destruct (dataOf o) as [a|] eqn:D; cbn [notNull negb check]; [|constructor].
  destruct (ownerOf o) as [y|] eqn:E; [|discriminate]. unfold assignTo. pose proof H as H'. unfold at_ in H'. rewrite H'.
  apply (DissocYes s x o y); auto. destruct (shape_det s o (i_shape s I x o H)) as (_ & _ & W'). congruence.
Qed.
Lemma dissociate_inv : forall s x o, inv s -> at_ s x o ->
  inv (fst (dissociate x s)) /\ fine (snd (dissociate x s)).
Proof.
  intros s x o I H. destruct (dissociate_spec s x o I H); simpl fst; simpl snd; [auto|]. split; auto.
  apply (inv_dissociate s x o y); auto.
Qed.

(** Copies *)
Lemma free_dec : forall w : word, w = Free \/ w <> Free.
Proof. destruct w; [left|right|right]; congruence. Qed.
Lemma live_at : forall m p n z, live m p n = true -> p <= z < p + n -> m z <> Free.
Proof.
  intros m p n z L B E. unfold live in L. rewrite forallb_forall in L.
  specialize (L (Z.to_nat (z - p))). rewrite Z2Nat.id in L by lia. replace (p + (z - p)) with z in L by lia.
  rewrite E in L. assert (false = true); [|discriminate]. apply L. apply in_seq. lia.
Qed.
Definition copied (s : state) (p q n : Z) : state :=
  State (s_objs s) (fun y => if span p n y then s_mem s (q + (y - p)) else s_mem s y) (s_used s) (s_clock s).
Lemma copied_inv : forall s p q n, inv s -> live (s_mem s) p n = true -> live (s_mem s) q n = true ->
  inv (copied s p q n).
Proof.
  intros s p q n I L L'. apply inv_mem_change; auto. intros z. unfold span.
  destruct (Z.leb_spec p z), (Z.ltb_spec z (p + n)); simpl; try tauto.
  pose proof (live_at _ _ _ z L). pose proof (live_at _ _ _ (q + (z - p)) L'). split; intros; exfalso; lia || (apply H2; auto; lia) || (apply H1; auto; lia).
Qed.
Lemma copyDD_spec : forall s p q n, live (s_mem s) p n = true -> live (s_mem s) q n = true ->
  p + n <= q \/ q + n <= p -> copyDD (Some p) (Some q) n s = (copied s p q n, Ok tt).
Proof.
  intros s p q n L L' A. unfold copyDD. rewrite L, L'. unfold apart.
  replace ((p + n <=? q) || (q + n <=? p)) with true; [reflexivity|].
  symmetry. apply orb_true_iff. rewrite !Z.leb_le. auto.
Qed.
Definition uploaded (s : state) (p n : Z) (h : list R) : state :=
  State (s_objs s) (fun y => if span p n y then Val (nth (Z.to_nat (y - p)) h 0%R) else s_mem s y) (s_used s) (s_clock s).
Lemma uploaded_inv : forall s p n h, inv s -> live (s_mem s) p n = true -> inv (uploaded s p n h).
Proof.
  intros s p n h I L. apply inv_mem_change; auto. intros z. unfold span.
  destruct (Z.leb_spec p z), (Z.ltb_spec z (p + n)); simpl; try tauto.
  pose proof (live_at _ _ _ z L). split; intros; [discriminate|]. exfalso. apply H1; auto; lia.
Qed.
Lemma copyHD_spec : forall s p n h, live (s_mem s) p n = true -> n = Z.of_nat (length h) ->
  copyHD (Some p) h n s = (uploaded s p n h, Ok tt).
Proof.
  intros s p n h L E. unfold copyHD. rewrite L. replace (n <=? Z.of_nat (length h)) with true; [reflexivity|].
  symmetry. apply Z.leb_le. lia.
Qed.

(** Validity of y does not depend on an empty object x *)
Lemma valid_other : forall s s' x, (forall y o, at_ s y o -> y <> x -> at_ s' y o) ->
  (forall o, at_ s x o -> o_data o = Some None) ->
  forall y, valid s y -> y <> x -> valid s' y.
Proof.
  intros s s' x A E y V. induction V as [y o H W|y o w o' e n H W V IH H' D' OD C' OC]; intros NE.
  - eapply VRoot; eauto.
  - assert (w <> x) by (intros ->; specialize (E o' H'); congruence). eapply VLink; eauto.
Qed.

Inductive assignSpec (s : state) (x y : nat) (o oy : obj) : state * outcome unit -> Prop :=
| AssignSelf : x = y -> assignSpec s x y o oy (s, Ok tt)
| AssignNo : assignSpec s x y o oy (s, Throw)
| AssignFail : assignSpec s x y o oy (tickOnly s, Throw)
| AssignCopy p q : x <> y -> valid s x -> valid s y -> dataOf o = Some p -> dataOf oy = Some q -> capOf o = capOf oy ->
    assignSpec s x y o oy (copied s p q (capOf oy), Ok tt)
| AssignNew p q : x <> y -> valid s x -> valid s y -> dataOf o = None -> dataOf oy = Some q ->
    malloc (s_clock s) (s_used s) (capOf oy) = Some p ->
    (p + capOf oy <= q \/ q + capOf oy <= p) ->
    assignSpec s x y o oy
      (copied (setObj x (Obj (Some (Some p)) (Some (capOf oy)) (Some None) (o_ocap o) (o_odata o) (o_mesh o))
         (State (s_objs s) (fun z => if span p (capOf oy) z then Junk else s_mem s z)
            ((p, capOf oy) :: s_used s) (S (s_clock s)))) p q (capOf oy), Ok tt).

Lemma assign_spec : forall s x y o oy, inv s -> at_ s x o -> at_ s y oy ->
  (x <> y -> forall p q, dataOf o = Some p -> dataOf oy = Some q -> capOf o = capOf oy ->
     p + capOf oy <= q \/ q + capOf oy <= p) ->
  assignSpec s x y o oy (assign malloc x y s).
Proof.
  intros s x y o oy I H Hy AP. unfold assign. destruct (Nat.eqb_spec x y); [constructor; auto|].
  unfold bindM at 1, ask at 1. destruct (valid_dec s y oy I Hy) as [Vy|Vy].
  2:{ rewrite (isAllocated_invalid s y oy I Hy Vy). constructor. }
  rewrite (isAllocated_valid s y oy I Hy Vy). unfold bindM at 1, assert at 1.
  destruct (dataOf oy) as [q|] eqn:Dy; cbn [notNull check]; [|constructor].
  unfold bindM at 1, ask at 1. destruct (valid_dec s x o I H) as [V|V].
  2:{ rewrite (isAllocated_invalid s x o I H V). constructor. }
  rewrite (isAllocated_valid s x o I H V).
  destruct (dataOf o) as [p|] eqn:D; cbn [notNull].
  - unfold bindM, ask, ret, assert. rewrite (capacity_at s x o I H), (capacity_at s y oy I Hy).
    destruct (Z.eqb_spec (capOf o) (capOf oy)) as [E|E]; cbn [check]; [|constructor].
    rewrite (cArray_valid s y oy I Hy Vy), Dy, (data_at s x o I H), D.
    rewrite copyDD_spec; [rewrite E; constructor; auto| | |].
    + apply (valid_live s x o p); auto.
    + rewrite E. apply (valid_live s y oy q); auto.
    + rewrite E. auto.
  - unfold bindM at 1. unfold bindM at 1. unfold ask at 1. rewrite (capacity_at s y oy I Hy).
    destruct (valid_inside s y I Vy oy q Hy Dy) as (Pc & a & m & IN & A1 & A2).
    destruct (allocate_inv s x o (capOf oy) I H) as [I1 _].
    destruct (allocate_spec s x o (capOf oy) I H) as [| |p _ W0 D0 P0 MA]; [constructor|constructor|].
    simpl fst in I1. set (s1 := setObj _ _ _) in *. set (o1 := Obj _ _ _ _ _ _) in *.
    assert (X1 : at_ s1 x o1) by apply at_set_same.
    assert (Hy1 : at_ s1 y oy) by (apply at_set_other; auto).
    assert (V1 : valid s1 x) by (eapply VRoot; [exact X1|reflexivity]).
    assert (Vy1 : valid s1 y).
    { apply (valid_other s s1 x); auto.
      - intros z r Z NE. apply at_set_other; auto.
      - intros r R. assert (r = o) by (unfold at_ in *; congruence). subst. apply (data_none s); auto. now apply (i_shape s I x). }
    assert (F : p + capOf oy <= q \/ q + capOf oy <= p).
    { destruct (good _ _ _ _ Pc MA _ _ IN); lia. }
    unfold bindM, ask, assert. rewrite (capacity_at s1 x o1 I1 X1), (capacity_at s1 y oy I1 Hy1).
    replace (capOf o1) with (capOf oy) by reflexivity. rewrite Z.eqb_refl. cbn [check].
    rewrite (cArray_valid s1 y oy I1 Hy1 Vy1), Dy, (data_at s1 x o1 I1 X1).
    replace (dataOf o1) with (Some p) by reflexivity. rewrite copyDD_spec; auto.
    + apply AssignNew; auto.
    + apply (valid_live s1 x o1 p I1 V1 X1 eq_refl).
    + apply (valid_live s1 y oy q); auto.
Qed.
Lemma assign_inv : forall s x y o oy, inv s -> at_ s x o -> at_ s y oy ->
  (x <> y -> forall p q, dataOf o = Some p -> dataOf oy = Some q -> capOf o = capOf oy ->
     p + capOf oy <= q \/ q + capOf oy <= p) ->
  inv (fst (assign malloc x y s)) /\ fine (snd (assign malloc x y s)).
Proof.
  intros s x y o oy I H Hy AP. destruct (assign_spec s x y o oy I H Hy AP); simpl fst; simpl snd.
  - auto.
  - auto.
  - split; auto. now apply inv_tick.
  - split; auto. apply copied_inv; auto; [rewrite <- H5; apply (valid_live s x o p)|apply (valid_live s y oy q)]; auto.
  - split; auto.
    destruct (valid_inside s y I H2 oy q Hy H4) as (Pc & a & m & IN & A1 & A2).
    pose proof (i_shape s I x o H) as S. destruct (shape_rest s o S) as (oc & od & -> & ->).
    set (o1 := Obj _ _ _ _ _ _). set (s1 := setObj _ _ _).
    assert (I1 : inv s1).
    { apply (inv_allocate s x o); auto.
      - apply (empty_owner s); auto.
      - apply (data_none s); auto.
      - intros b j INb. eapply good; eauto. }
    assert (H1' : at_ s1 x o1) by apply at_set_same.
    assert (Hy1 : at_ s1 y oy) by (apply at_set_other; auto).
    assert (V1 : valid s1 x) by (eapply VRoot; [exact H1'|reflexivity]).
    assert (Vy1 : valid s1 y).
    { apply (valid_other s s1 x); auto.
      - intros z r Z NE. apply at_set_other; auto.
      - intros r R. assert (r = o) by (unfold at_ in *; congruence). subst. apply (data_none s); auto. }
    apply copied_inv; auto.
    + apply (valid_live s1 x o1 p I1 V1 H1' eq_refl).
    + apply (valid_live s1 y oy q); auto.
Qed.

(** operator = (HostDArray) *)
Inductive hostSpec (s : state) (x : nat) (o : obj) (l : list R) : state * outcome unit -> Prop :=
| HostNo : hostSpec s x o l (s, Throw)
| HostFail : hostSpec s x o l (tickOnly s, Throw)
| HostCopy p : valid s x -> dataOf o = Some p -> capOf o = Z.of_nat (length l) ->
    hostSpec s x o l (uploaded s p (capOf o) l, Ok tt)
| HostNew p : valid s x -> dataOf o = None -> 0 < Z.of_nat (length l) ->
    malloc (s_clock s) (s_used s) (Z.of_nat (length l)) = Some p ->
    hostSpec s x o l
      (uploaded (setObj x (Obj (Some (Some p)) (Some (Z.of_nat (length l))) (Some None) (o_ocap o) (o_odata o) (o_mesh o))
         (State (s_objs s) (fun z => if span p (Z.of_nat (length l)) z then Junk else s_mem s z)
            ((p, Z.of_nat (length l)) :: s_used s) (S (s_clock s)))) p (Z.of_nat (length l)) l, Ok tt).
Lemma assignHost_spec : forall s x o l, inv s -> at_ s x o -> hostSpec s x o l (assignHost malloc x (Some l) s).
Proof.
  intros s x o l I H. unfold assignHost, bindM at 1, ask at 1.
  destruct (valid_dec s x o I H) as [V|V].
  2:{ rewrite (isAllocated_invalid s x o I H V). constructor. }
  rewrite (isAllocated_valid s x o I H V). destruct (dataOf o) as [p|] eqn:D; cbn [notNull].
  - unfold bindM, ask, ret, assert. rewrite (capacity_at s x o I H).
    destruct (Z.eqb_spec (capOf o) (Z.of_nat (length l))); cbn [check]; [|constructor].
    rewrite (data_at s x o I H), D. rewrite copyHD_spec; auto; [constructor; auto|].
    apply (valid_live s x o p); auto.
  - unfold bindM at 1.
    destruct (allocate_inv s x o (Z.of_nat (length l)) I H) as [I1 _].
    destruct (allocate_spec s x o (Z.of_nat (length l)) I H) as [| |p _ W0 D0 P0 MA]; [constructor|constructor|].
    simpl fst in I1. set (s1 := setObj _ _ _) in *. set (o1 := Obj _ _ _ _ _ _) in *.
    assert (X1 : at_ s1 x o1) by apply at_set_same.
    assert (V1 : valid s1 x) by (eapply VRoot; [exact X1|reflexivity]).
    unfold bindM, ask, assert. rewrite (capacity_at s1 x o1 I1 X1).
    replace (capOf o1) with (Z.of_nat (length l)) by reflexivity. rewrite Z.eqb_refl. cbn [check].
    rewrite (data_at s1 x o1 I1 X1). replace (dataOf o1) with (Some p) by reflexivity.
    rewrite copyHD_spec; auto; [apply HostNew; auto|].
    apply (valid_live s1 x o1 p I1 V1 X1 eq_refl).
Qed.
Lemma assignHost_inv : forall s x o h, inv s -> at_ s x o ->
  inv (fst (assignHost malloc x h s)) /\ fine (snd (assignHost malloc x h s)).
Proof.
  intros s x o [l|] I H; [|simpl; auto].
  destruct (assignHost_spec s x o l I H); simpl fst; simpl snd; auto.
  - split; auto. now apply inv_tick.
  - split; auto. apply uploaded_inv; auto. apply (valid_live s x o p); auto.
  - split; auto. pose proof (i_shape s I x o H) as S. destruct (shape_rest s o S) as (oc & od & -> & ->).
    set (o1 := Obj _ _ _ _ _ _). set (s1 := setObj _ _ _).
    assert (I1 : inv s1).
    { apply (inv_allocate s x o); auto.
      - apply (empty_owner s); auto.
      - apply (data_none s); auto.
      - intros b j INb. eapply good; eauto. }
    assert (X1 : at_ s1 x o1) by apply at_set_same.
    assert (V1 : valid s1 x) by (eapply VRoot; [exact X1|reflexivity]).
    apply uploaded_inv; auto. apply (valid_live s1 x o1 p I1 V1 X1 eq_refl).
Qed.

(** Transfers to the host *)
Lemma live_part : forall m p n q k, live m p n = true -> p <= q -> q + k <= p + n -> live m q k = true.
Proof.
  intros m p n q k L A B. unfold live. apply forallb_forall. intros i Hi. apply in_seq in Hi.
  pose proof (live_at m p n (q + Z.of_nat i) L). destruct (m (q + Z.of_nat i)); auto. exfalso. apply H; auto. lia.
Qed.
Definition elements (s : state) (d n : Z) : list word :=
  map (fun i => s_mem s (d + Z.of_nat i)) (seq 0 (Z.to_nat n)).
Inductive toHostSpec (s : state) (x : nat) (o : obj) : state * outcome (list word) -> Prop :=
| ToHostNo : toHostSpec s x o (s, Throw)
| ToHostYes d : valid s x -> dataOf o = Some d -> toHostSpec s x o (s, Ok (elements s d (capOf o))).
Lemma toHost_spec : forall s x o hc, inv s -> at_ s x o -> toHostSpec s x o (toHost x hc s).
Proof.
  intros s x o hc I H. unfold toHost, bindM at 1, ask at 1.
  destruct (valid_dec s x o I H) as [V|V].
  2:{ rewrite (isAllocated_invalid s x o I H V). constructor. }
  rewrite (isAllocated_valid s x o I H V). unfold bindM, ask, assert.
  destruct (dataOf o) as [p|] eqn:D; cbn [notNull check]; [|constructor].
  rewrite (capacity_at s x o I H). destruct (Z.eqb_spec (match hc with Some k => k | None => capOf o end) (capOf o)) as [E|E]; cbn [check]; [|constructor].
  rewrite E. rewrite (cArray_valid s x o I H V), D. unfold copyDH.
  rewrite (valid_live s x o p I V H D). constructor; auto.
Qed.
Inductive sliceSpec (s : state) (x : nat) (o : obj) (h b : Z) : state * outcome (list word) -> Prop :=
| SliceNo : sliceSpec s x o h b (s, Throw)
| SliceYes d : valid s x -> dataOf o = Some d -> h + b <= capOf o -> sliceSpec s x o h b (s, Ok (elements s (d + b) h)).
Lemma copySlice_spec : forall s x o h b, inv s -> at_ s x o -> 0 <= b -> sliceSpec s x o h b (copySlice x (Some h) b s).
Proof.
  intros s x o h b I H B. unfold copySlice, bindM at 1, ask at 1.
  destruct (valid_dec s x o I H) as [V|V].
  2:{ rewrite (isAllocated_invalid s x o I H V). constructor. }
  rewrite (isAllocated_valid s x o I H V). unfold bindM, ask, assert.
  destruct (dataOf o) as [p|] eqn:D; cbn [notNull check]; [|constructor].
  rewrite (capacity_at s x o I H). destruct (Z.leb_spec (h + b) (capOf o)) as [E|E]; cbn [check]; [|constructor].
  rewrite (cArray_valid s x o I H V), D. unfold copyDH.
  rewrite (live_part _ p (capOf o)); try lia; [constructor; auto|]. apply (valid_live s x o p); auto.
Qed.

(** Constructors and destructor *)
Lemma constructSize_inv : forall s x n, inv s -> find (s_objs s) x = None ->
  inv (fst (constructSize malloc x n s)) /\ fine (snd (constructSize malloc x n s)).
Proof.
  intros s x n I H. unfold constructSize, bindM, construct. rewrite H. unfold orNone.
  pose proof (inv_construct s x I H) as I1. set (o1 := Obj _ _ _ _ _ _) in *. set (s1 := setObj x o1 s) in *.
  assert (X1 : at_ s1 x o1) by apply at_set_same.
  assert (RM : forall s2, s_objs s2 = s_objs s1 -> inv s2 -> inv (State (remove x (s_objs s2)) (s_mem s2) (s_used s2) (s_clock s2))).
  { intros s2 E I2. apply inv_remove; auto.
    - unfold at_. rewrite E. intros o Ho. assert (o = o1) by (unfold at_ in X1; congruence). subst o.
      intros a k (_ & B & _). discriminate.
    - unfold at_. rewrite E. intros y o Ho NE. unfold s1 in Ho. fold (at_ (setObj x o1 s) y o) in Ho.
      apply at_set in Ho. destruct Ho as [[-> _]|[_ Ho]]; [congruence|].
      intros W. pose proof (i_shape s I y o Ho) as S. inversion S; unfold at_ in *; congruence. }
  destruct (allocate_inv s1 x o1 n I1 X1) as [I2 F2].
  destruct (allocate_spec s1 x o1 n I1 X1); simpl fst in *; simpl snd in *; split; auto.
  - apply (RM s1); auto.
  - apply (RM (tickOnly s1)); auto.
Qed.

Inductive destroySpec (s : state) (x : nat) (o : obj) : state * outcome unit -> Prop :=
| DestroyBad : ~ valid s x -> destroySpec s x o (s, Throw)
| DestroyOwner a n : ownedBy o a n ->
    destroySpec s x o (State (remove x (s_objs s)) (s_mem (freed s a n)) (s_used (freed s a n)) (s_clock s), Ok tt)
| DestroyOther : valid s x -> (forall a n, ~ ownedBy o a n) ->
    destroySpec s x o (State (remove x (s_objs s)) (s_mem s) (s_used s) (s_clock s), Ok tt).
Lemma destroy_spec : forall s x o, inv s -> at_ s x o -> destroySpec s x o (destroy x s).
Proof.
  intros s x o I H. unfold destroy, bindM at 1, ask at 1.
  destruct (valid_dec s x o I H) as [V|V].
  2:{ rewrite (isAllocated_invalid s x o I H V). constructor; auto. }
  rewrite (isAllocated_valid s x o I H V). unfold bindM, ask, ret.
  destruct (dataOf o) as [p|] eqn:D; cbn [notNull].
  - rewrite (isOwner_at s x o I H), D. destruct (ownerOf o) as [y|] eqn:W; cbn [notNull negb andb].
    * apply DestroyOther; auto. intros a n (B & _). unfold ownerOf in W. rewrite B in W. discriminate.
    * rewrite (data_at s x o I H), D.
      pose proof (owned_of s o p (i_shape s I x o H) W D) as B.
      rewrite (cudaFree_owned s x o p (capOf o) I H B). apply (DestroyOwner s x o p (capOf o)). auto.
  - apply DestroyOther; auto. intros a n (_ & B & _). unfold dataOf in D. rewrite B in D. discriminate.
Qed.
Lemma remove_set : forall x o l, remove x ((x, o) :: remove x l) = remove x l.
Proof.
  intros. simpl. rewrite Nat.eqb_refl. simpl. apply remove_absent. rewrite find_remove, Nat.eqb_refl. auto.
Qed.
Lemma destroy_inv : forall s x o, inv s -> at_ s x o ->
  (forall y o', at_ s y o' -> o_owner o' <> Some (Some x)) ->
  inv (fst (destroy x s)) /\ fine (snd (destroy x s)).
Proof.
  intros s x o I H NR. destruct (destroy_spec s x o I H) as [| a n B|V B]; simpl fst; simpl snd; split; auto.
  - pose proof (inv_free s x o a n 0 None [] I H B) as I1.
    set (o1 := Obj _ _ _ _ _ _) in I1. fold (freed s a n) in I1.
    assert (I2 : inv (State (remove x (s_objs (setObj x o1 (freed s a n)))) (s_mem (freed s a n)) (s_used (freed s a n)) (s_clock s))).
    { apply (inv_remove (setObj x o1 (freed s a n)) x I1).
      - intros o' Ho. apply at_set in Ho. destruct Ho as [[_ ->]|[C _]]; [|congruence]. intros b k (_ & Q & _). discriminate.
      - intros y o' Ho NE. apply at_set in Ho. destruct Ho as [[C _]|[_ Ho]]; [congruence|]. eapply NR; eauto. }
    unfold setObj in I2. cbn [s_objs] in I2. rewrite remove_set in I2. exact I2.
  - apply inv_remove; auto.
    + intros o' Ho. assert (o' = o) by (unfold at_ in *; congruence). subst. auto.
    + intros y o' Ho _. eapply NR; eauto.
Qed.

(** RField *)
Lemma set_set : forall x o1 o2 s, setObj x o2 (setObj x o1 s) = setObj x o2 s.
Proof. intros. unfold setObj. cbn [s_objs s_mem s_used s_clock]. now rewrite remove_set. Qed.
Lemma skipn_done : forall (l : list Z) r, skipn (S (length l)) (l ++ r) = skipn 1 r.
Proof. induction l as [|a l IH]; intros r; [reflexivity|]. simpl app. simpl length. rewrite <- IH. reflexivity. Qed.
Lemma storeMesh_spec : forall l x done size s o rest, at_ s x o -> o_mesh o = done ++ rest ->
  exists s' r, storeMesh x done l size s = (s', r) /\ (s' = s \/ exists m, s' = setObj x (setMesh m o) s /\ (length m <= Nat.max (length (o_mesh o)) (length done + length l))%nat) /\
    (r = Throw \/
     r = Ok (fold_left Z.mul l size) /\ Forall (fun d => 0 < d) l /\
     (l <> [] -> s' = setObj x (setMesh (done ++ l ++ skipn (length l) rest) o) s)).
Proof.
  induction l as [|d l IH]; intros x done size s o rest H E; cbn [storeMesh].
  - exists s, (Ok size). split; auto. split; auto. right. split; auto. split; auto. congruence.
  - unfold bindM at 1, assert at 1. destruct (Z.ltb_spec 0 d); cbn [check].
    2:{ exists s, Throw. auto. }
    unfold bindM at 1, assignTo. pose proof H as H'. unfold at_ in H'. rewrite H'.
    set (o1 := setMesh _ o).
    assert (E1 : o_mesh o1 = (done ++ [d]) ++ skipn 1 rest).
    { unfold o1, setMesh. cbn [o_mesh]. rewrite E, skipn_done. reflexivity. }
    destruct (IH x (done ++ [d]) (size * d) (setObj x o1 s) o1 (skipn 1 rest)) as (s' & r & K1 & K2 & K3); auto.
    { apply at_set_same. }
    exists s', r. rewrite K1. split; auto. split.
    + right. assert (LM : (length (o_mesh o1) <= Nat.max (length (o_mesh o)) (length done + length (d :: l)))%nat).
      { rewrite E1, E, !app_length. simpl. destruct rest; simpl; lia. }
      destruct K2 as [->|[m [-> LM']]]; [exists (o_mesh o1); split; [reflexivity|auto]|].
      exists m. rewrite set_set. split; [reflexivity|]. rewrite app_length in LM'. simpl in LM', LM |- *. lia.
    + destruct K3 as [->|(-> & F & G)]; auto. right. split; auto. split; auto. intros _.
      destruct l as [|d' l].
      * assert (ES : s' = setObj x o1 s) by (cbn [storeMesh] in K1; unfold ret in K1; congruence).
        rewrite ES. f_equal. unfold o1, setMesh. f_equal. rewrite E, skipn_done. simpl. rewrite <- app_assoc. reflexivity.
      * rewrite G by congruence. rewrite set_set. f_equal. unfold setMesh, o1. cbn [o_data o_cap o_owner o_ocap o_odata setMesh]. f_equal.
        rewrite <- app_assoc. simpl. destruct rest; simpl; rewrite ?skipn_nil; reflexivity.
Qed.
Lemma same_mesh : forall o m, same_but_mesh o (setMesh m o).
Proof. intros. repeat split. Qed.
Lemma storeMesh_inv : forall l x s o, inv s -> at_ s x o ->
  exists s' o' r, storeMesh x [] l 1 s = (s', r) /\ inv s' /\ at_ s' x o' /\ same_but_mesh o o' /\ fine r /\
    (forall y oy, at_ s y oy -> y <> x -> at_ s' y oy).
Proof.
  intros l x s o I H. destruct (storeMesh_spec l x [] 1 s o (o_mesh o) H eq_refl) as (s' & r & E & K2 & K3).
  assert (F : fine r) by (destruct K3 as [->|(-> & _)]; auto).
  destruct K2 as [->|[m [-> _]]].
  - exists s, o, r. split; auto. split; auto. split; auto. split; [repeat split|]. split; auto.
  - exists (setObj x (setMesh m o) s), (setMesh m o), r. split; auto. split; [|split; [apply at_set_same|]].
    + apply (inv_mesh_change s x o); auto. apply same_mesh.
    + split; [apply same_mesh|]. split; auto. intros. now apply at_set_other.
Qed.
Lemma allocateR_inv : forall s x o l, inv s -> at_ s x o ->
  inv (fst (allocateR malloc x l s)) /\ fine (snd (allocateR malloc x l s)).
Proof.
  intros s x o l I H. destruct (storeMesh_inv l x s o I H) as (s' & o' & r & E & I' & H' & _ & F & _).
  unfold allocateR, bindM. rewrite E. destruct r; [apply (allocate_inv s' x o'); auto|split; auto; split; discriminate|destruct F; congruence|destruct F; congruence].
Qed.
Lemma associateR_inv : forall s x y o oy b l, inv s -> at_ s x o -> at_ s y oy ->
  inv (fst (associateR x y b l s)) /\ fine (snd (associateR x y b l s)).
Proof.
  intros s x y o oy b l I H Hy. destruct (storeMesh_inv l x s o I H) as (s' & o' & r & E & I' & H' & _ & F & K).
  unfold associateR, bindM. rewrite E. destruct r; [|split; auto; split; discriminate|destruct F; congruence|destruct F; congruence].
  assert (exists oy', at_ s' y oy') as [oy' Y'].
  { destruct (Nat.eq_dec y x); [subst; eauto|exists oy; auto]. }
  eapply associate_inv; eauto.
Qed.
Lemma copied_at : forall s p q n x o, at_ (copied s p q n) x o <-> at_ s x o.
Proof. reflexivity. Qed.
Lemma assignR_inv : forall s x y o oy, inv s -> at_ s x o -> at_ s y oy ->
  (x <> y -> forall p q, dataOf o = Some p -> dataOf oy = Some q -> capOf o = capOf oy ->
     p + capOf oy <= q \/ q + capOf oy <= p) ->
  inv (fst (assignR malloc x y s)) /\ fine (snd (assignR malloc x y s)).
Proof.
  intros s x y o oy I H Hy AP. destruct (assign_inv s x y o oy I H Hy AP) as [I1 F1].
  assert (K : forall s', s' = fst (assign malloc x y s) -> exists o' oy', at_ s' x o' /\ at_ s' y oy').
  { intros s' ->. destruct (assign_spec s x y o oy I H Hy AP); simpl fst; eauto.
    unfold at_, copied; cbn [s_objs]. eexists; exists oy. split; [apply at_set_same|].
    apply at_set_other; auto. }
  destruct (K _ eq_refl) as (o' & oy' & H' & Hy'). unfold assignR, bindM, ask.
  destruct (assign malloc x y s) as [s' r]. simpl fst in *; simpl snd in *.
  destruct r; [|split; auto; split; discriminate|destruct F1; congruence|destruct F1; congruence].
  rewrite (object_at _ _ _ Hy'). cbn [bind]. unfold assignTo. unfold at_ in H'. rewrite H'. split; [|simpl; auto].
  apply (inv_mesh_change s' x o'); auto. apply same_mesh.
Qed.
Lemma assignHostR_inv : forall s x o h, inv s -> at_ s x o ->
  inv (fst (assignHostR malloc x h s)) /\ fine (snd (assignHostR malloc x h s)).
Proof.
  intros s x o [l|] I H; [|split; [auto|split; discriminate]]. unfold assignHostR, bindM, ask, assert.
  destruct (valid_dec s x o I H) as [V|V].
  2:{ rewrite (isAllocated_invalid s x o I H V). split; [auto|split; discriminate]. }
  rewrite (isAllocated_valid s x o I H V).
  destruct (notNull (dataOf o)); cbn [check]; [|split; [auto|split; discriminate]]. rewrite (capacity_at s x o I H).
  destruct (capOf o =? Z.of_nat (length l)); cbn [check]; [|split; [auto|split; discriminate]]. apply (assignHost_inv s x o (Some l)); auto.
Qed.

(** Every legal call *)
Definition good_answer (r : answer) : Prop := r <> Undefined /\ r <> Deep.
Lemma said_fine : forall A (f : A -> value) r, fine r -> good_answer (said f r).
Proof. intros A f r [F1 F2]. destruct r; split; simpl; congruence. Qed.
Lemma with_fine : forall A (f : A -> value) (e : M A) s, inv (fst (e s)) -> fine (snd (e s)) ->
  inv (fst (with_ f e s)) /\ good_answer (snd (with_ f e s)).
Proof. intros. split; auto. now apply said_fine. Qed.

Theorem execute_inv : forall c s, inv s -> legal s c ->
  inv (fst (execute malloc c s)) /\ good_answer (snd (execute malloc c s)).
Proof.
  intros c s I L.
  assert (NT : forall x, ~ there s x -> find (s_objs s) x = None).
  { intros x N. destruct (find (s_objs s) x) eqn:E; auto. destruct N. exists o; auto. }
  destruct c; cbn [execute]; cbn [legal] in L; try contradiction.
  - apply with_fine; unfold construct; rewrite (NT _ L); simpl; auto. apply inv_construct; auto.
  - destruct (constructSize_inv s x n I (NT _ L)). now apply with_fine.
  - destruct L as [[o H] NR]. destruct (destroy_inv s x o I H) as [I1 F1].
    { intros y o' Ho W. apply (NR y). exists o'; auto. }
    unfold unit_, with_. destruct (destroy x s) as [s' r]. simpl fst in *; simpl snd in *.
    destruct r; simpl; split; auto; split; try discriminate; destruct F1; congruence.
  - destruct L as [o H]. destruct (allocate_inv s x o n I H). now apply with_fine.
  - destruct L as [[o H] [oy Hy]]. destruct (associate_inv s x y o oy b n I H Hy). now apply with_fine.
  - destruct L as [o H]. destruct (deallocate_inv s x o I H). now apply with_fine.
  - destruct L as [o H]. destruct (dissociate_inv s x o I H). now apply with_fine.
  - destruct L as ([o H] & [oy Hy] & AP). destruct (assign_inv s x y o oy I H Hy) as [I1 F1].
    { intros NE p q D Dy E. destruct (shape_det s o (i_shape s I x o H)) as (D1 & D2 & _).
      destruct (shape_det s oy (i_shape s I y oy Hy)) as (Y1 & Y2 & _).
      apply AP; auto; eexists; repeat split; eauto; congruence. }
    now apply with_fine.
  - destruct L as [o H]. destruct (assignHost_inv s x o h I H). now apply with_fine.
  - destruct L as [o H]. apply with_fine; destruct (toHost_spec s x o hc I H); simpl; auto.
  - destruct L as [[o H] B]. destruct hc as [h|].
    + apply with_fine; destruct (copySlice_spec s x o h b I H B); simpl; auto.
    + apply with_fine; unfold copySlice, bindM, ask;
      (destruct (valid_dec s x o I H) as [V|V]; [rewrite (isAllocated_valid s x o I H V); destruct (notNull (dataOf o))|rewrite (isAllocated_invalid s x o I H V)]); simpl; auto.
  - destruct L as [o H]. apply with_fine; simpl; auto. rewrite (capacity_at s x o I H). auto.
  - destruct L as [o H]. apply with_fine; simpl; auto.
    destruct (valid_dec s x o I H) as [V|V]; [rewrite (isAllocated_valid s x o I H V)|rewrite (isAllocated_invalid s x o I H V)]; auto.
  - destruct L as [o H]. apply with_fine; simpl; auto. rewrite (isOwner_at s x o I H). auto.
  - destruct L as [o H]. apply with_fine; simpl; auto.
    destruct (valid_dec s x o I H) as [V|V]; [rewrite (cArray_valid s x o I H V)|rewrite (cArray_invalid s x o I H V)]; auto.
  - destruct L as [o H]. destruct (allocateR_inv s x o dims I H). now apply with_fine.
  - destruct L as [[o H] [oy Hy]]. destruct (associateR_inv s x y o oy b dims I H Hy). now apply with_fine.
  - destruct L as ([o H] & [oy Hy] & AP). destruct (assignR_inv s x y o oy I H Hy) as [I1 F1].
    { intros NE p q D Dy E. destruct (shape_det s o (i_shape s I x o H)) as (D1 & D2 & _).
      destruct (shape_det s oy (i_shape s I y oy Hy)) as (Y1 & Y2 & _).
      apply AP; auto; eexists; repeat split; eauto; congruence. }
    now apply with_fine.
  - destruct L as [o H]. destruct (assignHostR_inv s x o h I H). now apply with_fine.
Qed.

Theorem program_inv : forall l s, inv s -> legal_program malloc s l ->
  inv (fst (program malloc l s)) /\ good_answer (snd (program malloc l s)).
Proof.
  induction l as [|c l IH]; intros s I L.
  - simpl. split; auto. split; discriminate.
  - cbn [legal_program] in L. destruct L as [L1 L2]. destruct (execute_inv c s I L1) as [I1 G].
    cbn [program]. destruct (execute malloc c s) as [s' r]. simpl fst in *; simpl snd in *.
    destruct r; auto.
Qed.

End Calls.
