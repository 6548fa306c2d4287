(** Allocation and reallocation of the arrays of a propagator (DevArray.v) *)
From Coq Require Import Reals ZArith List Bool Arith Lia.
From Verif Require Import Base GpuKernel DevArray DevArraySpec DevArrayProofs DevArrayRuns PropsDevArray.
Import ListNotations.
Local Open Scope Z_scope.

(** All calls answer *)
Fixpoint run_all (malloc : nat -> list (Z * Z) -> Z -> option Z) (l : list call) (s : state) : option state :=
  match l with
  | [] => Some s
  | c :: l' => match execute malloc c s with (s', Answer _) => run_all malloc l' s' | _ => None end
  end.

Section Prop_.
Variable malloc : nat -> list (Z * Z) -> Z -> option Z.
Hypothesis good : good_malloc malloc.
Hypothesis total : forall k used n, malloc k used n <> None.

Notation run := (run_all malloc).

Lemma run_app : forall l l' s s1, run l s = Some s1 -> run (l ++ l') s = run l' s1.
Proof.
  induction l as [|c l IH]; simpl; intros l' s s1 E; [congruence|].
  destruct (execute malloc c s) as [s' []]; try discriminate. now apply IH.
Qed.

Definition blank : obj := Obj (Some None) (Some 0) (Some None) (Some 0) (Some None) [].
Definition within (j k i : nat) : Prop := (j <= i < j + k)%nat.
(** Objects other than f j, ..., f (j+k-1) are the same *)
Definition others (f : nat -> nat) (j k : nat) (s s' : state) : Prop :=
  forall y, (forall i, within j k i -> y <> f i) -> find (s_objs s') y = find (s_objs s) y.
Definition sameMem (s s' : state) : Prop := s_mem s' = s_mem s /\ s_used s' = s_used s.

Variables (f : nat -> nat) (q : nat) (dims : list Z).
Hypothesis finj : forall i j, f i = f j -> i = j.
Hypothesis fq : forall i, f i <> q.

Lemma constructs : forall k j s, inv s -> (forall i, within j k i -> find (s_objs s) (f i) = None) ->
  exists s', run (map (fun i => Construct (f i)) (seq j k)) s = Some s' /\ inv s' /\ sameMem s s' /\ others f j k s s' /\
    forall i, within j k i -> find (s_objs s') (f i) = Some blank.
Proof.
  induction k as [|k IH]; intros j s I N.
  - exists s. simpl. split; auto. split; auto. split; [split; auto|]. split; [intros y _; auto|]. unfold within. lia.
  - cbn [seq map run_all]. cbn [execute]. unfold unit_, with_, construct. rewrite (N j) by (unfold within; lia). cbn [fst snd said].
    pose proof (inv_construct s (f j) I (N j ltac:(unfold within; lia))) as I1. fold blank in *. set (s1 := setObj (f j) blank s) in *.
    assert (FS : forall y, y <> f j -> find (s_objs s1) y = find (s_objs s) y).
    { intros y NE. unfold s1. rewrite find_set. destruct (Nat.eqb_spec (f j) y); congruence. }
    destruct (IH (S j) s1 I1) as (s' & R & I' & [M1 M2] & O & K).
    { intros i W. rewrite FS; [apply N; unfold within in *; lia|]. intros E. apply finj in E. unfold within in W. lia. }
    exists s'. split; auto. split; auto. split; [split; auto|]. split.
    + intros y NY. rewrite O; [apply FS; apply NY; unfold within; lia|]. intros i W. apply NY. unfold within in *; lia.
    + intros i W. destruct (Nat.eq_dec i j) as [->|NE].
      * rewrite O; [unfold s1; rewrite find_set, Nat.eqb_refl; auto|]. intros i W' E. apply finj in E. unfold within in W'. lia.
      * apply K. unfold within in *. lia.
Qed.

Definition size : Z := fold_left Z.mul dims 1.
Hypothesis dims_pos : Forall (fun d => 0 < d) dims.
Hypothesis dims_some : dims <> [].
Lemma size_pos : 0 < size.
Proof.
  unfold size. clear dims_some. assert (H : forall l z, Forall (fun d => 0 < d) l -> 0 < z -> 0 < fold_left Z.mul l z).
  { induction l; intros z F P; simpl; auto. inversion F; subst. apply IHl; auto. nia. }
  apply H; auto. lia.
Qed.

Definition sliceObj (a c : Z) (i : nat) : obj :=
  Obj (Some (Some (a + Z.of_nat i * size))) (Some size) (Some (Some q)) (Some c) (Some (Some a)) dims.

Lemma storeMesh_ok : forall l x done sz s o, at_ s x o -> Forall (fun d => 0 < d) l ->
  exists s', storeMesh x done l sz s = (s', Ok (fold_left Z.mul l sz)).
Proof.
  induction l as [|d l IH]; intros x done sz s o H P; cbn [storeMesh].
  - exists s. reflexivity.
  - inversion P; subst. unfold bindM at 1, assert. apply Z.ltb_lt in H2. rewrite H2. cbn [check].
    unfold bindM, assignTo. pose proof H as H'. unfold at_ in H'. rewrite H'.
    eapply (IH x (done ++ [d]) (sz * d)); eauto. apply at_set_same.
Qed.

Lemma associates : forall k j s a c oq, inv s -> find (s_objs s) q = Some oq -> ownedBy oq a c ->
  (forall i, within j k i -> find (s_objs s) (f i) = Some blank) -> Z.of_nat (j + k) * size <= c ->
  exists s', run (map (fun i => AssociateR (f i) q (Z.of_nat i * size) dims) (seq j k)) s = Some s' /\
    inv s' /\ sameMem s s' /\ others f j k s s' /\
    forall i, within j k i -> find (s_objs s') (f i) = Some (sliceObj a c i).
Proof.
  pose proof size_pos as SP.
  induction k as [|k IH]; intros j s a c oq I Hq OB N B.
  - exists s. simpl. split; auto. split; auto. split; [split; auto|]. split; [intros y _; auto|]. unfold within. lia.
  - cbn [seq map run_all]. cbn [execute]. unfold unit_, with_, associateR, bindM.
    assert (HJ : at_ s (f j) blank) by (apply N; unfold within; lia).
    destruct (storeMesh_spec dims (f j) [] 1 s blank [] HJ eq_refl) as (s0 & r & E & _ & K3).
    destruct (storeMesh_ok dims (f j) [] 1 s blank HJ dims_pos) as [s0' E0].
    assert (r = Ok size) by (unfold size; congruence). subst r.
    destruct K3 as [K3|(_ & _ & K3)]; [discriminate|]. specialize (K3 dims_some).
    rewrite skipn_nil, app_nil_r in K3. simpl app in K3. rewrite E.
    set (o0 := setMesh dims blank) in K3.
    assert (I0 : inv s0) by (rewrite K3; apply (inv_mesh_change s (f j) blank); auto; apply same_mesh).
    assert (H0 : at_ s0 (f j) o0) by (rewrite K3; apply at_set_same).
    assert (Q0 : at_ s0 q oq) by (rewrite K3; apply at_set_other; auto).
    assert (V0 : valid s0 (f j)) by (eapply VRoot; [exact H0|reflexivity]).
    destruct OB as (OB1 & OB2 & OB3).
    assert (VQ : valid s0 q) by (eapply VRoot; eauto).
    pose proof (associate_inv s0 (f j) q o0 oq (Z.of_nat j * size) size I0 H0 Q0) as [I1 _]. revert I1.
    assert (DQ : dataOf oq = Some a) by (unfold dataOf; now rewrite OB2).
    assert (CQ : capOf oq = c) by (unfold capOf; now rewrite OB3).
    assert (WQ : ownerOf oq = None) by (unfold ownerOf; now rewrite OB1).
    assert (AE : associate (f j) q (Z.of_nat j * size) size s0 = (setObj (f j) (sliceObj a c j) s0, Ok tt)).
    { unfold associate, bindM, ask, assert. rewrite (isAllocated_valid s0 q oq I0 Q0 VQ), DQ. cbn [notNull check].
      rewrite (isOwner_at s0 q oq I0 Q0), DQ, WQ. cbn [notNull negb andb check].
      replace (0 <=? Z.of_nat j * size) with true by (symmetry; apply Z.leb_le; nia). cbn [check].
      replace (0 <? size) with true by (symmetry; apply Z.ltb_lt; auto). cbn [check].
      rewrite (capacity_at s0 q oq I0 Q0), CQ.
      replace (Z.of_nat j * size + size <=? c) with true by (symmetry; apply Z.leb_le; nia). cbn [check].
      rewrite (isAllocated_valid s0 (f j) o0 I0 H0 V0). cbn [dataOf o0 setMesh blank o_data notNull negb check].
      rewrite (cArray_valid s0 q oq I0 Q0 VQ), DQ. unfold assignTo. unfold at_ in H0. rewrite H0. reflexivity. }
    rewrite AE. cbn [fst snd said]. intros I1.
    assert (ES : setObj (f j) (sliceObj a c j) s0 = setObj (f j) (sliceObj a c j) s) by (rewrite K3; apply set_set).
    rewrite ES in *. set (s1 := setObj (f j) (sliceObj a c j) s) in *.
    assert (FS : forall y, y <> f j -> find (s_objs s1) y = find (s_objs s) y).
    { intros y NE. unfold s1. rewrite find_set. destruct (Nat.eqb_spec (f j) y); congruence. }
    destruct (IH (S j) s1 a c oq I1) as (s' & R & I' & [M1 M2] & O & K).
    { rewrite FS; auto. }
    { repeat split; auto. }
    { intros i W. rewrite FS; [apply N; unfold within in *; lia|]. intros EE. apply finj in EE. unfold within in W. lia. }
    { replace (S j + k)%nat with (j + S k)%nat by lia. auto. }
    exists s'. split; auto. split; auto. split; [split; auto|]. split.
    + intros y NY. rewrite O; [apply FS; apply NY; unfold within; lia|]. intros i W. apply NY. unfold within in *; lia.
    + intros i W. destruct (Nat.eq_dec i j) as [->|NE].
      * rewrite O; [unfold s1; rewrite find_set, Nat.eqb_refl; auto|]. intros i W' EE. apply finj in EE. unfold within in W'. lia.
      * apply K. unfold within in *. lia.
Qed.

Lemma destroys : forall k j s a c oq, inv s -> find (s_objs s) q = Some oq -> ownedBy oq a c ->
  (forall i, within j k i -> find (s_objs s) (f i) = Some (sliceObj a c i)) ->
  (forall i, within j k i -> alone s (f i)) ->
  exists s', run (map (fun i => Destroy (f i)) (seq j k)) s = Some s' /\ inv s' /\ sameMem s s' /\ others f j k s s' /\
    forall i, within j k i -> find (s_objs s') (f i) = None.
Proof.
  induction k as [|k IH]; intros j s a c oq I Hq OB N A.
  - exists s. simpl. split; auto. split; auto. split; [split; auto|]. split; [intros y _; auto|]. unfold within. lia.
  - cbn [seq map run_all]. cbn [execute]. unfold unit_, with_.
    assert (HJ : at_ s (f j) (sliceObj a c j)) by (apply N; unfold within; lia).
    assert (V : valid s (f j)).
    { destruct OB as (OB1 & OB2 & OB3). apply (VLink s (f j) (sliceObj a c j) q oq a c); auto. eapply VRoot; eauto. }
    pose proof (destroy_inv s (f j) _ I HJ (A j ltac:(unfold within; lia))) as [I1 _]. revert I1.
    destruct (destroy_spec s (f j) _ I HJ) as [NV|b n (B & _)|_ _]; [contradiction|discriminate|].
    cbn [fst snd said]. intros I1. set (s1 := State _ _ _ _) in *.
    assert (FS : forall y, y <> f j -> find (s_objs s1) y = find (s_objs s) y).
    { intros y NE. unfold s1; cbn [s_objs]. rewrite find_remove. destruct (Nat.eqb_spec (f j) y); congruence. }
    assert (FJ : find (s_objs s1) (f j) = None) by (unfold s1; cbn [s_objs]; now rewrite find_remove, Nat.eqb_refl).
    destruct (IH (S j) s1 a c oq I1) as (s' & R & I' & [M1 M2] & O & K); auto.
    { rewrite FS; auto. }
    { intros i W. rewrite FS; [apply N; unfold within in *; lia|]. intros EE. apply finj in EE. unfold within in W. lia. }
    { intros i W w o Ho. apply (A i ltac:(unfold within in *; lia) w o). unfold at_ in *.
      destruct (Nat.eq_dec w (f j)) as [->|NE]; [congruence|]. now rewrite FS in Ho. }
    exists s'. split; auto. split; auto. split; [split; auto|]. split.
    + intros y NY. rewrite O; [apply FS; apply NY; unfold within; lia|]. intros i W. apply NY. unfold within in *; lia.
    + intros i W. destruct (Nat.eq_dec i j) as [->|NE].
      * rewrite O; auto. intros i W' EE. apply finj in EE. unfold within in W'. lia.
      * apply K. unfold within in *. lia.
Qed.

(** Before and after: q holds no data, there are no fields *)
Record rest (s0 s : state) : Prop := {
  r_inv : inv s;
  r_q : exists oq, find (s_objs s) q = Some oq /\ o_owner oq = Some None /\ o_data oq = Some None;
  r_f : forall i, find (s_objs s0) (f i) = None;
  r_others : forall y, y <> q -> find (s_objs s) y = find (s_objs s0) y;
  r_mem : forall z, s_mem s z = s_mem s0 z
}.
(** In use *)
Record busy (s0 s : state) (ns : nat) (a : Z) : Prop := {
  b_inv : inv s;
  b_q : exists oq, find (s_objs s) q = Some oq /\ ownedBy oq a (Z.of_nat ns * size);
  b_f : forall i, (i < ns)%nat -> find (s_objs s) (f i) = Some (sliceObj a (Z.of_nat ns * size) i);
  b_nof : forall i, find (s_objs s0) (f i) = None;
  b_others : forall y, y <> q -> (forall i, (i < ns)%nat -> y <> f i) -> find (s_objs s) y = find (s_objs s0) y;
  b_free : forall z, a <= z < a + Z.of_nat ns * size -> s_mem s0 z = Free;
  b_mem : forall z, ~ (a <= z < a + Z.of_nat ns * size) -> s_mem s z = s_mem s0 z
}.

Lemma rest_alloc : forall s0 s ns, rest s0 s -> (0 < ns)%nat ->
  exists s' a, run (propAllocate q f dims ns) s = Some s' /\ busy s0 s' ns a.
Proof.
  intros s0 s ns [I (oq & Hq & Wq & Dq) NF OT ME] P. pose proof size_pos as SP.
  unfold propAllocate. cbn [run_all execute]. unfold unit_, with_. fold size.
  pose proof (allocate_inv malloc good s q oq (Z.of_nat ns * size) I Hq) as [I1 _]. revert I1.
  assert (V : valid s q) by (eapply VRoot; eauto).
  assert (AE : exists p, malloc (s_clock s) (s_used s) (Z.of_nat ns * size) = Some p /\
     allocate malloc q (Z.of_nat ns * size) s =
      (setObj q (Obj (Some (Some p)) (Some (Z.of_nat ns * size)) (Some None) (o_ocap oq) (o_odata oq) (o_mesh oq))
         (State (s_objs s) (fun y => if span p (Z.of_nat ns * size) y then Junk else s_mem s y) ((p, Z.of_nat ns * size) :: s_used s) (S (s_clock s))), Ok tt)).
  { unfold allocate, bindM, ask, assert. rewrite (isAllocated_valid s q oq I Hq V).
    replace (dataOf oq) with (@None Z) by (unfold dataOf; now rewrite Dq). cbn [notNull negb check].
    rewrite (owner_at s q oq I Hq). replace (ownerOf oq) with (@None nat) by (unfold ownerOf; now rewrite Wq). cbn [notNull negb check].
    replace (0 <? Z.of_nat ns * size) with true by (symmetry; apply Z.ltb_lt; nia). cbn [check].
    unfold cudaMalloc. destruct (malloc (s_clock s) (s_used s) (Z.of_nat ns * size)) as [p|] eqn:E; [|now apply total in E].
    exists p. split; auto. unfold assignTo. cbn [s_objs]. rewrite Hq. reflexivity. }
  destruct AE as (p & MA & AE). rewrite AE. cbn [fst snd said]. intros I1.
  set (o1 := Obj _ _ _ _ _ _) in *. set (s1 := setObj q o1 _) in *.
  assert (FS : forall y, y <> q -> find (s_objs s1) y = find (s_objs s) y).
  { intros y NE. unfold s1. rewrite find_set. cbn [s_objs]. destruct (Nat.eqb_spec q y); congruence. }
  assert (Q1 : find (s_objs s1) q = Some o1) by (unfold s1; rewrite find_set, Nat.eqb_refl; auto).
  assert (OB : ownedBy o1 p (Z.of_nat ns * size)) by (repeat split).
  unfold propFields. fold size.
  destruct (constructs ns 0 s1 I1) as (s2 & R2 & I2 & [M2 U2] & O2 & K2).
  { intros i W. rewrite FS, OT; auto. }
  rewrite (run_app _ _ s1 s2 R2).
  assert (Q2 : find (s_objs s2) q = Some o1).
  { rewrite O2; auto. }
  destruct (associates ns 0 s2 p (Z.of_nat ns * size) o1 I2 Q2 OB K2) as (s3 & R3 & I3 & [M3 U3] & O3 & K3); [simpl; lia|].
  exists s3, p. split; auto.
  assert (Q3 : find (s_objs s3) q = Some o1).
  { rewrite O3; auto. }
  constructor; auto.
  - exists o1. auto.
  - intros i L. apply K3. unfold within. lia.
  - intros y NQ NY. rewrite O3, O2, FS; auto; intros i W; apply NY; unfold within in W; lia.
  - intros z B. rewrite <- ME. destruct (free_dec (s_mem s z)) as [|N]; auto.
    apply (i_mem s I) in N. destruct N as (b & m & IN & BB).
    assert (PN : 0 < Z.of_nat ns * size) by nia. destruct (good _ _ _ _ PN MA _ _ IN); lia.
  - intros z B. rewrite M3, M2. unfold s1, setObj; cbn [s_mem]. unfold span.
    destruct (Z.leb_spec p z), (Z.ltb_spec z (p + Z.of_nat ns * size)); simpl; auto. lia.
Qed.

Lemma busy_alone : forall s0 s ns a, busy s0 s ns a -> inv s0 -> forall i, (i < ns)%nat -> alone s (f i).
Proof.
  intros s0 s ns a [I (oq & Hq & (Wq & Dq & Cq)) K NF OT FR ME] I0 i L w o Ho W. unfold at_ in Ho.
  destruct (Nat.eq_dec w q) as [->|NQ].
  { assert (o = oq) by congruence. subst. congruence. }
  destruct (in_dec Nat.eq_dec w (map f (seq 0 ns))) as [IN|NI].
  - apply in_map_iff in IN. destruct IN as (j & <- & IN). apply in_seq in IN. rewrite K in Ho by lia.
    injection Ho as <-. simpl in W. injection W as W. apply (fq i). auto.
  - rewrite OT in Ho; auto.
    + destruct (i_chain s0 I0 w o Ho) as [l C]. inversion C; subst; unfold at_ in *; [congruence|].
      assert (y = f i) by congruence. subst. destruct (chain_at _ _ _ H1) as [o1 Ho1]. unfold at_ in Ho1. rewrite NF in Ho1. discriminate.
    + intros j Lj E. apply NI. rewrite E. apply in_map. apply in_seq. lia.
Qed.

(** After the fields are destroyed *)
Lemma busy_fields : forall s0 s ns a, busy s0 s ns a -> inv s0 ->
  exists s' oq, run (map (fun i => Destroy (f i)) (seq 0 ns)) s = Some s' /\ inv s' /\ sameMem s s' /\
    find (s_objs s') q = Some oq /\ ownedBy oq a (Z.of_nat ns * size) /\
    forall y, y <> q -> find (s_objs s') y = find (s_objs s0) y.
Proof.
  intros s0 s ns a B I0. pose proof (busy_alone s0 s ns a B I0) as A.
  destruct B as [I (oq & Hq & OB) K NF OT FR ME].
  destruct (destroys ns 0 s a (Z.of_nat ns * size) oq I Hq OB) as (s' & R & I' & M & O & N).
  { intros i W. apply K. unfold within in W. lia. }
  { intros i W. apply A. unfold within in W. lia. }
  exists s', oq. split; auto. split; auto. split; auto. split.
  { rewrite O; auto. }
  split; auto. intros y NQ. destruct (in_dec Nat.eq_dec y (map f (seq 0 ns))) as [IN|NI].
  - apply in_map_iff in IN. destruct IN as (j & <- & IN). apply in_seq in IN. rewrite NF. apply N. unfold within. lia.
  - assert (NY : forall i, (i < ns)%nat -> y <> f i).
    { intros i L E. apply NI. rewrite E. apply in_map. apply in_seq. lia. }
    rewrite O; [now apply OT|]. intros i W. apply NY. unfold within in W. lia.
Qed.

Lemma busy_free : forall s0 s s1 ns a, busy s0 s ns a -> sameMem s s1 -> forall z,
  s_mem (freed s1 a (Z.of_nat ns * size)) z = s_mem s0 z.
Proof.
  intros s0 s s1 ns a [I _ K NF OT FR ME] [M _] z. unfold freed; cbn [s_mem]. unfold span.
  destruct (Z.leb_spec a z), (Z.ltb_spec z (a + Z.of_nat ns * size)); simpl.
  - symmetry. apply FR. lia.
  - rewrite M. apply ME. lia.
  - rewrite M. apply ME. lia.
  - rewrite M. apply ME. lia.
Qed.

Lemma busy_dealloc : forall s0 s ns a, busy s0 s ns a -> inv s0 ->
  exists s', run (map (fun i => Destroy (f i)) (seq 0 ns) ++ [Deallocate q]) s = Some s' /\ rest s0 s'.
Proof.
  intros s0 s ns a B I0. destruct (busy_fields s0 s ns a B I0) as (s1 & oq & R & I1 & M & Hq & OB & OT).
  rewrite (run_app _ _ _ _ R). cbn [run_all execute]. unfold unit_, with_.
  pose proof (deallocate_inv s1 q oq I1 Hq) as [I2 _]. revert I2.
  assert (DE : deallocate q s1 = (setObj q (Obj (Some None) (Some 0) (o_owner oq) (o_ocap oq) (o_odata oq) (o_mesh oq)) (freed s1 a (Z.of_nat ns * size)), Ok tt)).
  { destruct OB as (OB1 & OB2 & OB3). assert (V : valid s1 q) by (eapply VRoot; eauto).
    unfold deallocate, bindM, ask, assert. rewrite (isAllocated_valid s1 q oq I1 Hq V).
    replace (dataOf oq) with (Some a) by (unfold dataOf; now rewrite OB2). cbn [notNull check].
    rewrite (isOwner_at s1 q oq I1 Hq). replace (dataOf oq) with (Some a) by (unfold dataOf; now rewrite OB2).
    replace (ownerOf oq) with (@None nat) by (unfold ownerOf; now rewrite OB1). cbn [notNull negb andb check].
    rewrite (data_at s1 q oq I1 Hq). replace (dataOf oq) with (Some a) by (unfold dataOf; now rewrite OB2).
    rewrite (cudaFree_owned s1 q oq a (Z.of_nat ns * size) I1 Hq) by (repeat split; auto).
    unfold assignTo. cbn [freed s_objs]. rewrite Hq. reflexivity. }
  rewrite DE. cbn [fst snd said]. intros I2. eexists. split; [reflexivity|].
  constructor; auto.
  - eexists. split; [apply at_set_same|]. cbn [o_owner o_data]. destruct OB as (OB1 & _). auto.
  - apply (b_nof _ _ _ _ B).
  - intros y NQ. rewrite find_set. destruct (Nat.eqb_spec q y); [congruence|]. cbn [freed s_objs]. auto.
  - intros z. rewrite <- (busy_free s0 s s1 ns a B M z). reflexivity.
Qed.

Lemma busy_realloc : forall s0 s ns a ns', busy s0 s ns a -> inv s0 -> (0 < ns')%nat ->
  exists s' a', run (propReallocate q f dims ns ns') s = Some s' /\ busy s0 s' ns' a'.
Proof.
  intros s0 s ns a ns' B I0 P. destruct (busy_dealloc s0 s ns a B I0) as (s1 & R & RS).
  destruct (rest_alloc s0 s1 ns' RS P) as (s2 & a' & R2 & B2). exists s2, a'. split; auto.
  unfold propReallocate. change (Deallocate q :: propAllocate q f dims ns') with ([Deallocate q] ++ propAllocate q f dims ns').
  rewrite app_assoc, (run_app _ _ _ _ R). auto.
Qed.

Lemma busy_reallocs : forall l s0 s ns a, busy s0 s ns a -> inv s0 -> Forall (fun n => (0 < n)%nat) l ->
  exists s' a', run (propReallocates q f dims ns l) s = Some s' /\ busy s0 s' (last l ns) a'.
Proof.
  induction l as [|n l IH]; intros s0 s ns a B I0 P.
  - exists s, a. auto.
  - inversion P; subst. destruct (busy_realloc s0 s ns a n B I0 H1) as (s1 & a1 & R & B1).
    destruct (IH s0 s1 n a1 B1 I0 H2) as (s2 & a2 & R2 & B2). exists s2, a2. cbn [propReallocates].
    rewrite (run_app _ _ _ _ R). split; auto.
    replace (last (n :: l) ns) with (last l n); auto. clear. revert n ns. induction l as [|m l IH]; intros; auto.
    cbn [last] in *. destruct l; auto.
Qed.

Lemma busy_destroy : forall s0 s ns a, busy s0 s ns a -> inv s0 -> (forall y, ~ associated s0 y q) ->
  exists s', run (propDestroy q f ns) s = Some s' /\ inv s' /\ (forall z, s_mem s' z = s_mem s0 z) /\
    forall y, find (s_objs s') y = if (y =? q)%nat then None else find (s_objs s0) y.
Proof.
  intros s0 s ns a B I0 AQ. destruct (busy_fields s0 s ns a B I0) as (s1 & oq & R & I1 & M & Hq & OB & OT).
  unfold propDestroy. rewrite (run_app _ _ _ _ R). cbn [run_all execute]. unfold unit_, with_.
  assert (AL : forall y o', at_ s1 y o' -> o_owner o' <> Some (Some q)).
  { intros y o' Ho W. destruct (Nat.eq_dec y q) as [->|NE].
    - assert (o' = oq) by (unfold at_ in Ho; congruence). subst. destruct OB; congruence.
    - apply (AQ y). exists o'. split; auto. rewrite <- OT; auto. }
  pose proof (destroy_inv s1 q oq I1 Hq AL) as [I2 _]. revert I2.
  destruct (destroy_spec s1 q oq I1 Hq) as [NV|b n (B1 & B2 & B3)|_ NO].
  - destruct NV. destruct OB. eapply VRoot; eauto.
  - cbn [fst snd said]. intros I2. eexists. split; [reflexivity|]. split; auto. destruct OB as (O1 & O2 & O3).
    assert (b = a) by congruence. assert (n = Z.of_nat ns * size) by congruence. subst. split.
    + intros z. cbn [s_mem]. apply (busy_free s0 s s1 ns a B M).
    + intros y. cbn [s_objs]. rewrite find_remove, Nat.eqb_sym. destruct (Nat.eqb_spec y q); auto.
  - destruct (NO _ _ OB).
Qed.
End Prop_.

(** In any tidy program: the fields of a propagator are the consecutive slices of
    one array, whatever the numbers of steps it is allocated for; no call throws;
    other arrays and their data stay as they are, and nothing is left in the end *)
Theorem C76_propagator : forall malloc l0 q f dims ns l, good_malloc malloc ->
  (forall k used n, malloc k used n <> None) ->
  tidy_program malloc initial l0 ->
  let s0 := fst (program malloc l0 initial) in
  there s0 q -> snd (execute malloc (IsAllocated q) s0) = Answer (VBool false) ->
  (forall i, ~ there s0 (f i)) -> (forall i j, f i = f j -> i = j) -> (forall i, f i <> q) ->
  Forall (fun d => 0 < d) dims -> dims <> [] -> Forall (fun n => (0 < n)%nat) (ns :: l) ->
  let M := fold_left Z.mul dims 1 in
  let n := last l ns in
  exists s s' a,
    run_all malloc (propAllocate q f dims ns ++ propReallocates q f dims ns l) s0 = Some s /\
    owns s q a (Z.of_nat n * M) /\
    (forall i, (i < n)%nat -> usable malloc s (f i) /\ associated s (f i) q /\ extent s (f i) (a + Z.of_nat i * M) M /\
       exists o, find (s_objs s) (f i) = Some o /\ o_mesh o = dims) /\
    (forall i, (n <= i)%nat -> ~ there s (f i)) /\
    (forall y, y <> q -> (forall i, y <> f i) -> find (s_objs s) y = find (s_objs s0) y) /\
    (forall z, s_mem s0 z <> Free -> s_mem s z = s_mem s0 z) /\
    run_all malloc (propDestroy q f n) s = Some s' /\
    (forall z, s_mem s' z = s_mem s0 z) /\
    forall y, find (s_objs s') y = if (y =? q)%nat then None else find (s_objs s0) y.
Proof.
  intros malloc l0 q f dims ns l good total T s0 [oq Hq] NA NF finj fq DP DS P M n.
  destruct (tidy_all malloc good l0 initial inv_initial snug_initial T) as (I0 & S0 & _). fold s0 in I0, S0.
  assert (V : valid s0 q) by (apply (snug_valid s0 q oq); auto).
  assert (D : dataOf oq = None).
  { simpl in NA. rewrite (isAllocated_valid s0 q oq I0 Hq V) in NA. destruct (dataOf oq); [discriminate|auto]. }
  pose proof (i_shape s0 I0 q oq Hq) as SH.
  pose proof (data_none s0 oq SH D) as Dq. pose proof (empty_owner s0 oq SH D) as Wq.
  assert (AQ : forall y, ~ associated s0 y q).
  { intros y (o & Ho & W). apply (snug_empty_alone s0 q oq S0 Hq Dq y o Ho W). }
  assert (RS : rest f q s0 s0).
  { constructor; auto.
    - exists oq. auto.
    - intros i. destruct (find (s_objs s0) (f i)) eqn:E; auto. exfalso. apply (NF i). eexists; eauto. }
  inversion P; subst.
  destruct (rest_alloc malloc good total f q dims finj fq DP DS s0 s0 ns RS H1) as (s1 & a1 & R1 & B1).
  destruct (busy_reallocs malloc good total f q dims finj fq DP DS l s0 s1 ns a1 B1 I0 H2) as (s & a & R & B).
  destruct (busy_destroy malloc f q dims finj fq s0 s (last l ns) a B I0 AQ) as (s' & R' & I' & ME & OB).
  fold n in B, R', ME. exists s, s', a. rewrite (run_app malloc _ _ _ _ R1). split; auto.
  destruct B as [I (oq' & Hq' & (W' & D' & C')) K NF0 OT FR MM]. split.
  { split; [exists oq'; auto|]. exists oq'. auto. }
  split; [|split; [|split; [|split; [|auto]]]].
  - intros i L. pose proof (K i L) as H. split; [|split; [|split]].
    + eapply usable_of; eauto; [|reflexivity].
      apply (VLink s (f i) _ q oq' a (Z.of_nat n * size dims) H); auto. eapply VRoot; eauto.
    + eexists. split; [exact H|reflexivity].
    + eexists. split; [exact H|]. split; reflexivity.
    + eexists. split; [exact H|reflexivity].
  - intros i L [o Ho]. rewrite OT, NF0 in Ho; auto; [discriminate|]. intros j Lj E. apply finj in E. lia.
  - intros y NQ NY. apply OT; auto.
  - intros z NZ. apply MM. intros B. apply NZ. now apply FR.
Qed.
Print Assumptions C76_propagator.

(** A case: a 2 x 3 mesh, 4 steps, then 7, then 2; the arrays 0 and 1 exist *)
Definition propagator_demo : list call := [Construct 0; ConstructSize 1 5].
Example propagator_case :
  tidy_program bump initial propagator_demo /\
  there (after propagator_demo) 0 /\ (forall i, ~ there (after propagator_demo) (2 + i)) /\
  (exists s, run_all bump (propAllocate 0 (fun i => (2 + i)%nat) [2; 3] 4 ++
                propReallocates 0 (fun i => (2 + i)%nat) [2; 3] 4 [7; 2]%nat) (after propagator_demo) = Some s) /\
  snd (execute bump (IsAllocated 0) (after propagator_demo)) = Answer (VBool false).
Proof.
  assert (T : tidy_program bump initial propagator_demo).
  { unfold propagator_demo. repeat (cbn [tidy_program]; split; [split; [cbn [legal]; try lawful|cbv beta iota; try exact I]|]). exact I. }
  assert (Q : there (after propagator_demo) 0) by thing.
  assert (N : forall i, ~ there (after propagator_demo) (2 + i)) by (intros i; nothing).
  assert (U : snd (execute bump (IsAllocated 0) (after propagator_demo)) = Answer (VBool false)) by reflexivity.
  split; [exact T|]. split; [exact Q|]. split; [exact N|]. split; [|exact U].
  assert (P : Forall (fun d => 0 < d) [2; 3]) by (repeat constructor).
  assert (P' : Forall (fun n => (0 < n)%nat) [4; 7; 2]%nat) by (repeat constructor).
  pose proof (C76_propagator bump propagator_demo 0 (fun i => (2 + i)%nat) [2; 3] 4 [7; 2]%nat bump_good
    ltac:(discriminate) T Q U N ltac:(simpl; intros; lia) ltac:(simpl; intros; lia) P ltac:(discriminate) P') as K.
  destruct K as (s & _ & _ & R & _). exists s. exact R.
Qed.
