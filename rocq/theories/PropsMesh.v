(** C01-C05: meshes and mesh iterators. *)
From Coq Require Import ZArith List Bool Lia Permutation.
From Verif Require Import Base Mesh MeshSpec MeshProofs.
Import ListNotations.
Local Open Scope Z_scope.

(** ** C01 *)

(** A Mesh can be constructed exactly for positive dimensions. *)
Theorem mesh_constructible : forall dims, dims <> [] ->
  (positive dims <-> exists m, setDimensions dims = Ok m) /\
  (~ positive dims <-> setDimensions dims = Throw).
Proof.
  intros dims Hne. rewrite <- all_positive_iff. unfold setDimensions.
  destruct (all_positive dims); split; split; intros; eauto; try congruence.
  - destruct H. congruence.
Qed.

(** Sizes, ranks and positions of a constructed mesh. *)
Theorem mesh_rank_position_bijection : forall dims m,
  dims <> [] -> setDimensions dims = Ok m ->
  dimensions m = dims /\ size m = prodZ dims /\
  (forall p, in_box dims p -> 0 <= rank m p < size m /\ position m (rank m p) = p) /\
  (forall r, 0 <= r < size m -> in_box dims (position m r) /\ rank m (position m r) = r).
Proof.
  intros dims m Hne H.
  assert (HP : positive dims).
  { apply all_positive_iff. unfold setDimensions in H. destruct (all_positive dims); congruence. }
  rewrite setDimensions_spec in H by auto. inversion H; subst m; clear H.
  unfold rank, position; cbn [dimensions offsets size]. repeat split; auto; intros.
  - rewrite rank_loop_rk by (apply in_box_length; auto).
    assert (R := rk_range _ _ H). lia.
  - rewrite rank_loop_rk by (apply in_box_length; auto).
    assert (R := rk_range _ _ H). lia.
  - rewrite rank_loop_rk by (apply in_box_length; auto). rewrite Z.add_0_l.
    rewrite position_loop_ps by (auto; apply rk_range; auto). apply ps_rk; auto.
  - rewrite position_loop_ps by (auto; lia). apply ps_in_box; auto.
  - rewrite position_loop_ps by (auto; lia).
    rewrite rank_loop_rk by (apply in_box_length, ps_in_box; auto).
    rewrite rk_ps; auto.
Qed.

(** The rank is the C-order (row-major) rank: it is monotone for the
    lexicographic order of positions. *)
Theorem mesh_rank_lexicographic : forall dims m p q,
  dims <> [] -> setDimensions dims = Ok m -> in_box dims p -> in_box dims q ->
  (rank m p < rank m q <-> lex_lt p q).
Proof.
  intros dims m p q Hne H Hp Hq.
  rewrite setDimensions_spec in H by (auto; eapply in_box_positive; eauto).
  inversion H; subst m. unfold rank; cbn [offsets].
  rewrite !rank_loop_rk by (apply in_box_length; auto). rewrite !Z.add_0_l. apply rk_lex; auto.
Qed.

Example mesh_324 : exists m, setDimensions [3;2;4] = Ok m /\ size m = 24 /\
  rank m [2;1;3] = 23 /\ rank m [1;0;2] = 10 /\ position m 10 = [1;0;2].
Proof. eexists; split; [reflexivity|]. vm_compute. auto. Qed.
Example mesh_324_box : in_box [3;2;4] [1;0;2].
Proof. repeat constructor; lia. Qed.

(** ** C02 *)

(** The loop ends after exactly [size] iterations: with that much fuel (or more)
    it completes, with less it has not ended; the n-th visited point has rank n
    and the position of rank n in the mesh. *)
Theorem mesh_iterator_visits_all_in_order : forall dims m fuel,
  dims <> [] -> setDimensions dims = Ok m ->
  (size m <= Z.of_nat fuel ->
     it_visit fuel dims =
     Ok (map (fun r => (r, position m r)) (zseq 0 (Z.to_nat (size m))))) /\
  (Z.of_nat fuel < size m -> it_visit fuel dims = NoFuel).
Proof.
  intros dims m fuel Hne H.
  assert (HP : positive dims).
  { apply all_positive_iff. unfold setDimensions in H. destruct (all_positive dims); congruence. }
  rewrite setDimensions_spec in H by auto. inversion H; subst m; clear H. cbn [size].
  assert (A := prodZ_pos _ HP). split; intros HF.
  - rewrite it_visit_spec by auto. f_equal. apply map_ext_in. intros r Hr.
    apply in_zseq in Hr. unfold position; cbn [offsets].
    rewrite position_loop_ps by (auto; lia). auto.
  - unfold it_visit, it_setDimensions. rewrite (proj2 (all_positive_iff dims) HP).
    cbn [bind]. unfold it_begin; cbn [it_dims it_size]. rewrite fold_left_mul, Z.mul_1_l.
    rewrite <- ps_0 by auto. apply it_loop_short; auto; lia.
Qed.

Example iterator_23 : it_visit 6 [2;3] =
  Ok [(0,[0;0]);(1,[0;1]);(2,[0;2]);(3,[1;0]);(4,[1;1]);(5,[1;2])].
Proof. reflexivity. Qed.

(** ** C03 *)

Theorem mesh_iterator_fortran_visits_all : forall dims m fuel,
  dims <> [] -> setDimensions dims = Ok m -> size m <= Z.of_nat fuel ->
  exists visited, f_visit fuel dims = Ok visited /\
    (* n-th visited position, first index fastest *)
    map snd visited = map (fpos dims) (zseq 0 (Z.to_nat (size m))) /\
    (* the reported rank is the rank of the position in the mesh *)
    (forall r p, In (r, p) visited -> in_box dims p /\ r = rank m p) /\
    (* every grid point is visited exactly once *)
    Permutation (map fst visited) (zseq 0 (Z.to_nat (size m))).
Proof.
  intros dims m fuel Hne H Hf.
  assert (HP : positive dims).
  { apply all_positive_iff. unfold setDimensions in H. destruct (all_positive dims); congruence. }
  rewrite setDimensions_spec in H by auto. inversion H; subst m; clear H. cbn [size] in *.
  eexists; split; [apply f_visit_spec; auto|].
  rewrite !map_map. split; [apply map_ext; auto|split].
  - intros r p Hin. apply in_map_iff in Hin. destruct Hin as [i [E Hi]].
    inversion E; subst. split; [apply fpos_in_box; auto|].
    unfold rank; cbn [offsets]. rewrite rank_loop_rk by (apply in_box_length, fpos_in_box; auto).
    auto.
  - cbn [fst]. apply f_visit_ranks; auto.
Qed.

Example fortran_23 : f_visit 6 [2;3] =
  Ok [(0,[0;0]);(3,[1;0]);(1,[0;1]);(4,[1;1]);(2,[0;2]);(5,[1;2])].
Proof. reflexivity. Qed.

(** ** C04 *)

Theorem mesh_shift_coordinate : forall dim c c' s,
  0 < dim -> shift1 dim c = (c', s) -> 0 <= c' < dim /\ c = c' + s * dim.
Proof.
  intros. pose proof (shift1_spec dim c H) as S. rewrite H0 in S. auto.
Qed.

Theorem mesh_shift_position : forall dims pos pos' s,
  positive dims -> length pos = length dims -> shift dims pos = (pos', s) ->
  in_box dims pos' /\ length s = length dims /\
  forall i, (i < length dims)%nat ->
    nth i pos 0 = nth i pos' 0 + nth i s 0 * nth i dims 0.
Proof.
  intros dims pos pos' s HP HL H. pose proof (shift_spec dims pos HP HL) as S.
  rewrite H in S. destruct S as [S1 [S2 S3]]. repeat split; auto.
  intros i Hi. rewrite S3 at 1.
  assert (L := in_box_length _ _ S1).
  set (f := fun t : Z*Z*Z => fst (fst t) + snd (fst t) * snd t).
  rewrite nth_indep with (d' := f (0,0,0))
    by (rewrite map_length, !combine_length; lia).
  rewrite (map_nth f). rewrite combine_nth by (rewrite combine_length; lia).
  rewrite combine_nth by lia. reflexivity.
Qed.

Theorem mesh_isInMesh_iff_no_shift : forall dims pos,
  positive dims -> length pos = length dims ->
  (isInMesh dims pos = true <-> in_box dims pos) /\
  (isInMesh dims pos = true <-> shift dims pos = (pos, repeat 0 (length dims))).
Proof.
  intros dims pos HP HL. split; [apply isInMesh_iff; auto|].
  rewrite isInMesh_iff by auto. split.
  - intros H. clear HP HL. induction H as [|d p ds q A B IH]; [reflexivity|].
    cbn [shift]. unfold shift1. destruct (Z.leb_spec 0 p); [|lia].
    rewrite Z.quot_small by lia. rewrite IH. simpl. do 2 f_equal. lia.
  - intros H. pose proof (shift_spec dims pos HP HL) as S. rewrite H in S. tauto.
Qed.

Example shift_neg : shift [5;4] [-11; 9] = ([4;1],[-3;2]).
Proof. reflexivity. Qed.

(** ** C05 *)

(** The property is false: save and load of the 2 x 3 mesh. *)
Theorem mesh_serialize_roundtrip_refuted : exists dims m m',
  setDimensions dims = Ok m /\
  mesh_load (mesh_save m) (default_mesh (length dims)) = Ok m' /\
  dimensions m' <> dims /\ size m' <> size m.
Proof.
  exists [2;3]. do 2 eexists. split; [reflexivity|]. split; [reflexivity|].
  split; vm_compute; discriminate.
Qed.

(** Stronger: whatever mesh is saved, loading it into a default-constructed mesh
    restores only the first dimension; size stays zero. *)
Theorem mesh_serialize_never_restores : forall dims m,
  dims <> [] -> setDimensions dims = Ok m ->
  exists m', mesh_load (mesh_save m) (default_mesh (length dims)) = Ok m' /\
    size m' = 0 /\ dimensions m' = hd 0 dims :: repeat 0 (length dims - 1).
Proof.
  intros dims m Hne H. unfold setDimensions in H.
  destruct (all_positive dims); inversion H; subst m; clear H.
  unfold mesh_load, mesh_save, default_mesh; cbn [dimensions size offsets].
  rewrite repeat_length.
  assert (G : forall n x y, load_loop (S n) (repeat x (S n)) y = Some x).
  { induction n; intros; auto. exact (IHn x x). }
  destruct dims as [|d ds]; [congruence|]. cbn [length]. rewrite G.
  eexists; split; [reflexivity|]. simpl. rewrite Nat.sub_0_r. auto.
Qed.

Print Assumptions mesh_rank_position_bijection.
Print Assumptions mesh_rank_lexicographic.
Print Assumptions mesh_iterator_visits_all_in_order.
Print Assumptions mesh_iterator_fortran_visits_all.
Print Assumptions mesh_shift_coordinate.
Print Assumptions mesh_shift_position.
Print Assumptions mesh_isInMesh_iff_no_shift.
Print Assumptions mesh_serialize_roundtrip_refuted.
Print Assumptions mesh_serialize_never_restores.
