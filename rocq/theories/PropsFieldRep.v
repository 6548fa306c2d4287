(** C27: replication and expansion of field files. *)
From Coq Require Import String ZArith Reals List Bool Lia Lra Permutation.
From Verif Require Import Base MeshSpec Mesh PropsMesh UnitCell UnitCellProofs PropsUnitCell FieldIo FieldIoProofs PropsFieldIo.
From Coq Require Import List.
Import ListNotations.
Local Open Scope string_scope.
Local Open Scope Z_scope.
Local Open Scope list_scope.

(** ** Specification *)
(** Componentwise product, remainder. *)
Fixpoint timesL (a b : list Z) : list Z :=
  match a, b with x :: a', y :: b' => x * y :: timesL a' b' | _, _ => [] end.
Fixpoint modL (p d : list Z) : list Z :=
  match p, d with x :: p', y :: d' => x mod y :: modL p' d' | _, _ => [] end.
Fixpoint divL (p d : list Z) : list Z :=
  match p, d with x :: p', y :: d' => x / y :: divL p' d' | _, _ => [] end.
(** Value of a field at a position. *)
Definition value {E} (m : mesh) (f : list E) (p : list Z) (d : E) : E := nth (Z.to_nat (rank m p)) f d.

Lemma mulL_timesL : forall a b, mulL a b = timesL a b.
Proof. induction a; destruct b; cbn; congruence. Qed.
Lemma positive_timesL : forall reps dims, length reps = length dims -> positive reps -> positive dims -> positive (timesL reps dims).
Proof.
  induction reps as [|r reps IH]; intros [|d dims] HL HR HD; cbn [timesL]; try discriminate; [constructor|].
  inversion HR; inversion HD; subst. constructor; [nia|]. apply IH; auto.
Qed.
Lemma prod_timesL : forall reps dims, length reps = length dims -> prodZ (timesL reps dims) = prodZ reps * prodZ dims.
Proof.
  induction reps as [|r reps IH]; intros [|d dims] HL; try discriminate; [reflexivity|].
  cbn [timesL prodZ]. rewrite IH by auto. ring.
Qed.
Lemma prod_positive : forall dims, positive dims -> 0 < prodZ dims.
Proof. intros dims P. induction P; cbn [prodZ]; lia. Qed.
(** A position of the replicated mesh is a position in the cell plus an offset. *)
Lemma split_pos : forall reps dims p, length reps = length dims -> positive dims -> in_box (timesL reps dims) p ->
  in_box dims (modL p dims) /\ in_box reps (divL p dims) /\ addScaled (modL p dims) dims (divL p dims) = p.
Proof.
  induction reps as [|r reps IH]; intros [|d dims] p HL HD H; try discriminate; cbn [timesL] in H; inversion H as [|? x ? p' Hx Hp]; subst.
  - repeat split; constructor.
  - inversion HD; subst. destruct (IH dims p') as [A [B C]]; auto. cbn [modL divL addScaled]. repeat split.
    + constructor; auto. apply Z.mod_pos_bound; auto.
    + constructor; auto. split; [apply Z.div_pos; lia|]. apply Z.div_lt_upper_bound; lia.
    + rewrite C. f_equal. pose proof (Z.div_mod x d). lia.
Qed.
Lemma join_pos : forall reps dims a c, length reps = length dims -> in_box dims a -> in_box reps c ->
  in_box (timesL reps dims) (addScaled a dims c) /\ modL (addScaled a dims c) dims = a.
Proof.
  induction reps as [|r reps IH]; intros [|d dims] a c HL HA HC; try discriminate; inversion HA as [|? x ? a' Hx Ha]; inversion HC as [|? y ? c' Hy Hc]; subst.
  - split; constructor.
  - destruct (IH dims a' c') as [A B]; auto. cbn [timesL addScaled modL]. split.
    + constructor; auto. nia.
    + rewrite B. f_equal. rewrite Z.mul_comm, Z.mod_add by lia. apply Z.mod_small; auto.
Qed.

Lemma assignAll_spec : forall E (h : Z -> E) keys f, (forall r, In r keys -> 0 <= r < Z.of_nat (length f)) ->
  assignAll (map (fun r => (r, h r)) keys) f =
  Ok (fold_left (fun g n => update g n (h (Z.of_nat n))) (map Z.to_nat keys) f).
Proof.
  intros E h. induction keys as [|r keys IH]; intros f H; [reflexivity|]. cbn [map assignAll fold_left].
  rewrite set1_ok by (apply H; left; auto). cbn [bind]. rewrite IH.
  - rewrite Z2Nat.id by (apply H; left; auto). reflexivity.
  - intros. rewrite update_length. apply H; right; auto.
Qed.

(** ** Replication *)
(** One field: every value of the replicated field, and the list of its values. *)
Lemma replicateField_spec : forall E (d : E) fuel f dims reps m cm rm junk,
  dims <> [] -> length reps = length dims ->
  setDimensions dims = Ok m -> setDimensions reps = Ok cm -> setDimensions (timesL reps dims) = Ok rm ->
  size m <= Z.of_nat fuel -> size cm <= Z.of_nat fuel ->
  Z.of_nat (length f) = size m -> Z.of_nat (length junk) = size rm ->
  exists g, replicateField fuel f dims reps rm junk = Ok g /\ Z.of_nat (length g) = size rm /\
    (forall p, in_box (timesL reps dims) p -> value rm g p d = value m f (modL p dims) d) /\
    Permutation g (concat (repeat f (Z.to_nat (prodZ reps)))).
Proof.
  intros E d fuel f dims reps m cm rm junk Hne HL Hm Hcm Hrm Hf1 Hf2 HLf HLj.
  assert (Hne2 : reps <> []) by (destruct dims; [congruence|destruct reps; discriminate]).
  assert (Hne3 : timesL reps dims <> []) by (destruct dims; [congruence|destruct reps; discriminate]).
  pose proof (all_positive_dims dims m Hne Hm) as PD. pose proof (all_positive_dims reps cm Hne2 Hcm) as PR.
  destruct (mesh_rank_position_bijection dims m Hne Hm) as [D1 [S1 [A1 B1]]].
  destruct (mesh_rank_position_bijection reps cm Hne2 Hcm) as [D2 [S2 [A2 B2]]].
  destruct (mesh_rank_position_bijection _ rm Hne3 Hrm) as [D3 [S3 [A3 B3]]].
  destruct (mesh_iterator_visits_all_in_order dims m fuel Hne Hm) as [V _].
  destruct (mesh_iterator_visits_all_in_order reps cm fuel Hne2 Hcm) as [W _].
  unfold replicateField. rewrite (V Hf1), (W Hf2). cbn [bind].
  set (v := map (fun r => (r, position m r)) (zseq 0 (Z.to_nat (size m)))).
  set (w := map (fun r => (r, position cm r)) (zseq 0 (Z.to_nat (size cm)))).
  set (h := fun r => nth (Z.to_nat (rank m (modL (position rm r) dims))) f d).
  set (keysOf := fun q : Z * list Z => map (fun cq => rank rm (addScaled (snd q) dims (snd cq))) w).
  assert (HV : forall q, In q v -> 0 <= fst q < size m /\ in_box dims (snd q) /\ rank m (snd q) = fst q).
  { intros q Hq. unfold v in Hq. apply in_map_iff in Hq as [r [<- Hr]]. apply zseq_in in Hr. cbn [fst snd].
    destruct (B1 r) as [X Y]; [lia|]. repeat split; auto; lia. }
  assert (HW : forall q, In q w -> in_box reps (snd q)).
  { intros q Hq. unfold w in Hq. apply in_map_iff in Hq as [r [<- Hr]]. apply zseq_in in Hr. cbn [fst snd]. apply B2. lia. }
  assert (HK : forall q cq, In q v -> In cq w -> nth (Z.to_nat (fst q)) f d = h (rank rm (addScaled (snd q) dims (snd cq)))).
  { intros q cq Hq Hc. destruct (HV q Hq) as [R1 [R2 R3]]. destruct (join_pos reps dims (snd q) (snd cq) HL R2 (HW cq Hc)) as [J1 J2].
    unfold h. destruct (A3 _ J1) as [_ ->]. rewrite J2, R3. reflexivity. }
  assert (M : mapM (fun q => x <- at1 f (fst q) ;; Ok (map (fun cq => (rank rm (addScaled (snd q) dims (snd cq)), x)) w)) v
            = Ok (map (fun q => map (fun r => (r, h r)) (keysOf q)) v)).
  { assert (G : forall l, incl l v -> mapM (fun q => x <- at1 f (fst q) ;; Ok (map (fun cq => (rank rm (addScaled (snd q) dims (snd cq)), x)) w)) l
            = Ok (map (fun q => map (fun r => (r, h r)) (keysOf q)) l)).
    { induction l as [|q l IH]; intros Hl; [reflexivity|]. cbn [mapM map].
      assert (Hq : In q v) by (apply Hl; left; auto). destruct (HV q Hq) as [R1 _].
      rewrite (at1_ok E f (fst q) d) by lia. cbn [bind]. rewrite IH by (intros x Hx; apply Hl; right; auto). cbn [bind].
      do 2 f_equal. unfold keysOf. rewrite map_map. apply map_ext_in. intros cq Hc. f_equal. apply HK; auto. }
    apply G. apply incl_refl. }
  rewrite M. cbn [bind]. set (keys := concat (map keysOf v)).
  assert (CK : concat (map (fun q => map (fun r => (r, h r)) (keysOf q)) v) = map (fun r => (r, h r)) keys).
  { unfold keys. rewrite concat_map, map_map. reflexivity. }
  rewrite CK.
  assert (HKR : forall r, In r keys -> 0 <= r < size rm).
  { intros r Hr. unfold keys in Hr. apply in_concat in Hr as [l [Hl Hr]]. apply in_map_iff in Hl as [q [<- Hq]].
    unfold keysOf in Hr. apply in_map_iff in Hr as [cq [<- Hc]]. destruct (HV q Hq) as [_ [R2 _]].
    apply A3. apply join_pos; auto. }
  assert (HKA : forall r, 0 <= r < size rm -> In r keys).
  { intros r Hr. destruct (B3 r Hr) as [P1 P2]. destruct (split_pos reps dims _ HL PD P1) as [Q1 [Q2 Q3]].
    unfold keys. apply in_concat. exists (keysOf (rank m (modL (position rm r) dims), modL (position rm r) dims)). split.
    - apply in_map_iff. eexists. split; [reflexivity|]. unfold v. apply in_map_iff.
      destruct (A1 _ Q1) as [X1 X2]. exists (rank m (modL (position rm r) dims)). rewrite X2. split; [reflexivity|]. apply zseq_in. lia.
    - unfold keysOf. cbn [snd]. apply in_map_iff. destruct (A2 _ Q2) as [X1 X2].
      exists (rank cm (divL (position rm r) dims), divL (position rm r) dims). cbn [snd]. rewrite Q3. split; [auto|].
      unfold w. apply in_map_iff. exists (rank cm (divL (position rm r) dims)). rewrite X2. split; [reflexivity|]. apply zseq_in. lia. }
  rewrite assignAll_spec by (intros r Hr; rewrite HLj; auto).
  eexists. split; [reflexivity|].
  set (g := fold_left (fun g n => update g n (h (Z.of_nat n))) (map Z.to_nat keys) junk).
  assert (LG : length g = length junk) by apply (fold_update_length E (fun n => h (Z.of_nat n))).
  assert (NG : forall r, 0 <= r < size rm -> nth (Z.to_nat r) g d = h r).
  { intros r Hr. unfold g. rewrite (fold_update_nth E (fun n => h (Z.of_nat n))) by lia.
    destruct (in_dec Nat.eq_dec (Z.to_nat r) (map Z.to_nat keys)) as [_|N]; [rewrite Z2Nat.id by lia; reflexivity|].
    exfalso. apply N. apply in_map. auto. }
  split; [lia|]. split.
  - intros p Hp. unfold value. destruct (A3 p Hp) as [X1 X2]. rewrite NG by auto. unfold h. rewrite X2. reflexivity.
  - assert (GM : g = map h (zseq 0 (Z.to_nat (size rm)))).
    { apply (nth_ext _ _ d (h 0)).
      - rewrite map_length. unfold zseq. rewrite map_length, seq_length. lia.
      - intros i Hi. rewrite map_nth. unfold zseq.
        rewrite (nth_indep _ 0 ((fun i => 0 + Z.of_nat i) 0%nat)) by (rewrite map_length, seq_length; lia).
        rewrite (map_nth (fun i => 0 + Z.of_nat i)), seq_nth by lia.
        rewrite <- (Nat2Z.id i) at 1. rewrite NG by lia. f_equal. }
    assert (Lw : length w = Z.to_nat (prodZ reps)).
    { unfold w. rewrite map_length. unfold zseq. rewrite map_length, seq_length, S2. reflexivity. }
    assert (PK : Permutation (zseq 0 (Z.to_nat (size rm))) keys).
    { apply NoDup_Permutation_bis.
      - unfold zseq. apply FinFun.Injective_map_NoDup; [intros a b; lia|apply seq_NoDup].
      - unfold keys. assert (G : forall l, length (concat (map keysOf l)) = (length l * length w)%nat).
        { induction l; [reflexivity|]. cbn [map concat length]. rewrite app_length, IHl. unfold keysOf. rewrite map_length. lia. }
        rewrite G, Lw. unfold v. rewrite map_length. unfold zseq. rewrite !map_length, !seq_length.
        rewrite S1, S3, prod_timesL by auto. pose proof (prod_positive _ PD). pose proof (prod_positive _ PR).
        rewrite Z2Nat.inj_mul by lia. lia.
      - intros r Hr. apply zseq_in in Hr. apply HKA. lia. }
    rewrite GM. rewrite (Permutation_map h PK). unfold keys. rewrite concat_map, map_map.
    rewrite <- Lw.
    assert (FV : f = map (fun q => nth (Z.to_nat (fst q)) f d) v).
    { unfold v. rewrite map_map. cbn [fst]. apply (nth_ext _ _ d (nth (Z.to_nat 0) f d)).
      - rewrite map_length. unfold zseq. rewrite map_length, seq_length. lia.
      - intros i Hi. rewrite (map_nth (fun r => nth (Z.to_nat r) f d)). unfold zseq.
        rewrite (nth_indep _ 0 ((fun i => 0 + Z.of_nat i) 0%nat)) by (rewrite map_length, seq_length; lia).
        rewrite (map_nth (fun i => 0 + Z.of_nat i)), seq_nth by lia. f_equal. lia. }
    set (u := fun q : Z * list Z => nth (Z.to_nat (fst q)) f d) in FV. rewrite FV at 1.
    assert (HE : forall q, In q v -> map h (keysOf q) = repeat (u q) (length w)).
    { intros q Hq. unfold u. unfold keysOf. rewrite map_map.
      transitivity (map (fun _ : Z * list Z => nth (Z.to_nat (fst q)) f d) w).
      - apply map_ext_in. intros cq Hc. symmetry. apply HK; auto.
      - clear. induction w; cbn; congruence. }
    rewrite (map_ext_in _ _ _ HE). clearbody u. clear. generalize (length w) as k. intros k.
    induction v as [|q v IH]; cbn [map concat].
    + induction k; cbn; auto.
    + rewrite IH. clear IH. induction k as [|k IH]; cbn [repeat concat app]; [constructor|].
      constructor. rewrite <- IH. rewrite !app_assoc. apply Permutation_app_tail. apply Permutation_app_comm.
Qed.

(** The i-th field of a list. *)
Definition nthField {E} (fs : list (list E)) (k : nat) : list E := nth k fs [].

(** The replicated fields: the mesh has replicas[i]*dims[i] points in direction i, the
    value at position p is that of the input at p mod dims, and the values of the
    replicated field are those of the input, each as often as there are replicas (so
    sums are multiplied and means unchanged). *)
Theorem C27_replicate : forall fuel fs dims reps m cm junk,
  dims <> [] -> length reps = length dims -> setDimensions dims = Ok m -> setDimensions reps = Ok cm ->
  size m <= Z.of_nat fuel -> size cm <= Z.of_nat fuel -> fs <> [] -> shaped (size m) fs ->
  exists gs rm, setDimensions (timesL reps dims) = Ok rm /\
    replicateFields fuel fs dims reps junk = Ok (timesL reps dims, gs) /\
    length gs = length fs /\ shaped (size rm) gs /\ size rm = size cm * size m /\
    (forall k p, (k < length fs)%nat -> in_box (timesL reps dims) p ->
       value rm (nthField gs k) p None = value m (nthField fs k) (modL p dims) None) /\
    (forall k, (k < length fs)%nat ->
       Permutation (nthField gs k) (concat (repeat (nthField fs k) (Z.to_nat (prodZ reps))))).
Proof.
  intros fuel fs dims reps m cm junk Hne HL Hm Hcm Hf1 Hf2 Hfs HS.
  assert (Hne2 : reps <> []) by (destruct dims; [congruence|destruct reps; discriminate]).
  assert (Hne3 : timesL reps dims <> []) by (destruct dims; [congruence|destruct reps; discriminate]).
  pose proof (all_positive_dims dims m Hne Hm) as PD. pose proof (all_positive_dims reps cm Hne2 Hcm) as PR.
  pose proof (positive_timesL reps dims HL PR PD) as PT.
  destruct (mesh_constructible _ Hne3) as [MC _]. apply MC in PT as [rm Hrm].
  destruct (mesh_rank_position_bijection dims m Hne Hm) as [_ [S1 _]].
  destruct (mesh_rank_position_bijection reps cm Hne2 Hcm) as [_ [S2 _]].
  destruct (mesh_rank_position_bijection _ rm Hne3 Hrm) as [_ [S3 _]].
  set (junks := repeat junk (Z.to_nat (meshSize (timesL reps dims)))).
  assert (LJ : Z.of_nat (length junks) = size rm).
  { unfold junks. rewrite repeat_length, meshSize_prod, S3. pose proof (size_nonneg _ rm Hne3 Hrm). lia. }
  assert (M : exists gs, mapM (fun f => replicateField fuel f dims reps rm junks) fs = Ok gs /\ length gs = length fs /\ shaped (size rm) gs /\
     (forall k p, (k < length fs)%nat -> in_box (timesL reps dims) p ->
       value rm (nthField gs k) p None = value m (nthField fs k) (modL p dims) None) /\
     (forall k, (k < length fs)%nat -> Permutation (nthField gs k) (concat (repeat (nthField fs k) (Z.to_nat (prodZ reps)))))).
  { clear Hfs. induction HS as [|f fs Hf HS IH].
    - exists []. repeat split; auto; try constructor; intros; cbn in *; lia.
    - destruct IH as [gs [G1 [G2 [G3 [G4 G5]]]]].
      destruct (replicateField_spec _ None fuel f dims reps m cm rm junks Hne HL Hm Hcm Hrm Hf1 Hf2 Hf LJ) as [g [A [B [C P]]]].
      exists (g :: gs). cbn [mapM]. rewrite A. cbn [bind]. rewrite G1. cbn [bind length]. split; [reflexivity|]. split; [lia|].
      split; [constructor; auto|]. split.
      + intros [|k] p Hk Hp; [apply C; auto|]. apply G4; auto. cbn [length] in Hk. lia.
      + intros [|k] Hk; [apply P|]. apply G5. cbn [length] in Hk. lia. }
  destruct M as [gs [G1 [G2 [G3 [G4 G5]]]]].
  exists gs, rm. split; [auto|]. split; [|split; [auto|split; [auto|split; [|split; auto]]]].
  - unfold replicateFields. destruct fs as [|f0 fs0]; [congruence|]. set (fs := f0 :: fs0) in *.
    replace (0 <? length fs)%nat with true by reflexivity. cbn [check bind].
    replace (forallb (fun r => 0 <? r) reps && forallb (fun d => 0 <? d) dims) with true.
    + cbn [check bind]. rewrite mulL_timesL, Hm, Hcm, Hrm. cbn [bind]. fold junks. rewrite G1. reflexivity.
    + symmetry. apply andb_true_iff. split; apply forallb_forall; intros x Hx; apply Z.ltb_lt;
      unfold positive in *; rewrite Forall_forall in *; auto.
  - rewrite S1, S2, S3. apply prod_timesL; auto.
Qed.
Print Assumptions C27_replicate.

(** Replica counts that are not positive are rejected. *)
Theorem C27_replicate_rejected : forall fuel fs dims c reps junk cell0 rnd,
  Exists (fun r => r <= 0) reps -> fs <> [] -> replicateFile rnd fuel fs dims c reps junk cell0 = Throw.
Proof.
  intros fuel fs dims c reps junk cell0 rnd HE Hfs. unfold replicateFile, replicateFields.
  destruct fs as [|f0 fs0]; [congruence|]. cbn [length Nat.ltb Nat.leb check bind].
  replace (forallb (fun r => 0 <? r) reps) with false; [reflexivity|].
  symmetry. induction HE as [x l H|x l H IH]; cbn [forallb].
  - destruct (Z.ltb_spec 0 x); [lia|reflexivity].
  - rewrite IH. apply andb_false_r.
Qed.
Print Assumptions C27_replicate_rejected.

(** The file: the replicated fields in a cell whose lattice vectors are multiplied; it
    can be read back by a system with that lattice and mesh. *)
Theorem C27_replicate_file : forall rnd fuel fs dims c reps m cm junk cell0 cell l rest sp io junk' c1,
  dims <> [] -> length reps = length dims -> setDimensions dims = Ok m -> setDimensions reps = Ok cm ->
  size cm * size m <= Z.of_nat fuel -> fs <> [] -> shaped (size m) fs -> allE finite fs ->
  replicateUnitCell (fun i => nth i reps 0) c cell0 = Ok cell -> cellSet cell l -> cellReady c1 l ->
  ioLat io = Some l -> ioGroup io = None -> rest <> [] \/ sp = true ->
  exists toks gs rm c', setDimensions (timesL reps dims) = Ok rm /\
    replicateFile rnd fuel fs dims c reps junk cell0 = Ok toks /\
    readFieldsRGrid fuel io (timesL reps dims) junk' None c1 (mkS (toks ++ rest) sp) = Ok (gs, c', false, mkS rest sp) /\
    (forall k p, (k < length fs)%nat -> in_box (timesL reps dims) p ->
       value rm (nthField gs k) p None = rounded rnd (value m (nthField fs k) (modL p dims) None)) /\
    cellRead rnd cell c' l.
Proof.
  intros rnd fuel fs dims c reps m cm junk cell0 cell l rest sp io junk' c1 Hne HL Hm Hcm Hf Hfs HS HFin HU HC HR HI HG HP.
  assert (Hne2 : reps <> []) by (destruct dims; [congruence|destruct reps; discriminate]).
  assert (Hne3 : timesL reps dims <> []) by (destruct dims; [congruence|destruct reps; discriminate]).
  pose proof (size_nonneg dims m Hne Hm) as P1. pose proof (size_nonneg reps cm Hne2 Hcm) as P2.
  destruct (C27_replicate fuel fs dims reps m cm junk) as [gs [rm [R1 [R2 [R3 [R4 [R5 [R6 R7]]]]]]]]; auto; try nia.
  assert (FG : allE finite gs).
  { apply Forall_forall. intros g Hg. apply (In_nth _ _ []) in Hg as [k [Hk <-]].
    assert (PK := R7 k ltac:(lia)). unfold nthField in PK. apply (Permutation_Forall (Permutation_sym PK)).
    apply Forall_forall. intros x Hx. apply in_concat in Hx as [f [Hf' Hx]]. apply repeat_spec in Hf'. subst f.
    assert (In (nth k fs []) fs) by (apply nth_In; lia). unfold allE in HFin. rewrite Forall_forall in HFin.
    specialize (HFin _ H). rewrite Forall_forall in HFin. auto. }
  set (F := map (fun g => (timesL reps dims, g)) gs).
  assert (SF : map snd F = gs) by (unfold F; rewrite map_map; cbn [snd]; apply map_id).
  assert (LF : length F = length fs) by (unfold F; rewrite map_length; auto).
  assert (NF : F <> []) by (intros E; rewrite E in LF; destruct fs; [congruence|discriminate]).
  destruct (C26_file rnd (timesL reps dims) rm fuel (mkFio None None true) io F None junk' cell c1 l false "" rest sp) as [toks [c' [W [Rd CR]]]]; auto.
  { rewrite R5. auto. }
  { unfold F. apply Forall_forall. intros f Hf'. apply in_map_iff in Hf' as [g [<- Hg]]. split; [reflexivity|].
    unfold shaped in R4. rewrite Forall_forall in R4. apply R4; auto. }
  { rewrite SF. auto. }
  { reflexivity. }
  exists toks, (map (map (rounded rnd)) gs), rm, c'. split; [auto|]. split; [|split; [|split; [|exact CR]]].
  - unfold replicateFile. rewrite R2. cbn [bind]. rewrite HU. cbn [bind fst snd]. rewrite <- W. unfold writeFieldsRGrid.
    rewrite (inspect_ok _ (timesL reps dims) (size rm)); auto.
    + cbn [bind fst snd]. unfold ioWriteHeader. cbn [bind]. rewrite LF, SF, Nat2Z.id. reflexivity.
    + unfold F. apply Forall_forall. intros f Hf'. apply in_map_iff in Hf' as [g [<- Hg]]. split; [reflexivity|].
      unfold shaped in R4. rewrite Forall_forall in R4. apply R4; auto.
  - rewrite Rd, SF. reflexivity.
  - intros k p Hk Hp. rewrite <- R6 by auto. unfold value, nthField.
    rewrite (nth_indep _ [] (map (rounded rnd) [])) by (rewrite map_length; lia). rewrite (map_nth (map (rounded rnd))).
    change None with (rounded rnd None) at 1. apply map_nth.
Qed.
Print Assumptions C27_replicate_file.

(** ** Expansion to more dimensions *)
Lemma fpos_mod : forall a n, positive a -> fpos a (n mod prodZ a) = fpos a n.
Proof.
  induction a as [|d a IH]; intros n H; [reflexivity|]. inversion H; subst. cbn [fpos prodZ].
  pose proof (prod_positive _ H3). f_equal.
  - rewrite Z.rem_mul_r by lia. rewrite Z.mul_comm, Z.mod_add, Z.mod_mod by lia. reflexivity.
  - rewrite <- (IH (n / d)) by auto. f_equal.
    rewrite Z.rem_mul_r by lia. rewrite Z.mul_comm, Z.div_add by lia.
    rewrite Z.div_small by (apply Z.mod_pos_bound; auto). reflexivity.
Qed.
Lemma fpos_app : forall a b n, positive a -> fpos (a ++ b) n = fpos a n ++ fpos b (n / prodZ a).
Proof.
  induction a as [|d a IH]; intros b n H.
  - cbn [app fpos prodZ]. rewrite Z.div_1_r. reflexivity.
  - inversion H; subst. pose proof (prod_positive _ H3). cbn [app fpos prodZ]. rewrite IH by auto.
    rewrite Z.div_div by lia. reflexivity.
Qed.
Lemma fpos_length : forall a n, length (fpos a n) = length a.
Proof. induction a; intros; cbn [fpos length]; auto. Qed.
Lemma prodZ_app : forall a b, prodZ (a ++ b) = prodZ a * prodZ b.
Proof. induction a; intros; cbn [app prodZ]; [lia|]. rewrite IHa. lia. Qed.
Lemma fpos_in_box : forall a n, positive a -> in_box a (fpos a n).
Proof. induction a; intros n H; cbn [fpos]; constructor; inversion H; subst; [apply Z.mod_pos_bound; auto|apply IHa; auto]. Qed.
Lemma periodic_concat : forall A (g : Z -> list A) a b, 0 < a -> 0 <= b -> (forall n, 0 <= n -> g (n mod a) = g n) ->
  concat (map g (zseq 0 (Z.to_nat (a * b)))) = concat (repeat (concat (map g (zseq 0 (Z.to_nat a)))) (Z.to_nat b)).
Proof.
  intros A g a b Ha Hb HP. rewrite <- (Z2Nat.id b) at 1 by auto. generalize (Z.to_nat b) as k. clear b Hb. intros k.
  induction k as [|k IH].
  - replace (Z.to_nat (a * Z.of_nat 0)) with 0%nat by lia. reflexivity.
  - replace (Z.to_nat (a * Z.of_nat (S k))) with (Z.to_nat (a * Z.of_nat k) + Z.to_nat a)%nat by lia.
    unfold zseq at 1. rewrite seq_app, !map_app, concat_app.
    assert (R : repeat (concat (map g (zseq 0 (Z.to_nat a)))) (S k) = repeat (concat (map g (zseq 0 (Z.to_nat a)))) k ++ [concat (map g (zseq 0 (Z.to_nat a)))]).
    { clear. induction k; [reflexivity|]. cbn [repeat app] in *. rewrite <- IHk. reflexivity. }
    rewrite R, concat_app, <- IH. cbn [concat]. rewrite app_nil_r. f_equal. f_equal.
    unfold zseq. rewrite !map_map. cbn [Nat.add].
    replace (seq (Z.to_nat (a * Z.of_nat k)) (Z.to_nat a)) with (map (fun i => (Z.to_nat (a * Z.of_nat k) + i)%nat) (seq 0 (Z.to_nat a))).
    + rewrite map_map. apply map_ext_in. intros i Hi. apply in_seq in Hi. rewrite <- (HP (0 + Z.of_nat (Z.to_nat (a * Z.of_nat k) + i))) by lia.
      f_equal. replace (0 + Z.of_nat (Z.to_nat (a * Z.of_nat k) + i)) with (Z.of_nat i + Z.of_nat k * a) by lia.
      rewrite Z.mod_add by lia. rewrite Z.mod_small by lia. lia.
    + clear. generalize (Z.to_nat (a * Z.of_nat k)) as s. generalize (Z.to_nat a) as n. induction n as [|n IH]; intros s; [reflexivity|].
      cbn [seq map]. f_equal; [lia|]. rewrite <- (IH (S s)). rewrite <- seq_shift, map_map. apply map_ext. intros; lia.
Qed.

(** The expanded field: the value at a position is that of the input at the first
    components of the position. *)
Definition expanded (m m' : mesh) (D : nat) (f : list (option R)) : list (option R) :=
  map (fun r => value m f (firstn D (position m' r)) None) (zseq 0 (Z.to_nat (size m'))).

(** The data section written by expandRGridDimension is that of the expanded fields. *)
Lemma expandData_spec : forall rnd fuel fs dims new m m',
  dims <> [] -> setDimensions dims = Ok m -> setDimensions (dims ++ new) = Ok m' -> size m' <= Z.of_nat fuel ->
  fs <> [] -> shaped (size m) fs ->
  exists data, expandData rnd fuel fs dims (prodZ new) = Ok data /\
    writeRGridData rnd fuel (map (expanded m m' (length dims)) fs) (length fs) (dims ++ new) = Ok data.
Proof.
  intros rnd fuel fs dims new m m' Hne Hm Hm' Hf Hfs HS.
  assert (Hne' : dims ++ new <> []) by (destruct dims; [congruence|discriminate]).
  destruct (mesh_rank_position_bijection dims m Hne Hm) as [_ [S1 [A1 B1]]].
  destruct (mesh_rank_position_bijection _ m' Hne' Hm') as [_ [S2 [A2 B2]]].
  pose proof (all_positive_dims dims m Hne Hm) as PD. pose proof (all_positive_dims _ m' Hne' Hm') as PD'.
  assert (PN : positive new). { unfold positive in *. apply Forall_app in PD'. tauto. }
  pose proof (prod_positive _ PD) as Q1. pose proof (prod_positive _ PN) as Q2.
  rewrite prodZ_app in S2.
  assert (LE : forall f, Z.of_nat (length (expanded m m' (length dims) f)) = size m').
  { intros. unfold expanded. rewrite map_length. unfold zseq. rewrite map_length, seq_length. nia. }
  assert (VE : forall f r, 0 <= r < size m' -> nth (Z.to_nat r) (expanded m m' (length dims) f) None = value m f (firstn (length dims) (position m' r)) None).
  { intros f r Hr. unfold expanded, zseq. rewrite map_map.
    rewrite (nth_indep _ None ((fun i => value m f (firstn (length dims) (position m' (0 + Z.of_nat i))) None) 0%nat)) by (rewrite map_length, seq_length; lia).
    rewrite (map_nth (fun i => value m f (firstn (length dims) (position m' (0 + Z.of_nat i))) None)), seq_nth by lia.
    do 3 f_equal. lia. }
  destruct (C26_layout rnd dims m fuel fs Hne Hm ltac:(nia) Hfs HS) as [d1 [W1 [L1 _]]].
  destruct (C26_layout rnd (dims ++ new) m' fuel (map (expanded m m' (length dims)) fs) Hne' Hm' Hf) as [d2 [W2 [L2 _]]].
  { destruct fs; [congruence|discriminate]. }
  { unfold shaped. apply Forall_forall. intros g Hg. apply in_map_iff in Hg as [f [<- _]]. apply LE. }
  exists d2. rewrite map_length in W2. split; [|exact W2].
  unfold expandData. unfold writeRGridData in W1. destruct fs as [|f0 fs0]; [congruence|]. set (fs := f0 :: fs0) in *.
  replace (0 <? length fs)%nat with true in W1 by reflexivity. rewrite Nat.eqb_refl in W1. cbn [check bind] in W1.
  destruct (f_visit fuel dims) as [v| | |]; try discriminate W1. cbn [bind] in W1 |- *. rewrite W1. cbn [bind]. f_equal.
  rewrite L1, L2, S2, S1. symmetry.
  rewrite <- (periodic_concat _ (fun n => map (fun f => dbl rnd 13 (nth (Z.to_nat (rank m (fpos dims n))) f None)) fs)); [|auto|lia|].
  - f_equal. apply map_ext_in. intros n Hn. apply zseq_in in Hn. rewrite map_map. apply map_ext. intros f. f_equal.
    assert (IB := fpos_in_box (dims ++ new) n PD'). destruct (A2 _ IB) as [X1 X2]. rewrite VE by auto. rewrite X2, fpos_app by auto.
    rewrite firstn_app, fpos_length, Nat.sub_diag, firstn_O, app_nil_r.
    rewrite <- (fpos_length dims n) at 1. rewrite firstn_all. reflexivity.
  - intros n Hn. apply map_ext. intros f. rewrite fpos_mod by auto. reflexivity.
Qed.

(** Lattice vectors of the expanded cell.  From one dimension: orthogonal vectors with
    the mesh spacing of the input along every axis.  From two: the two vectors of the
    input and a third one, perpendicular to them, with the spacing of the first axis
    (a Bravais parameter: the length of the first vector). *)
Definition expandedVectors (l : lattice) (p : nat -> R) (dims : list Z) (i j : nat) : R :=
  if (i <? dim l)%nat && (j <? dim l)%nat then rBasis l p i j
  else if (i =? j)%nat then (IZR (nth i dims 0%Z) / IZR (nth 0 dims 0%Z) * p 0%nat)%R else 0%R.


Definition expandChoice (l : lattice) (p : nat -> R) (dims : list Z) : outcome (lattice * list R) :=
  if (dim l =? 1)%nat then Ok (expandCell1 (p 0%nat) dims) else expandCell2 (Some l) p (nth 0 dims 0) (nth 2 dims 0).

Lemma expand_cell : forall l p dims junk,
  (dim l < length dims)%nat -> (length dims <= 3)%nat -> positive dims ->
  exists lp cell, expandChoice l p dims = Ok lp /\
  setLatParams (newCell (length dims) junk) (fst lp) (snd lp) = Ok cell /\
  uD cell = length dims /\ dim (fst lp) = length dims /\ cellSet cell (fst lp) /\
  forall i j, (i < length dims)%nat -> (j < length dims)%nat -> uR cell i j = expandedVectors l p dims i j.
Proof.
  intros l p dims junk HD H3 HP.
  assert (C : exists lp, expandChoice l p dims = Ok lp /\ dim (fst lp) = length dims /\ length (snd lp) = nParam (fst lp) /\
    forall q, (forall i, (i < nParam (fst lp))%nat -> q i = nth i (snd lp) 0%R) ->
    forall i j, (i < length dims)%nat -> (j < length dims)%nat -> rBasis (fst lp) q i j = expandedVectors l p dims i j).
  { assert (Q : (exists n0 n1, dims = [n0; n1] /\ 0 < n0) \/ (exists n0 n1 n2, dims = [n0; n1; n2] /\ 0 < n0)).
    { destruct dims as [|n0 [|n1 [|n2 [|n3 dims]]]]; cbn [length] in *; try lia; try (destruct l; cbn [dim] in HD; lia);
      inversion HP; subst; [left|right]; eauto 8. }
    unfold expandChoice, expandedVectors.
    destruct l; cbn [dim] in HD |- *; try lia; cbn [Nat.eqb];
    (destruct Q as [[n0 [n1 [-> HN]]]|[n0 [n1 [n2 [-> HN]]]]]; cbn [length] in HD |- *; try lia);
    cbn [expandCell1 expandCell2 nth];
    assert (HR : IZR n0 <> 0%R) by (apply not_0_IZR; lia);
    repeat match goal with |- context [if ?a =? ?b then _ else _] => destruct (Z.eqb_spec a b); subst end;
    (eexists; split; [reflexivity|]; cbn [fst snd dim nParam length]; split; [reflexivity|]; split; [reflexivity|];
    intros q F4 i j Hi Hj;
    try (assert (P0 := F4 0%nat ltac:(lia))); try (assert (P1 := F4 1%nat ltac:(lia))); try (assert (P2 := F4 2%nat ltac:(lia)));
    try (assert (P3 := F4 3%nat ltac:(lia))); try (assert (P4 := F4 4%nat ltac:(lia))); try (assert (P5 := F4 5%nat ltac:(lia)));
    cbn [nth] in *; unfold ratio in *;
    (destruct i as [|[|[|i]]]; try (exfalso; lia)); (destruct j as [|[|[|j]]]; try (exfalso; lia));
    ccell; cbn [nth]; rewrite ?P0, ?P1, ?P2, ?P3, ?P4, ?P5; rewrite ?sin_0, ?cos_0, ?cos_PI2, ?sin_PI2; try reflexivity; try (field; auto); try ring). }
  destruct C as [lp [C1 [C2 [C3 C4]]]]. exists lp.
  assert (E : exists cell, setLatParams (newCell (length dims) junk) (fst lp) (snd lp) = Ok cell).
  { unfold setLatParams, setLat, newCell. cbn [uLat bind uN uD uP uR uK uDr uDk uDrr uDkk]. rewrite C3, Nat.eqb_refl. cbn [check bind].
    unfold setLattice. cbn [withParams uLat uN]. rewrite Nat.eqb_refl. cbn [check bind]. eauto. }
  destruct E as [cell E]. exists cell. split; auto. split; auto.
  destruct (setLatParams_facts _ _ _ _ E) as [F1 [F2 [F3 [F4 F5]]]]. cbn [newCell uD] in F2.
  split; auto. split; auto. split.
  - split; auto. split; [|congruence]. revert E. unfold setLatParams, setLat, newCell. cbn [uLat bind uN uD uP uR uK uDr uDk uDrr uDkk].
    rewrite C3, Nat.eqb_refl. cbn [check bind]. unfold setLattice. cbn [withParams uLat uN]. rewrite Nat.eqb_refl. cbn [check bind].
    intros E. inversion E. reflexivity.
  - intros i j Hi Hj. rewrite F5. apply C4; auto.
Qed.

(** The file: the expanded fields, in a cell with the vectors above; it can be read by a
    system with that lattice and mesh. *)
Theorem C27_expand : forall rnd fuel fs dims new c l m m' junk,
  uLat c = Some l -> dim l = length dims -> new <> [] -> (length (dims ++ new) <= 3)%nat ->
  setDimensions dims = Ok m -> setDimensions (dims ++ new) = Ok m' -> size m' <= Z.of_nat fuel ->
  fs <> [] -> shaped (size m) fs -> allE finite fs ->
  exists toks l' cell,
    expandFile rnd fuel fs dims c (Z.of_nat (length (dims ++ new))) new junk = Ok toks /\
    dim l' = length (dims ++ new) /\ cellSet cell l' /\
    (forall i j, (i < length (dims ++ new))%nat -> (j < length (dims ++ new))%nat ->
       uR cell i j = expandedVectors l (uP c) (dims ++ new) i j) /\
    forall rest sp io junk' c1, cellReady c1 l' -> ioLat io = Some l' -> ioGroup io = None -> rest <> [] \/ sp = true ->
    exists gs c', readFieldsRGrid fuel io (dims ++ new) junk' None c1 (mkS (toks ++ rest) sp) = Ok (gs, c', false, mkS rest sp) /\
      cellRead rnd cell c' l' /\ length gs = length fs /\
      forall k p, (k < length fs)%nat -> in_box (dims ++ new) p ->
        value m' (nthField gs k) p None = rounded rnd (value m (nthField fs k) (firstn (length dims) p) None).
Proof.
  intros rnd fuel fs dims new c l m m' junk HL HD Hnew H3 Hm Hm' Hf Hfs HS HFin.
  assert (Hne : dims <> []) by (intros ->; destruct l; discriminate).
  assert (Hne' : dims ++ new <> []) by (destruct dims; [congruence|discriminate]).
  pose proof (all_positive_dims _ m' Hne' Hm') as PD'.
  assert (PN : positive new) by (unfold positive in *; apply Forall_app in PD'; tauto).
  pose proof (prod_positive _ PN) as Q2. pose proof (prod_positive _ PD') as Q3.
  destruct (mesh_rank_position_bijection _ m' Hne' Hm') as [_ [S2 [A2 B2]]].
  destruct (expand_cell l (uP c) (dims ++ new) junk) as [lp [cell [X1 [X2 [X3 [X4 [X5 X6]]]]]]]; auto.
  { rewrite app_length, HD. destruct new; [congruence|cbn [length]; lia]. }
  destruct (expandData_spec rnd fuel fs dims new m m' Hne Hm Hm' Hf Hfs HS) as [data [D1 D2]].
  assert (Hn : 0 < Z.of_nat (length fs)) by (destruct fs; [congruence|cbn [length]; lia]).
  destruct (C26_header rnd 1 0 cell cell (fst lp) "" (Z.of_nat (length fs)) [] false X5) as [head [ch [W0 _]]]; auto.
  { destruct X5 as [Y1 [Y2 Y3]]. split; auto. }
  exists (head ++ writeMeshDimensions (dims ++ new) ++ data), (fst lp), cell. split; [|split; [auto|split; [auto|split; [auto|]]]].
  - unfold expandFile. unfold expandChoice in X1. rewrite HL. rewrite HD in X1.
    assert (LF : (0 <? length fs)%nat = true) by (destruct fs; [congruence|reflexivity]).
    destruct dims as [|n0 [|n1 [|n2 dims]]]; try congruence.
    + cbn [length Nat.eqb app] in X1, X2, D1, H3 |- *. assert (X1' : expandCell1 (uP c 0%nat) (n0 :: new) = lp) by congruence. clear X1.
      assert (length new = 1 \/ length new = 2)%nat as HN by (destruct new as [|? [|? [|]]]; cbn [length] in *; try lia; congruence).
      replace (1 <? Z.of_nat (S (length new))) with true by (symmetry; apply Z.ltb_lt; lia).
      replace (Z.of_nat (S (length new)) <=? 3) with true by (symmetry; apply Z.leb_le; lia).
      replace (Z.of_nat (length new) =? Z.of_nat (S (length new)) - 1) with true by (symmetry; apply Z.eqb_eq; lia).
      rewrite LF. cbn [check bind]. rewrite X1', Nat2Z.id, X2. cbn [bind]. rewrite W0. cbn [bind].
      replace (fold_left Z.mul new 1) with (prodZ new).
      2:{ destruct new as [|a [|b [|]]]; cbn [length] in HN; try lia; cbn [prodZ fold_left]; lia. }
      rewrite D1. cbn [bind]. reflexivity.
    + cbn [length Nat.eqb app] in X1, X2, D1, H3 |- *. destruct new as [|n2 [|]]; try congruence; cbn [length] in H3 |- *; try lia.
      change (Z.of_nat 3 =? 3) with true. cbn [Nat.eqb check bind hd]. rewrite LF. cbn [nth] in X1. cbn [check bind]. rewrite X1. cbn [bind].
      cbn [length] in X2. rewrite X2. cbn [bind]. rewrite W0. cbn [bind].
      cbn [prodZ] in D1. rewrite Z.mul_1_r in D1. rewrite D1. reflexivity.
    + cbn [length app] in *. destruct new; [congruence|]. rewrite app_length in H3. cbn [length] in H3. lia.
  - intros rest sp io junk' c1 HR HI HG HP.
    set (G := map (expanded m m' (length dims)) fs) in *.
    set (F := map (fun g => (dims ++ new, g)) G).
    assert (LE : forall f, Z.of_nat (length (expanded m m' (length dims) f)) = size m').
    { intros. unfold expanded. rewrite map_length. unfold zseq. rewrite map_length, seq_length. rewrite S2. lia. }
    assert (SF : map snd F = G) by (unfold F; rewrite map_map; cbn [snd]; apply map_id).
    assert (LF : length F = length fs) by (unfold F, G; rewrite !map_length; auto).
    assert (NF : F <> []) by (intros E; rewrite E in LF; destruct fs; [congruence|discriminate]).
    assert (OM : onMesh (dims ++ new) (size m') F).
    { unfold F, G. apply Forall_forall. intros f Hf'. apply in_map_iff in Hf' as [g [<- Hg]]. apply in_map_iff in Hg as [g0 [<- _]]. split; [reflexivity|apply LE]. }
    destruct (C26_file rnd (dims ++ new) m' fuel (mkFio None None true) io F None junk' cell c1 (fst lp) false "" rest sp) as [toks [c' [W [Rd CR]]]]; auto.
    { rewrite SF. unfold G. apply Forall_forall. intros g Hg. apply in_map_iff in Hg as [f [<- Hg]].
      apply Forall_forall. intros x Hx. unfold expanded in Hx. apply in_map_iff in Hx as [r [<- Hr]]. apply zseq_in in Hr.
      assert (Hr' : 0 <= r < size m') by lia. destruct (B2 r Hr') as [IB _].
      unfold allE in HFin. rewrite Forall_forall in HFin. specialize (HFin f Hg). rewrite Forall_forall in HFin. apply HFin.
      unfold value. apply nth_In. unfold shaped in HS. rewrite Forall_forall in HS. specialize (HS f Hg).
      destruct (mesh_rank_position_bijection dims m Hne Hm) as [_ [S1 [A1 B1]]].
      assert (IBF : in_box dims (firstn (length dims) (position m' r))).
      { clear -IB. revert IB. generalize (position m' r) as p. induction dims; intros p IB; cbn [length firstn]; [constructor|].
        cbn [app] in IB. inversion IB; subst. constructor; auto. apply IHdims; auto. }
      destruct (A1 _ IBF) as [RR _]. lia. }
    { reflexivity. }
    exists (map (map (rounded rnd)) G), c'.
    assert (TT : toks = head ++ writeMeshDimensions (dims ++ new) ++ data).
    { revert W. unfold writeFieldsRGrid. rewrite (inspect_ok _ (dims ++ new) (size m')); auto. cbn [bind fst snd]. unfold ioWriteHeader.
      cbn [bind]. rewrite LF, SF, Nat2Z.id, W0. cbn [bind]. rewrite D2. cbn [bind]. intros E. inversion E. reflexivity. }
    rewrite <- TT. rewrite SF in Rd. split; [exact Rd|]. split; [exact CR|]. split; [rewrite map_length; unfold G; rewrite map_length; reflexivity|].
    intros k p Hk Hp. destruct (A2 _ Hp) as [R1 R2]. unfold value at 1, nthField.
    unfold G. rewrite map_map. rewrite (nth_indep _ [] ((fun f => map (rounded rnd) (expanded m m' (length dims) f)) [])) by (rewrite map_length; lia).
    rewrite (map_nth (fun f => map (rounded rnd) (expanded m m' (length dims) f))). change None with (rounded rnd None) at 1. rewrite map_nth. f_equal.
    unfold expanded, zseq. rewrite map_map.
    rewrite (nth_indep _ None ((fun i => value m (nth k fs []) (firstn (length dims) (position m' (0 + Z.of_nat i))) None) 0%nat)) by (rewrite map_length, seq_length; lia).
    rewrite (map_nth (fun i => value m (nth k fs []) (firstn (length dims) (position m' (0 + Z.of_nat i))) None)), seq_nth by lia.
    rewrite Nat.add_0_l, Z.add_0_l, Z2Nat.id by lia. rewrite R2. reflexivity.
Qed.
Print Assumptions C27_expand.

(** Requests that are not an expansion by at least one and to at most three dimensions,
    or that give the wrong number of new dimensions, are rejected. *)
Theorem C27_expand_rejected : forall rnd fuel fs dims c d new junk,
  Z.of_nat (length (dims ++ new)) <> d \/ 3 < d \/ new = [] \/ dims = [] \/ fs = [] ->
  expandFile rnd fuel fs dims c d new junk = Throw.
Proof.
  intros rnd fuel fs dims c d new junk H. unfold expandFile.
  destruct dims as [|n0 [|n1 [|n2 dims]]]; auto.
  - cbn [app length] in H.
    destruct (Z.ltb_spec 1 d); auto. destruct (Z.leb_spec d 3); auto. cbn [check bind].
    destruct (Z.eqb_spec (Z.of_nat (length new)) (d - 1)); auto. cbn [check bind].
    destruct H as [H|[H|[H|[H|H]]]]; try lia; try congruence; subst; [cbn [length] in *; lia|reflexivity].
  - cbn [app length] in H.
    destruct (Z.eqb_spec d 3); auto. cbn [check bind]. destruct (Nat.eqb_spec (length new) 1); auto. cbn [check bind].
    destruct H as [H|[H|[H|[H|H]]]]; try lia; try congruence; subst; [cbn [length] in *; lia|reflexivity].
Qed.
Print Assumptions C27_expand_rejected.

(** New dimensions that are not positive are accepted: two negative numbers give a file
    whose header has mesh dimensions that no mesh can have, and the field is written
    (product) many times. *)
Theorem C27_expand_nonpositive_refuted : exists rnd fuel fs dims c new junk toks m,
  setDimensions dims = Ok m /\ shaped (size m) fs /\ fs <> [] /\ uLat c = Some Lamellar /\
  Exists (fun n => n <= 0) new /\ setDimensions (dims ++ new) = Throw /\
  expandFile rnd fuel fs dims c (Z.of_nat (length (dims ++ new))) new junk = Ok toks.
Proof.
  pose (c := mkUcell 1 (Some Lamellar) 1 (fun _ => 3%R) true (fun _ _ => 0%R) (fun _ _ => 0%R) (fun _ _ _ => 0%R) (fun _ _ _ => 0%R) (fun _ _ _ => 0%R) (fun _ _ _ => 0%R)).
  exists (fun _ x => x), 5%nat, [[Some 1%R; Some 2%R]], [2], c, [-2; -3], (fun _ => 0%R).
  do 2 eexists. split; [reflexivity|]. split; [repeat constructor|]. split; [discriminate|]. split; [reflexivity|].
  split; [constructor; lia|]. split; [reflexivity|]. unfold expandFile. cbn [app length]. cbn -[setLatParams expandData writeFieldHeader].
  unfold setLatParams. cbn [setLat newCell uLat bind uN check Nat.eqb length nParam setLattice withParams fst snd].
  cbn -[expandData]. reflexivity.
Qed.
Print Assumptions C27_expand_nonpositive_refuted.

(** A lamellar field on two points: three replicas, and an expansion to a 2 x 4 mesh. *)
Example C27_case :
  let fs := [[Some 1%R; Some 2%R]] in
  replicateFields 6 fs [2] [3] None = Ok ([6], [[Some 1%R; Some 2%R; Some 1%R; Some 2%R; Some 1%R; Some 2%R]]) /\
  (exists m m', setDimensions [2] = Ok m /\ setDimensions [2; 2] = Ok m' /\
     map (expanded m m' 1) fs = [[Some 1%R; Some 1%R; Some 2%R; Some 2%R]]) /\
  expandedVectors Lamellar (fun _ => 3%R) [2; 4] 1 1 = 6%R.
Proof.
  split; [reflexivity|]. split; [|unfold expandedVectors; cbn; lra].
  do 2 eexists. split; [reflexivity|]. split; reflexivity.
Qed.
