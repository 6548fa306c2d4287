From Coq Require Import ZArith List Bool Lia Permutation.
From Verif Require Import Base Mesh MeshSpec.
Import ListNotations.
Local Open Scope Z_scope.

Lemma all_positive_iff : forall dims, all_positive dims = true <-> positive dims.
Proof.
  intros; unfold all_positive, positive. rewrite forallb_forall, Forall_forall.
  split; intros H d Hd; specialize (H d Hd).
  - apply negb_true_iff, Z.leb_gt in H. lia.
  - apply negb_true_iff, Z.leb_gt. lia.
Qed.

Lemma prodZ_pos : forall dims, positive dims -> 0 < prodZ dims.
Proof. induction 1; simpl; nia. Qed.

Lemma mk_offsets_cons : forall d ds, mk_offsets (d :: ds) = prodZ ds :: mk_offsets ds.
Proof.
  intros d ds; revert d; induction ds as [|d1 ds IH]; intros; auto.
  change (mk_offsets (d :: d1 :: ds)) with
    (match mk_offsets (d1 :: ds) with [] => [] | o1 :: os => o1 * d1 :: o1 :: os end).
  rewrite IH. simpl. f_equal. lia.
Qed.

Lemma mk_offsets_length : forall dims, length (mk_offsets dims) = length dims.
Proof. induction dims; auto. rewrite mk_offsets_cons; simpl; auto. Qed.

Fixpoint rk (dims pos : list Z) : Z :=
  match dims, pos with
  | _ :: ds, p :: ps => p * prodZ ds + rk ds ps
  | _, _ => 0
  end.
Fixpoint ps (dims : list Z) (n : Z) : list Z :=
  match dims with
  | [] => []
  | _ :: ds => n / prodZ ds :: ps ds (n mod prodZ ds)
  end.

Lemma rank_loop_rk : forall dims pos acc, length pos = length dims ->
  rank_loop (mk_offsets dims) pos acc = acc + rk dims pos.
Proof.
  induction dims as [|d ds IH]; intros [|p ps0] acc H; simpl in H; try lia.
  - simpl. lia.
  - rewrite mk_offsets_cons. destruct ps0 as [|p1 ps1].
    + destruct ds; simpl in *; try lia.
    + change (rank_loop (prodZ ds :: mk_offsets ds) (p :: p1 :: ps1) acc)
        with (rank_loop (mk_offsets ds) (p1 :: ps1) (acc + p * prodZ ds)).
      rewrite IH by (simpl in *; lia). simpl. lia.
Qed.

Lemma f_rank_loop_rk : forall dims pos acc, length pos = length dims ->
  f_rank_loop (mk_offsets dims) pos acc = acc + rk dims pos.
Proof.
  induction dims as [|d ds IH]; intros [|p ps0] acc H; simpl in H; try lia.
  - simpl. lia.
  - rewrite mk_offsets_cons. cbn [f_rank_loop]. rewrite IH by lia. simpl. lia.
Qed.

Lemma position_loop_ps : forall dims n, positive dims -> 0 <= n ->
  position_loop (mk_offsets dims) n = ps dims n.
Proof.
  induction dims as [|d ds IH]; intros n HP Hn; auto.
  inversion HP; subst. rewrite mk_offsets_cons.
  destruct ds as [|d1 ds1].
  - simpl. rewrite Z.div_1_r. auto.
  - assert (Hp := prodZ_pos _ H2).
    rewrite mk_offsets_cons at 1.
    change (position_loop (prodZ (d1::ds1) :: prodZ ds1 :: mk_offsets ds1) n)
      with (Z.quot n (prodZ (d1::ds1)) :: position_loop (prodZ ds1 :: mk_offsets ds1)
               (n - Z.quot n (prodZ (d1::ds1)) * prodZ (d1::ds1))).
    rewrite Z.quot_div_nonneg by lia.
    replace (n - n / prodZ (d1 :: ds1) * prodZ (d1 :: ds1)) with (n mod prodZ (d1::ds1))
      by (rewrite Z.mod_eq by lia; lia).
    rewrite <- mk_offsets_cons with (d:=d1).
    rewrite IH; auto.
    apply Z.mod_pos_bound; lia.
Qed.

Lemma in_box_length : forall dims pos, in_box dims pos -> length pos = length dims.
Proof. induction 1; simpl; auto. Qed.

Lemma rk_range : forall dims pos, in_box dims pos -> 0 <= rk dims pos < prodZ dims.
Proof. induction 1; simpl; try lia. nia. Qed.

Lemma in_box_positive : forall dims pos, in_box dims pos -> positive dims.
Proof. induction 1; constructor; auto; lia. Qed.

Lemma ps_in_box : forall dims n, positive dims -> 0 <= n < prodZ dims -> in_box dims (ps dims n).
Proof.
  induction dims as [|d ds IH]; intros n HP Hn; constructor.
  - inversion HP; subst. assert (Hp := prodZ_pos _ H2). simpl in Hn. split.
    + apply Z.div_pos; lia.
    + apply Z.div_lt_upper_bound; lia.
  - inversion HP; subst. apply IH; auto. apply Z.mod_pos_bound, prodZ_pos; auto.
Qed.

Lemma rk_ps : forall dims n, positive dims -> 0 <= n < prodZ dims -> rk dims (ps dims n) = n.
Proof.
  induction dims as [|d ds IH]; intros n HP Hn; simpl in *; try lia.
  inversion HP; subst. assert (Hp := prodZ_pos _ H2).
  rewrite IH; auto. 2: apply Z.mod_pos_bound; auto.
  rewrite Z.mod_eq by lia. lia.
Qed.

Lemma ps_rk : forall dims pos, in_box dims pos -> ps dims (rk dims pos) = pos.
Proof.
  induction 1; simpl; auto.
  assert (Hr := rk_range _ _ H0).
  f_equal.
  - rewrite Z.add_comm, Z.div_add, Z.div_small by lia. lia.
  - rewrite Z.add_comm, Z.mod_add, Z.mod_small by lia. auto.
Qed.

Lemma rk_lex : forall dims p q, in_box dims p -> in_box dims q ->
  (rk dims p < rk dims q <-> lex_lt p q).
Proof.
  induction dims as [|d ds IH]; intros p q Hp Hq; inversion Hp; inversion Hq; subst; simpl.
  - lia.
  - assert (R1 := rk_range _ _ H3). assert (R2 := rk_range _ _ H8).
    rewrite <- (IH _ _ H3 H8). nia.
Qed.

Lemma fold_left_mul : forall l a, fold_left Z.mul l a = a * prodZ l.
Proof. induction l; intros; simpl; try lia. rewrite IHl. lia. Qed.

Lemma setDimensions_spec : forall dims, dims <> [] -> positive dims ->
  setDimensions dims = Ok (mkMesh dims (mk_offsets dims) (prodZ dims)).
Proof.
  intros dims Hne HP. unfold setDimensions.
  rewrite (proj2 (all_positive_iff dims) HP).
  destruct dims as [|d ds]; [congruence|]. rewrite mk_offsets_cons. simpl.
  do 2 f_equal. lia.
Qed.

(* ---- shift ---- *)
Lemma shift1_spec : forall d c, 0 < d ->
  let (c', s) := shift1 d c in 0 <= c' < d /\ c = c' + s * d.
Proof.
  intros d c Hd. unfold shift1.
  destruct (Z.leb_spec 0 c).
  - rewrite Z.quot_div_nonneg by lia. split; [|lia].
    pose proof (Z.mod_pos_bound c d Hd). rewrite Z.mod_eq in H0 by lia. lia.
  - split; [|lia].
    assert (E : Z.quot (c+1) d = - ((-(c+1)) / d)).
    { rewrite <- Z.quot_div_nonneg by lia. rewrite Z.quot_opp_l by lia. lia. }
    rewrite E.
    pose proof (Z.mod_pos_bound (-(c+1)) d Hd). rewrite Z.mod_eq in H0 by lia. lia.
Qed.

Lemma shift_spec : forall dims pos, positive dims -> length pos = length dims ->
  let (pos', s) := shift dims pos in
  in_box dims pos' /\ length s = length dims /\
  pos = map (fun t => fst (fst t) + snd (fst t) * snd t) (combine (combine pos' s) dims).
Proof.
  induction dims as [|d ds IH]; intros [|p q] HP HL; simpl in HL; try lia.
  - simpl. repeat split; auto. constructor.
  - inversion HP; subst. cbn [shift].
    pose proof (shift1_spec d p H1). destruct (shift1 d p) as [p' s].
    specialize (IH q H2 ltac:(lia)). destruct (shift ds q) as [q' ss].
    destruct H as [A B]. destruct IH as [I1 [I2 I3]].
    repeat split.
    + constructor; [exact A|exact I1].
    + simpl; lia.
    + simpl. rewrite <- I3. f_equal. auto.
Qed.

Lemma isInMesh1_iff : forall d c, isInMesh1 d c = true <-> 0 <= c < d.
Proof.
  intros; unfold isInMesh1. destruct (Z.ltb_spec c 0); destruct (Z.leb_spec d c);
  split; intros; try discriminate; try lia; auto.
Qed.

Lemma isInMesh_iff : forall dims pos, length pos = length dims ->
  (isInMesh dims pos = true <-> in_box dims pos).
Proof.
  induction dims as [|d ds IH]; intros [|p q] HL; simpl in HL; try lia.
  - split; intros; auto. constructor.
  - simpl. rewrite andb_true_iff, isInMesh1_iff, IH by lia.
    split; intros H.
    + constructor; tauto.
    + inversion H; subst; tauto.
Qed.

(* ---- C-order iterator ---- *)

Lemma it_increment_spec : forall dims pos, in_box dims pos ->
  it_increment dims pos =
    if rk dims pos + 1 =? prodZ dims then (true, repeat 0 (length dims))
    else (false, ps dims (rk dims pos + 1)).
Proof.
  induction 1 as [|d p ds q Hp Hq IH]; simpl; auto.
  rewrite IH. assert (R := rk_range _ _ Hq).
  destruct (Z.eqb_spec (rk ds q + 1) (prodZ ds)) as [E|E].
  - destruct (Z.eqb_spec (p+1) d) as [E1|E1].
    + subst d. destruct (Z.eqb_spec (p * prodZ ds + rk ds q + 1) ((p+1) * prodZ ds)); [reflexivity|lia].
    + destruct (Z.eqb_spec (p * prodZ ds + rk ds q + 1) (d * prodZ ds)); [nia|].
      replace (p * prodZ ds + rk ds q + 1) with (0 + (p+1) * prodZ ds) by lia.
      rewrite Z.div_add, Z.mod_add by lia. rewrite Z.div_0_l, Z.mod_0_l by lia.
      f_equal. f_equal.
      clear -Hq. assert (HP := in_box_positive _ _ Hq). clear Hq q.
      induction ds; simpl; auto. inversion HP; subst. assert (A := prodZ_pos _ H2).
      rewrite Z.div_0_l, Z.mod_0_l by lia. f_equal; auto.
  - destruct (Z.eqb_spec (p * prodZ ds + rk ds q + 1) (d * prodZ ds)) as [E1|E1]; [nia|].
    replace (p * prodZ ds + rk ds q + 1) with ((rk ds q + 1) + p * prodZ ds) by lia.
    rewrite Z.div_add, Z.mod_add by lia.
    rewrite Z.div_small, Z.mod_small by lia. reflexivity.
Qed.

Lemma ps_0 : forall dims, positive dims -> ps dims 0 = repeat 0 (length dims).
Proof.
  induction dims; intros HP; simpl; auto. inversion HP; subst. assert (A := prodZ_pos _ H2).
  rewrite Z.div_0_l, Z.mod_0_l by lia. f_equal; auto.
Qed.

Lemma zseq_S : forall s n, zseq s (S n) = s :: zseq (s+1) n.
Proof.
  intros; unfold zseq; simpl. f_equal; try lia.
  rewrite <- seq_shift, map_map. apply map_ext; intros; lia.
Qed.

Lemma zseq_length : forall s n, length (zseq s n) = n.
Proof. intros; unfold zseq; rewrite map_length, seq_length; auto. Qed.

Lemma in_zseq : forall s n x, In x (zseq s n) <-> s <= x < s + Z.of_nat n.
Proof.
  intros; unfold zseq. rewrite in_map_iff. split.
  - intros [i [E H]]. apply in_seq in H. lia.
  - intros. exists (Z.to_nat (x - s)). split; try lia. apply in_seq. lia.
Qed.

Lemma nth_zseq : forall s n i d, (i < n)%nat -> nth i (zseq s n) d = s + Z.of_nat i.
Proof.
  intros; unfold zseq. rewrite nth_indep with (d' := s + Z.of_nat 0).
  - rewrite (map_nth (fun i => s + Z.of_nat i)). rewrite seq_nth by auto. f_equal.
  - rewrite map_length, seq_length; auto.
Qed.

Lemma zseq_NoDup : forall s n, NoDup (zseq s n).
Proof.
  intros; unfold zseq. apply FinFun.Injective_map_NoDup; [|apply seq_NoDup].
  intros a b H; lia.
Qed.

Lemma it_loop_spec : forall dims, positive dims -> forall k fuel n,
  0 <= n -> n + Z.of_nat k = prodZ dims -> (k <= fuel)%nat ->
  it_loop fuel (mkIter dims (if n =? prodZ dims then repeat 0 (length dims) else ps dims n)
                       n (prodZ dims))
  = Ok (map (fun r => (r, ps dims r)) (zseq n k)).
Proof.
  intros dims HP. induction k; intros fuel n Hn Hk Hf.
  - destruct fuel; simpl; unfold it_atEnd; simpl; rewrite (proj2 (Z.eqb_eq _ _)) by lia; auto.
  - destruct fuel as [|fuel]; [lia|].
    cbn [it_loop]. unfold it_atEnd. cbn [it_rank it_size it_pos].
    destruct (Z.eqb_spec n (prodZ dims)); [lia|].
    unfold it_next. cbn [it_dims it_pos it_rank it_size].
    rewrite it_increment_spec by (apply ps_in_box; auto; lia).
    rewrite rk_ps by (auto; lia).
    replace (snd (if n + 1 =? prodZ dims then (true, repeat 0 (length dims))
                  else (false, ps dims (n+1))))
       with (if n + 1 =? prodZ dims then repeat 0 (length dims) else ps dims (n+1))
       by (destruct (n+1 =? prodZ dims); auto).
    rewrite (IHk fuel (n+1)) by lia. rewrite zseq_S. reflexivity.
Qed.

Lemma it_visit_spec : forall dims fuel, positive dims -> prodZ dims <= Z.of_nat fuel ->
  it_visit fuel dims = Ok (map (fun r => (r, ps dims r)) (zseq 0 (Z.to_nat (prodZ dims)))).
Proof.
  intros dims fuel HP Hf. unfold it_visit, it_setDimensions.
  rewrite (proj2 (all_positive_iff dims) HP). cbn [bind]. unfold it_begin.
  cbn [it_dims it_size]. rewrite fold_left_mul, Z.mul_1_l.
  assert (A := prodZ_pos _ HP).
  rewrite <- (it_loop_spec dims HP (Z.to_nat (prodZ dims)) fuel 0) by lia.
  destruct (Z.eqb_spec 0 (prodZ dims)); [lia|]. rewrite ps_0; auto.
Qed.

(* ---- Fortran-order iterator ---- *)

Fixpoint frk (dims pos : list Z) : Z :=
  match dims, pos with
  | d :: ds, p :: ps => p + d * frk ds ps
  | _, _ => 0
  end.

Lemma fpos_in_box : forall dims n, positive dims -> in_box dims (fpos dims n).
Proof.
  induction dims as [|d ds IH]; intros n HP; constructor; inversion HP; subst; auto.
  apply Z.mod_pos_bound; lia. apply IH; auto.
Qed.

Lemma frk_range : forall dims pos, in_box dims pos -> 0 <= frk dims pos < prodZ dims.
Proof. induction 1; simpl; try lia. nia. Qed.

Lemma frk_fpos : forall dims n, positive dims -> 0 <= n < prodZ dims -> frk dims (fpos dims n) = n.
Proof.
  induction dims as [|d ds IH]; intros n HP Hn; simpl in *; try lia.
  inversion HP; subst. rewrite IH; auto.
  - rewrite Z.mod_eq by lia. lia.
  - split. apply Z.div_pos; lia. apply Z.div_lt_upper_bound; lia.
Qed.

Lemma fpos_frk : forall dims pos, in_box dims pos -> fpos dims (frk dims pos) = pos.
Proof.
  induction 1; simpl; auto.
  f_equal.
  - rewrite Z.mul_comm, Z.mod_add, Z.mod_small by lia. auto.
  - rewrite Z.mul_comm, Z.div_add, Z.div_small by lia. auto.
Qed.

Lemma f_increment_spec : forall dims pos, dims <> [] -> in_box dims pos ->
  f_increment dims pos =
    if frk dims pos + 1 =? prodZ dims then (true, repeat 0 (length dims))
    else (false, fpos dims (frk dims pos + 1)).
Proof.
  intros dims pos Hne H. induction H as [|d p ds q Hp Hq IH]; [congruence|].
  clear Hne. cbn [f_increment]. assert (R := frk_range _ _ Hq).
  cbn [frk prodZ].
  destruct (Z.eqb_spec (p+1) d) as [E|E].
  - destruct ds as [|d1 ds1].
    + inversion Hq; subst; simpl. destruct (Z.eqb_spec (p + (p+1)*0 + 1) ((p+1)*1)); [auto|lia].
    + rewrite IH by congruence.
      destruct (Z.eqb_spec (frk (d1::ds1) q + 1) (prodZ (d1::ds1))) as [E1|E1].
      * destruct (Z.eqb_spec (p + d * frk (d1::ds1) q + 1) (d * prodZ (d1::ds1))); [auto|nia].
      * destruct (Z.eqb_spec (p + d * frk (d1::ds1) q + 1) (d * prodZ (d1::ds1))); [nia|].
        cbn [fpos]. fold (fpos (d1::ds1)).
        replace (p + d * frk (d1::ds1) q + 1) with (0 + (frk (d1::ds1) q + 1) * d) by lia.
        rewrite Z.mod_add, Z.div_add, Z.mod_0_l, Z.div_0_l by lia. auto.
  - destruct (Z.eqb_spec (p + d * frk ds q + 1) (d * prodZ ds)); [nia|].
    cbn [fpos].
    replace (p + d * frk ds q + 1) with ((p + 1) + frk ds q * d) by lia.
    rewrite Z.mod_add, Z.div_add by lia.
    rewrite Z.mod_small, Z.div_small by lia. rewrite Z.add_0_l, fpos_frk; auto.
Qed.

Lemma f_loop_spec : forall dims, dims <> [] -> positive dims -> forall k fuel n,
  0 <= n -> n + Z.of_nat k = prodZ dims -> (k <= fuel)%nat ->
  f_loop fuel (mkFort dims (mk_offsets dims)
       (if n =? prodZ dims then repeat 0 (length dims) else fpos dims n)
       (if n =? prodZ dims then 0 else rk dims (fpos dims n)) (prodZ dims)
       (n =? prodZ dims))
  = Ok (map (fun i => (rk dims (fpos dims i), fpos dims i)) (zseq n k)).
Proof.
  intros dims Hne HP.
  assert (Z0 : rk dims (repeat 0 (length dims)) = 0).
  { clear. induction dims; simpl; auto; lia. }
  induction k; intros fuel n Hn Hk Hf.
  - destruct fuel; simpl; rewrite (proj2 (Z.eqb_eq n _)) by lia; auto.
  - destruct fuel as [|fuel]; [lia|].
    cbn [f_loop f_atEnd].
    destruct (Z.eqb_spec n (prodZ dims)); [lia|].
    unfold f_next. cbn [f_dims f_pos f_rank f_size f_offsets f_atEnd negb check bind].
    rewrite f_increment_spec by (auto; apply fpos_in_box; auto).
    rewrite frk_fpos by (auto; lia).
    assert (L : forall m, length (fpos dims m) = length dims).
    { intros. apply in_box_length, fpos_in_box; auto. }
    specialize (IHk fuel (n+1) ltac:(lia) ltac:(lia) ltac:(lia)).
    destruct (Z.eqb_spec (n+1) (prodZ dims)) as [E|E]; cbn [bind].
    + rewrite f_rank_loop_rk by (rewrite repeat_length; auto). rewrite Z0, Z.add_0_l.
      rewrite IHk. rewrite zseq_S. reflexivity.
    + rewrite f_rank_loop_rk, Z.add_0_l by auto.
      rewrite IHk. rewrite zseq_S. reflexivity.
Qed.

Lemma fpos_0 : forall dims, positive dims -> fpos dims 0 = repeat 0 (length dims).
Proof.
  induction dims; intros HP; simpl; auto. inversion HP; subst.
  rewrite Z.div_0_l, Z.mod_0_l by lia. f_equal; auto.
Qed.

Lemma f_visit_spec : forall dims fuel, dims <> [] -> positive dims -> prodZ dims <= Z.of_nat fuel ->
  f_visit fuel dims =
  Ok (map (fun i => (rk dims (fpos dims i), fpos dims i)) (zseq 0 (Z.to_nat (prodZ dims)))).
Proof.
  intros dims fuel Hne HP Hf. unfold f_visit, f_setDimensions.
  rewrite (proj2 (all_positive_iff dims) HP).
  assert (A := prodZ_pos _ HP).
  unfold f_begin. cbn [f_dims f_size f_offsets]. rewrite fold_left_mul, Z.mul_1_l.
  rewrite (proj2 (Z.ltb_lt 0 (prodZ dims))) by lia. cbn [check bind f_dims f_size f_offsets].
  rewrite (proj2 (Z.ltb_lt 0 (prodZ dims))) by lia. cbn [check bind].
  rewrite <- (f_loop_spec dims Hne HP (Z.to_nat (prodZ dims)) fuel 0) by lia.
  destruct (Z.eqb_spec 0 (prodZ dims)); [lia|].
  rewrite fpos_0 by auto. do 2 f_equal.
  clear. induction dims; simpl; auto; lia.
Qed.

Lemma f_visit_ranks : forall dims, positive dims ->
  Permutation (map (fun i => rk dims (fpos dims i)) (zseq 0 (Z.to_nat (prodZ dims))))
              (zseq 0 (Z.to_nat (prodZ dims))).
Proof.
  intros dims HP. assert (A := prodZ_pos _ HP).
  apply NoDup_Permutation_bis.
  - assert (G : forall l, (forall x, In x l -> 0 <= x < prodZ dims) -> NoDup l ->
       NoDup (map (fun i => rk dims (fpos dims i)) l)).
    { induction l; intros Hr Hd; simpl; constructor.
      - inversion Hd; subst. intros Hin. apply in_map_iff in Hin. destruct Hin as [x [E Hx]].
        apply H1. replace a with x; auto.
        rewrite <- (frk_fpos dims x), <- (frk_fpos dims a) by (auto; apply Hr; simpl; auto).
        f_equal. rewrite <- (ps_rk dims (fpos dims x)), <- (ps_rk dims (fpos dims a))
          by (apply fpos_in_box; auto).
        f_equal; auto.
      - inversion Hd; subst. apply IHl; auto. intros; apply Hr; simpl; auto. }
    apply G. intros x Hx; apply in_zseq in Hx; lia. apply zseq_NoDup.
  - rewrite map_length. lia.
  - intros x Hx. apply in_map_iff in Hx. destruct Hx as [i [E Hi]]. subst.
    apply in_zseq. assert (B := rk_range dims (fpos dims i) (fpos_in_box _ _ HP)). lia.
Qed.

(** Fewer iterations than points: the loop has not ended. *)
Lemma it_loop_short : forall dims, positive dims -> forall fuel n,
  0 <= n -> n + Z.of_nat fuel < prodZ dims ->
  it_loop fuel (mkIter dims (ps dims n) n (prodZ dims)) = NoFuel.
Proof.
  intros dims HP. induction fuel; intros n Hn Hk.
  - simpl. unfold it_atEnd; simpl. destruct (Z.eqb_spec n (prodZ dims)); [lia|auto].
  - cbn [it_loop]. unfold it_atEnd. cbn [it_rank it_size].
    destruct (Z.eqb_spec n (prodZ dims)); [lia|].
    unfold it_next. cbn [it_dims it_pos it_rank it_size].
    rewrite it_increment_spec by (apply ps_in_box; auto; lia).
    rewrite rk_ps by (auto; lia).
    destruct (Z.eqb_spec (n+1) (prodZ dims)); [lia|]. cbn [snd].
    rewrite IHfuel by lia. auto.
Qed.
