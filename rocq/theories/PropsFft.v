(** C24: implicit inverse wavevectors of the half-space k-grid. *)
From Coq Require Import Reals ZArith List Bool Arith Lia Lra.
From Verif Require Import Base RSum MeshSpec Mesh MeshProofs Fft FftProofs.
Import ListNotations.
Local Open Scope R_scope.

(** Specification: k' is equivalent to -k modulo the mesh dimensions. *)
Fixpoint opposite (dims k k' : list Z) : Prop :=
  match dims, k, k' with
  | [], [], [] => True
  | d :: ds, a :: k, b :: k' => ((a + b) mod d = 0)%Z /\ opposite ds k k'
  | _, _, _ => False
  end.
Definition inverse_missing (dims k : list Z) : Prop :=
  ~ exists k', in_box (computeKMesh dims) k' /\ opposite dims k k'.

Lemma opposite_snoc : forall ds n p l p' l', length p = length ds -> length p' = length ds ->
  (opposite (ds ++ [n]) (p ++ [l]) (p' ++ [l']) <-> opposite ds p p' /\ ((l + l') mod n = 0)%Z).
Proof.
  induction ds as [|d ds IH]; intros n [|a p] l [|b p'] l' H H'; simpl in *; try discriminate; try tauto.
  rewrite IH by lia. tauto.
Qed.
Lemma opposite_negmod : forall ds p, positive ds -> in_box ds p -> opposite ds p (negmod ds p).
Proof.
  intros ds p HP H. induction H; simpl; auto. inversion HP; subst. split; auto.
  rewrite Zplus_mod_idemp_r. rewrite Z.add_opp_diag_r. apply Z.mod_0_l. lia.
Qed.
Lemma in_box_snoc : forall ds n k, in_box (ds ++ [n]) k <->
  exists p l, k = p ++ [l] /\ in_box ds p /\ (0 <= l < n)%Z.
Proof.
  induction ds as [|d ds IH]; intros n k; simpl.
  - split.
    + intros H. inversion H; subst. inversion H4; subst. exists [], y. simpl. repeat split; try constructor; lia.
    + intros [p [l [E [H1 H2]]]]. inversion H1; subst. simpl. constructor; [lia|constructor].
  - split.
    + intros H. inversion H; subst. apply IH in H4. destruct H4 as [p [l [E [A B]]]]. subst.
      exists (y :: p), l. simpl. repeat split; try constructor; auto; lia.
    + intros [p [l [E [H1 H2]]]]. inversion H1; subst. simpl. constructor; auto. apply IH. eauto 6.
Qed.
Lemma in_box_len : forall ds p, in_box ds p -> length p = length ds.
Proof. induction 1; simpl; auto. Qed.

(** What the right test is. *)
Theorem inverse_missing_iff : forall dims k, dims <> [] -> positive dims -> in_box (computeKMesh dims) k ->
  (inverse_missing dims k <-> (last k 0 <> 0 /\ last dims 0 / 2 < last dims 0 - last k 0)%Z).
Proof.
  intros dims k Hne HP HK. destruct (snoc_cases dims Hne) as [ds [n ->]].
  rewrite computeKMesh_snoc in HK. apply in_box_snoc in HK. destruct HK as [p [l [-> [Hp Hl]]]].
  rewrite !last_snoc. apply Forall_app in HP. destruct HP as [HP Hn]. inversion Hn; subst.
  rewrite Z.quot_div_nonneg in Hl by lia.
  assert (Hl2 : (l <= n / 2 /\ 2 * (n / 2) <= n < 2 * (n / 2) + 2)%Z) by (Z.div_mod_to_equations; lia).
  unfold inverse_missing. rewrite computeKMesh_snoc. rewrite Z.quot_div_nonneg by lia. split.
  - intros H. destruct (Z.eq_dec l 0) as [->|N0]; [|split; auto].
    + exfalso. apply H. exists (negmod ds p ++ [0%Z]). split.
      * apply in_box_snoc. do 2 eexists. split; [reflexivity|]. split; [apply negmod_in_box; auto|lia].
      * apply opposite_snoc; [apply in_box_len; auto|apply in_box_len, negmod_in_box; auto|].
        split; [apply opposite_negmod; auto|apply Z.mod_0_l; lia].
    + destruct (Z_lt_le_dec (n / 2) (n - l)) as [|Hle]; auto. exfalso. apply H.
      exists (negmod ds p ++ [(n - l)%Z]). split.
      * apply in_box_snoc. do 2 eexists. split; [reflexivity|]. split; [apply negmod_in_box; auto|lia].
      * apply opposite_snoc; [apply in_box_len; auto|apply in_box_len, negmod_in_box; auto|].
        split; [apply opposite_negmod; auto|]. replace (l + (n - l))%Z with n by lia. apply Z.mod_same. lia.
  - intros [H0 H1'] [k' [B O]]. apply in_box_snoc in B. destruct B as [p' [l' [-> [Hp' Hl']]]].
    apply opposite_snoc in O; try (apply in_box_len; auto). destruct O as [_ O].
    apply Z.mod_divide in O; [|lia]. destruct O as [c O]. assert (c = 1%Z \/ c <= 0 \/ 2 <= c)%Z as [->|[C|C]] by lia.
    + lia.
    + assert (c * n <= 0)%Z by nia. lia.
    + assert (2 * n <= c * n)%Z by nia. lia.
Qed.

(** The code never reports a missing inverse wrongly ... *)
Theorem hasImplicitInverse_sound : forall dims k, dims <> [] -> positive dims ->
  in_box (computeKMesh dims) k -> hasImplicitInverse k dims = true -> inverse_missing dims k.
Proof.
  intros dims k Hne HP HK H. apply inverse_missing_iff; auto. unfold hasImplicitInverse in H.
  destruct (negb (last k 0 =? 0)%Z) eqn:A; simpl in H; [|discriminate].
  destruct (Z.quot (last dims 0) 2 + 1 <? last dims 0 - last k 0)%Z eqn:B; [|discriminate].
  apply negb_true_iff in A. apply Z.eqb_neq in A. apply Z.ltb_lt in B.
  assert (P : (0 < last dims 0)%Z).
  { destruct (snoc_cases dims Hne) as [ds [n ->]]. rewrite last_snoc. apply Forall_app in HP.
    destruct HP as [_ HP]. inversion HP; auto. }
  rewrite Z.quot_div_nonneg in B by lia. split; auto; lia.
Qed.
(** ... and misses exactly the vectors with n - i = n/2 + 1. *)
Theorem hasImplicitInverse_misses : forall dims k, dims <> [] -> positive dims ->
  in_box (computeKMesh dims) k ->
  ((inverse_missing dims k /\ hasImplicitInverse k dims = false) <->
   (last k 0 <> 0 /\ last dims 0 - last k 0 = last dims 0 / 2 + 1)%Z).
Proof.
  intros dims k Hne HP HK. rewrite inverse_missing_iff by auto. unfold hasImplicitInverse.
  assert (P : (0 < last dims 0)%Z).
  { destruct (snoc_cases dims Hne) as [ds [n ->]]. rewrite last_snoc. apply Forall_app in HP.
    destruct HP as [_ HP]. inversion HP; auto. }
  rewrite Z.quot_div_nonneg by lia.
  destruct (Z.eqb_spec (last k 0%Z) 0); destruct (Z.ltb_spec (last dims 0%Z / 2 + 1) (last dims 0%Z - last k 0%Z));
    simpl; split; intros; intuition (try discriminate; try lia).
Qed.
Theorem hasImplicitInverse_refuted : exists dims k, dims <> [] /\ positive dims /\
  in_box (computeKMesh dims) k /\ inverse_missing dims k /\ hasImplicitInverse k dims = false.
Proof.
  assert (H0 : positive [4;4]%Z) by (repeat constructor; lia).
  assert (H1 : in_box (computeKMesh [4;4]%Z) [2;1]%Z) by (repeat constructor; lia).
  exists [4;4]%Z, [2;1]%Z. split; [discriminate|]. split; auto. split; auto.
  apply hasImplicitInverse_misses; auto; [discriminate|]. simpl. split; [discriminate|reflexivity].
Qed.
(** Every mesh with at least three points in the last direction has such a vector. *)
Theorem hasImplicitInverse_wrong_on_every_mesh : forall ds n, positive ds -> (3 <= n)%Z ->
  exists k, in_box (computeKMesh (ds ++ [n])) k /\
    inverse_missing (ds ++ [n]) k /\ hasImplicitInverse k (ds ++ [n]) = false.
Proof.
  intros ds n HP Hn. assert (HP' : positive (ds ++ [n])) by (apply Forall_app; split; auto; repeat constructor; lia).
  assert (NE : ds ++ [n] <> []) by (destruct ds; discriminate).
  set (k := map (fun _ => 0%Z) ds ++ [(n - n / 2 - 1)%Z]).
  assert (D : (2 * (n / 2) <= n < 2 * (n / 2) + 2)%Z) by (Z.div_mod_to_equations; lia).
  assert (B : in_box (computeKMesh (ds ++ [n])) k).
  { rewrite computeKMesh_snoc. apply in_box_snoc. do 2 eexists. split; [reflexivity|]. split.
    - clear -HP. induction HP; constructor; auto. lia.
    - rewrite Z.quot_div_nonneg by lia. lia. }
  exists k. split; auto. apply hasImplicitInverse_misses; auto. unfold k. rewrite !last_snoc. lia.
Qed.

(** Weighted sums over the k-grid.  [weight b] is the factor applied by
    WaveList.tpp 193-200 (dksq *= 2 for implicit inverses). *)
Definition kgrid_sum (double : list Z -> bool) (dims : list Z) (g : list Z -> R) : R :=
  rsum (nK dims) (fun r => let k := gridPos (computeKMesh dims) r in (if double k then 2 else 1) * g k).
Definition fullgrid_sum (dims : list Z) (g : list Z -> R) : R :=
  rsum (nR dims) (fun r => g (gridPos dims r)).
Definition inversion_symmetric (dims : list Z) (g : list Z -> R) : Prop :=
  forall k k', in_box dims k -> in_box dims k' -> opposite dims k k' -> g k' = g k.

(** The consequence claimed: with the right weights it holds ... *)
Theorem kgrid_weighted_sum : forall dims g double, dims <> [] -> positive dims ->
  inversion_symmetric dims g ->
  (forall k, in_box (computeKMesh dims) k -> (double k = true <-> inverse_missing dims k)) ->
  kgrid_sum double dims g = fullgrid_sum dims g.
Proof.
  intros dims g double Hne HP HS HDbl. unfold kgrid_sum, fullgrid_sum, nK, nR.
  rewrite (rsum_grid dims g HP).
  rewrite (rsum_grid (computeKMesh dims) (fun k => (if double k then 2 else 1) * g k) (kmesh_positive dims HP)).
  rewrite <- (half_sum dims) by (auto; intros; apply HS; auto using negmod_in_box, opposite_negmod).
  apply msum_ext. intros k Hk. f_equal.
  assert (A := HDbl k Hk). rewrite inverse_missing_iff in A by auto.
  destruct (snoc_cases dims Hne) as [ds [n ->]]. rewrite computeKMesh_snoc in Hk. apply in_box_snoc in Hk.
  destruct Hk as [p [l [-> [Hp Hl]]]]. rewrite !last_snoc in *. apply Forall_app in HP. destruct HP as [_ HP].
  inversion HP; subst. rewrite Z.quot_div_nonneg in Hl by lia.
  assert (D : (2 * (n / 2) <= n < 2 * (n / 2) + 2)%Z) by (Z.div_mod_to_equations; lia).
  destruct (Z.eqb_spec l 0); destruct (Z.eqb_spec (2 * l) n); simpl;
    destruct (double (p ++ [l])); auto; exfalso.
  1-3: destruct (proj1 A eq_refl); lia.
  assert (false = true) by (apply A; lia). discriminate.
Qed.

Lemma msum_const : forall dims c, positive dims -> msum dims (fun _ => c) = IZR (gridSize dims) * c.
Proof.
  induction 1; simpl; [lra|]. rewrite (rsum_ext _ _ (fun _ => IZR (gridSize l) * c)) by auto.
  rewrite rsum_const, mult_IZR, INR_IZR_INZ, Z2Nat.id by lia. lra.
Qed.

(** ... and with the weights of the code it fails on every such mesh, already
    for the constant function: the sum is short by the size of the other
    directions. *)
Theorem kgrid_weighted_sum_coded : forall ds n, positive ds -> (3 <= n)%Z ->
  kgrid_sum (fun k => hasImplicitInverse k (ds ++ [n])) (ds ++ [n]) (fun _ => 1)
  = fullgrid_sum (ds ++ [n]) (fun _ => 1) - IZR (gridSize ds).
Proof.
  intros ds n HP Hn. assert (HP' : positive (ds ++ [n])) by (apply Forall_app; split; auto; repeat constructor; lia).
  assert (NE : ds ++ [n] <> []) by (destruct ds; discriminate).
  assert (D : (2 * (n / 2) <= n < 2 * (n / 2) + 2)%Z) by (Z.div_mod_to_equations; lia).
  set (ls := (n - n / 2 - 1)%Z).
  unfold kgrid_sum, fullgrid_sum, nK, nR.
  rewrite (rsum_grid (ds ++ [n]) (fun _ => 1) HP').
  rewrite (rsum_grid (computeKMesh (ds ++ [n])) (fun k => (if hasImplicitInverse k (ds ++ [n]) then 2 else 1) * 1)
    (kmesh_positive _ HP')).
  rewrite <- (half_sum (ds ++ [n])) by (auto; intros; auto).
  rewrite computeKMesh_snoc, !msum_snoc. set (N := Z.to_nat (Z.quot n 2 + 1)).
  rewrite (rsum_ext N _ (fun l => (if (Z.of_nat l =? 0)%Z || (2 * Z.of_nat l =? n)%Z || (Z.of_nat l =? ls)%Z then 1 else 2)
                                   * IZR (gridSize ds))).
  2:{ intros l Hl. rewrite Rmult_comm, <- msum_const by auto. apply msum_ext. intros p _. rewrite Rmult_1_r.
      unfold hasImplicitInverse. rewrite !last_snoc. unfold N in Hl. rewrite Z.quot_div_nonneg in * by lia.
      unfold ls. destruct (Z.eqb_spec (Z.of_nat l) 0); destruct (Z.eqb_spec (2 * Z.of_nat l) n);
      destruct (Z.eqb_spec (Z.of_nat l) (n - n / 2 - 1)); destruct (Z.ltb_spec (n / 2 + 1) (n - Z.of_nat l)); simpl; auto; lia. }
  rewrite (rsum_ext N (fun l => msum ds _) (fun l => (if (Z.of_nat l =? 0)%Z || (2 * Z.of_nat l =? n)%Z then 1 else 2)
                                   * IZR (gridSize ds))).
  2:{ intros l Hl. rewrite Rmult_comm, <- msum_const by auto. apply msum_ext. intros p _. rewrite !last_snoc. lra. }
  rewrite !rsum_scal_r.
  assert (K : forall M, rsum M (fun l => if (Z.of_nat l =? 0)%Z || (2 * Z.of_nat l =? n)%Z || (Z.of_nat l =? ls)%Z then 1 else 2)
     = rsum M (fun l => if (Z.of_nat l =? 0)%Z || (2 * Z.of_nat l =? n)%Z then 1 else 2)
       - if (ls <? Z.of_nat M)%Z then 1 else 0).
  { induction M; cbn [rsum].
    - destruct (Z.ltb_spec ls (Z.of_nat 0)); [unfold ls in *; lia|lra].
    - rewrite IHM. destruct (Z.eqb_spec (Z.of_nat M) 0); destruct (Z.eqb_spec (2 * Z.of_nat M) n);
      destruct (Z.eqb_spec (Z.of_nat M) ls); destruct (Z.ltb_spec ls (Z.of_nat M)); destruct (Z.ltb_spec ls (Z.of_nat (S M)));
        simpl; try lra; unfold ls in *; exfalso; lia. }
  rewrite K. destruct (Z.ltb_spec ls (Z.of_nat N)) as [_|H]; [lra|].
  exfalso. unfold N, ls in H. rewrite Z.quot_div_nonneg in H by lia. lia.
Qed.

Theorem kgrid_weighted_sum_refuted : exists dims g, dims <> [] /\ positive dims /\ inversion_symmetric dims g /\
  kgrid_sum (fun k => hasImplicitInverse k dims) dims g <> fullgrid_sum dims g.
Proof.
  exists ([4] ++ [4])%Z, (fun _ => 1). split; [discriminate|]. split; [repeat constructor; lia|].
  split; [intros k k' _ _ _; reflexivity|].
  rewrite kgrid_weighted_sum_coded by (try lia; repeat constructor; lia). simpl gridSize. lra.
Qed.

(** Hypotheses of [kgrid_weighted_sum] are met by a decidable test. *)
Example kgrid_weighted_sum_example : kgrid_sum (fun k => (negb (last k 0 =? 0)%Z && (5 / 2 <? 5 - last k 0)%Z)%bool)
   [3;5]%Z (fun k => cos (IZR (last k 0%Z) * (2 * PI / 5))) =
   fullgrid_sum [3;5]%Z (fun k => cos (IZR (last k 0%Z) * (2 * PI / 5))).
Proof.
  apply kgrid_weighted_sum; [discriminate|repeat constructor; lia| |].
  - intros k k' Hk Hk' HO. inversion Hk as [|? a ? ? Ha H0]; subst. inversion H0 as [|? b ? ? Hb H1]; subst. inversion H1; subst.
    inversion Hk' as [|? a' ? ? Ha' H2]; subst. inversion H2 as [|? b' ? ? Hb' H3]; subst. inversion H3; subst.
    simpl in HO. destruct HO as [_ [HO _]]. cbn [last].
    assert (E : (b + b' = 0 \/ b + b' = 5)%Z) by (Z.div_mod_to_equations; lia). destruct E as [E|E].
    + assert (b = 0 /\ b' = 0)%Z as [-> ->] by lia. reflexivity.
    + assert (b' = 5 - b)%Z as -> by lia. rewrite minus_IZR.
      replace ((5 - IZR b) * (2 * PI / 5)) with (- (IZR b * (2 * PI / 5)) + 2 * PI * IZR 1) by (simpl; field).
      rewrite cos_2PIZ. apply cos_neg.
  - intros k Hk. rewrite inverse_missing_iff by (auto; try discriminate; repeat constructor; lia).
    cbn [last]. rewrite andb_true_iff, negb_true_iff, Z.eqb_neq, Z.ltb_lt. reflexivity.
Qed.

Print Assumptions inverse_missing_iff.
Print Assumptions hasImplicitInverse_sound.
Print Assumptions hasImplicitInverse_misses.
Print Assumptions hasImplicitInverse_refuted.
Print Assumptions hasImplicitInverse_wrong_on_every_mesh.
Print Assumptions kgrid_weighted_sum.
Print Assumptions kgrid_weighted_sum_coded.
Print Assumptions kgrid_weighted_sum_refuted.
