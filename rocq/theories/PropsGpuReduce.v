(** C71: the parallel reductions of prdc/cuda/Reduce.cu return the sum, maximum,
    minimum or inner product of all elements, whatever the order in which the
    threads run. *)
From Coq Require Import Reals Lra ZArith List Bool Arith Lia Permutation.
From Coq Require Import SpecFloat.
From Verif Require Import Base RSum FftProofs GpuThreads GpuReduce GpuReduceProofs
  GpuHostProofs GpuOpsProofs GpuResults.
Import ListNotations.

(** ** Specification *)

Definition total (l : list R) : R := fold_right Rplus 0%R l.
Definition is_max (l : list R) (v : R) : Prop := In v l /\ forall x, In x l -> (x <= v)%R.
Definition is_min (l : list R) (v : R) : Prop := In v l /\ forall x, In x l -> (v <= x)%R.

(** A CUDA device with warps of 32 threads and blocks of at most 1024; a state of
    ThreadArray reached after initialisation whose block size the device accepts;
    schedules that let every thread finish and run the last warp in lockstep. *)
Definition gpu_ready (dev : device) (st : tarr) (sch : nat -> schedule) : Prop :=
  warpSize dev = 32%Z /\ (64 <= maxPerBlock dev <= 1024)%Z /\
  reachable dev st /\ st <> tarr0 /\ (maxT st <= maxPerBlock dev)%Z /\ fair sch.

Lemma ready_fitting : forall dev st sch, gpu_ready dev st sch -> fitting dev st sch.
Proof.
  intros dev st sch (H1 & H2 & H3 & H4 & H5 & H6). split; auto. split; auto.
  destruct (reachable_tinv dev st H1 H3); [contradiction|auto].
Qed.

Lemma ready_again : forall dev st st' sch, gpu_ready dev st sch ->
  reachable dev st' -> tinv st' -> (maxT st' <= maxPerBlock dev)%Z -> gpu_ready dev st' sch.
Proof.
  intros dev st st' sch (H1 & H2 & H3 & H4 & H5 & H6) K1 K2 K3. split; auto. split; auto.
  split; auto. split; auto. intro E. subst st'. apply maxT_pos in K2. cbn in K2. lia.
Qed.

Lemma covered_le : forall n st, (0 < n <= 2 ^ 24)%Z -> (n <= covered n (block_size st))%Z.
Proof. intros n st H. apply covered_small; auto. unfold block_size. lia. Qed.

(** ** Sum and inner product *)

(** Arrays that are reduced on the device, of any size below 2^31: the result is
    the sum of the elements that the grid covers. *)
Theorem C71_sum_covered : forall dev st sch l,
  gpu_ready dev st sch ->
  (100000 <= Z.of_nat (length l) < 2 ^ 31)%Z ->
  exists st', gpu_ready dev st' sch /\
    sum rarith dev sch l st =
    Ok (rsum (Nat.min (length l)
                (Z.to_nat (ceil_div (halvedSize (size l)) (Z.max 64 (maxT st)) *
                           (Z.max 64 (maxT st) * 2))))
          (fun i => nth i l 0%R), st').
Proof.
  intros dev st sch l Hg Hn.
  destruct (wrapper_sum dev st sch false (k_sum rarith l) (Some l) (length l)
              (fun i => nth i l 0%R) (ready_fitting _ _ _ Hg)) as (st' & H1 & H2 & E);
    auto; try lia.
  { intros i Hi. cbn [k_sum from_array element]. now rewrite (nth_error_nth' l 0%R Hi). }
  exists st'. split; [|exact E].
  apply (ready_again dev st); auto. eapply wrapper_reachable; [|exact E]. apply Hg.
Qed.

Theorem C71_sum : forall dev st sch l,
  gpu_ready dev st sch -> l <> [] -> (Z.of_nat (length l) <= 2 ^ 24)%Z ->
  exists st', gpu_ready dev st' sch /\ sum rarith dev sch l st = Ok (total l, st').
Proof.
  intros dev st sch l Hg Hl Hn.
  assert (Hl0 : 0 < length l) by (destruct l; [congruence|cbn; lia]).
  destruct (Z.lt_ge_cases (Z.of_nat (length l)) 100000) as [Hs|Hb].
  - exists st. split; auto. unfold sum.
    rewrite wrapper_small by (auto; unfold size; lia).
    cbn [add sub zero rarith].
    rewrite (host_sum_ok l (total l)); auto. symmetry. apply fold_right_rsum.
  - destruct (C71_sum_covered dev st sch l Hg) as (st' & H1 & E); [lia|].
    exists st'. split; auto. rewrite E. f_equal. f_equal.
    rewrite Nat.min_l; [symmetry; apply fold_right_rsum|].
    pose proof (covered_le (Z.of_nat (length l)) st) as K. unfold covered, block_size in K.
    unfold size. lia.
Qed.

Theorem C71_innerProduct : forall dev st sch a b,
  gpu_ready dev st sch -> a <> [] -> length a = length b ->
  (Z.of_nat (length a) <= 2 ^ 24)%Z ->
  exists st', gpu_ready dev st' sch /\
    innerProduct rarith dev sch a b st =
    Ok (total (map (fun p => (fst p * snd p)%R) (combine a b)), st').
Proof.
  intros dev st sch a b Hg Ha Hab Hn.
  assert (Hl0 : 0 < length a) by (destruct a; [congruence|cbn; lia]).
  destruct (wrapper_sum dev st sch true (k_innerProduct rarith a b) None (length a)
              (fun i => (nth i a 0 * nth i b 0)%R) (ready_fitting _ _ _ Hg))
    as (st' & H1 & H2 & E); auto; try lia.
  { intros i Hi. cbn [k_innerProduct element].
    rewrite (nth_error_nth' a 0%R Hi), (nth_error_nth' b 0%R) by lia. reflexivity. }
  assert (Ec : rsum (Nat.min (length a) (Z.to_nat (covered (Z.of_nat (length a))
                 (block_size st)))) (fun i => (nth i a 0 * nth i b 0)%R) =
               total (map (fun p => (fst p * snd p)%R) (combine a b))).
  { pose proof (covered_le (Z.of_nat (length a)) st).
    rewrite Nat.min_l by lia. unfold total. rewrite fold_right_rsum, map_length, combine_length.
    rewrite <- Hab, Nat.min_id. apply rsum_ext. intros i Hi.
    rewrite (nth_indep (map (fun p => (fst p * snd p)%R) (combine a b)) 0%R
               (fst (0%R, 0%R) * snd (0%R, 0%R))%R)
      by (rewrite map_length, combine_length; lia).
    rewrite (map_nth (fun p => (fst p * snd p)%R)), combine_nth by auto. reflexivity. }
  rewrite Ec in E. exists st'. split.
  - apply (ready_again dev st); auto. eapply wrapper_reachable; [|exact E]. apply Hg.
  - unfold innerProduct, size. rewrite <- Hab.
    rewrite (proj2 (Z.ltb_lt 0 _)) by lia. rewrite Z.eqb_refl. cbn [check bind]. exact E.
Qed.

(** ** Maximum and minimum *)

Lemma maxA : forall x y z, red_max rarith x (red_max rarith y z) =
  red_max rarith (red_max rarith x y) z.
Proof. intros. rewrite !red_max_R. apply Rmax_assoc. Qed.
Lemma maxC : forall x y, red_max rarith x y = red_max rarith y x.
Proof. intros. rewrite !red_max_R. apply Rmax_comm. Qed.
Lemma max_l : forall x y, (x <= red_max rarith x y)%R.
Proof. intros. rewrite red_max_R. apply Rmax_l. Qed.
Lemma max_lub : forall x y z, (x <= z)%R -> (y <= z)%R -> (red_max rarith x y <= z)%R.
Proof. intros. rewrite red_max_R. now apply Rmax_lub. Qed.
Lemma minA : forall x y z, red_min rarith x (red_min rarith y z) =
  red_min rarith (red_min rarith x y) z.
Proof. intros. rewrite !red_min_R. apply Rmin_assoc. Qed.
Lemma minC : forall x y, red_min rarith x y = red_min rarith y x.
Proof. intros. rewrite !red_min_R. apply Rmin_comm. Qed.
Lemma min_l : forall x y, (x >= red_min rarith x y)%R.
Proof. intros. rewrite red_min_R. apply Rle_ge, Rmin_l. Qed.
Lemma min_lub : forall x y z, (x >= z)%R -> (y >= z)%R -> (red_min rarith x y >= z)%R.
Proof. intros. rewrite red_min_R. apply Rle_ge, Rmin_glb; lra. Qed.

Lemma Rge_trans' : forall x y z, (x >= y)%R -> (y >= z)%R -> (x >= z)%R.
Proof. intros; lra. Qed.
Lemma Rle_refl' : forall x, (x <= x)%R. Proof. intros; lra. Qed.
Lemma Rge_refl' : forall x, (x >= x)%R. Proof. intros; lra. Qed.
Lemma Rge_antisym' : forall x y, (x >= y)%R -> (y >= x)%R -> x = y.
Proof. intros; lra. Qed.
Lemma pmax : forall x y, pair_max rarith x y = red_max rarith x y.
Proof. intros. now rewrite pair_max_R, red_max_R. Qed.
Lemma pmin : forall x y, pair_min rarith x y = red_min rarith x y.
Proof. intros. now rewrite pair_min_R, red_min_R. Qed.
Lemma bmax : forall x y, (if gt rarith y x then y else x) = red_max rarith x y.
Proof. reflexivity. Qed.
Lemma bmin : forall x y, (if lt rarith y x then y else x) = red_min rarith x y.
Proof. reflexivity. Qed.

Lemma best_max : forall l v, is_max l v -> best Rle l v.
Proof. intros l v [H1 H2]. split; auto. Qed.
Lemma best_min : forall l v, is_min l v -> best Rge l v.
Proof. intros l v [H1 H2]. split; auto. intros x Hx. apply Rle_ge. auto. Qed.

Lemma wrapper_max : forall dev st sch always kin inp n f V,
  fitting dev st sch -> 0 < n -> (Z.of_nat n <= 2 ^ 24)%Z ->
  (100000 <= Z.of_nat n)%Z \/ always = true ->
  red kin = red_max rarith -> pair kin = pair_max rarith ->
  (forall z, pad kin = Some z -> (z <= V)%R) ->
  (pad kin = None -> (block_size st <= 2 * Z.of_nat n)%Z) ->
  (forall i, i < n -> element kin i = Some (f i)) ->
  (exists i, i < n /\ f i = V) -> (forall i, i < n -> (f i <= V)%R) ->
  exists st', tinv st' /\ (maxT st' <= maxPerBlock dev)%Z /\
    wrapper dev always (k_max rarith) sch kin inp (Z.of_nat n)
      (host_select (gt rarith)) st = Ok (V, st').
Proof.
  intros dev st sch always kin inp n f V Hf Hn Hn2 Hb Hr Hp Hz Hw He H1 H2.
  apply (wrapper_select (red_max rarith) Rle (pair_max rarith) (gt rarith) maxA maxC Rle_refl'
           Rle_trans Rle_antisym max_l max_lub pmax bmax dev st sch always kin inp n f V); auto.
  - lia.
  - apply covered_le. lia.
  - intros. rewrite Hp. apply pmax.
Qed.

Lemma wrapper_min : forall dev st sch always kin inp n f V,
  fitting dev st sch -> 0 < n -> (Z.of_nat n <= 2 ^ 24)%Z ->
  (100000 <= Z.of_nat n)%Z \/ always = true ->
  red kin = red_min rarith -> pair kin = pair_min rarith -> pad kin = None ->
  (block_size st <= 2 * Z.of_nat n)%Z ->
  (forall i, i < n -> element kin i = Some (f i)) ->
  (exists i, i < n /\ f i = V) -> (forall i, i < n -> (V <= f i)%R) ->
  exists st', tinv st' /\ (maxT st' <= maxPerBlock dev)%Z /\
    wrapper dev always (k_min rarith) sch kin inp (Z.of_nat n)
      (host_select (lt rarith)) st = Ok (V, st').
Proof.
  intros dev st sch always kin inp n f V Hf Hn Hn2 Hb Hr Hp Hz Hw He H1 H2.
  apply (wrapper_select (red_min rarith) Rge (pair_min rarith) (lt rarith) minA minC Rge_refl'
           Rge_trans' Rge_antisym' min_l min_lub pmin bmin dev st sch always kin inp n f V);
    auto.
  - lia.
  - apply covered_le. lia.
  - intros. rewrite Hp. apply pmin.
  - intros z E. congruence.
  - intros i Hi. apply Rle_ge. auto.
Qed.

Lemma big_block : forall dev st sch n, fitting dev st sch -> (100000 <= n)%Z ->
  (block_size st <= 2 * n)%Z.
Proof. intros dev st sch n (_ & H1 & _ & H2 & _) Hn. unfold block_size. lia. Qed.

Theorem C71_max : forall dev st sch l v,
  gpu_ready dev st sch -> is_max l v -> (Z.of_nat (length l) <= 2 ^ 24)%Z ->
  exists st', gpu_ready dev st' sch /\ max rarith dev sch l st = Ok (v, st').
Proof.
  intros dev st sch l v Hg Hv Hn.
  assert (Hl0 : 0 < length l) by (destruct l; [destruct Hv as [[] _]|cbn; lia]).
  pose proof (ready_fitting _ _ _ Hg) as Hf.
  destruct (Z.lt_ge_cases (Z.of_nat (length l)) 100000) as [Hs|Hb].
  - exists st. split; auto. unfold max.
    rewrite wrapper_small by (auto; unfold size; lia).
    rewrite (host_select_ok (red_max rarith) Rle maxC Rle_refl' Rle_trans Rle_antisym max_l
               max_lub (gt rarith) bmax l v (best_max l v Hv)). reflexivity.
  - destruct (wrapper_max dev st sch false (k_max rarith l) (Some l) (length l)
                (fun i => nth i l 0%R) v Hf) as (st' & H1 & H2 & E); auto; try lia.
    + intros z Hz. discriminate Hz.
    + intros _. eapply big_block; eauto.
    + intros i Hi. cbn [k_max from_array element]. now rewrite (nth_error_nth' l 0%R Hi).
    + apply in_nth_R, Hv.
    + intros i Hi. apply Hv. now apply nth_In.
    + exists st'. split; [|exact E].
      apply (ready_again dev st); auto. eapply wrapper_reachable; [|exact E]. apply Hg.
Qed.

Theorem C71_min : forall dev st sch l v,
  gpu_ready dev st sch -> is_min l v -> (Z.of_nat (length l) <= 2 ^ 24)%Z ->
  exists st', gpu_ready dev st' sch /\ min rarith dev sch l st = Ok (v, st').
Proof.
  intros dev st sch l v Hg Hv Hn.
  assert (Hl0 : 0 < length l) by (destruct l; [destruct Hv as [[] _]|cbn; lia]).
  pose proof (ready_fitting _ _ _ Hg) as Hf.
  destruct (Z.lt_ge_cases (Z.of_nat (length l)) 100000) as [Hs|Hb].
  - exists st. split; auto. unfold min.
    rewrite wrapper_small by (auto; unfold size; lia).
    rewrite (host_select_ok (red_min rarith) Rge minC Rge_refl' Rge_trans' Rge_antisym' min_l
               min_lub (lt rarith) bmin l v (best_min l v Hv)). reflexivity.
  - destruct (wrapper_min dev st sch false (k_min rarith l) (Some l) (length l)
                (fun i => nth i l 0%R) v Hf) as (st' & H1 & H2 & E); auto; try lia.
    + eapply big_block; eauto.
    + intros i Hi. cbn [k_min from_array element]. now rewrite (nth_error_nth' l 0%R Hi).
    + apply in_nth_R, Hv.
    + intros i Hi. apply Hv. now apply nth_In.
    + exists st'. split; [|exact E].
      apply (ready_again dev st); auto. eapply wrapper_reachable; [|exact E]. apply Hg.
Qed.

Lemma is_abs_nth : forall l i, i < length l ->
  nth i (map Rabs l) 0%R = Rabs (nth i l 0%R).
Proof.
  intros l i Hi. rewrite (nth_indep _ 0%R (Rabs 0)) by (rewrite map_length; auto).
  apply map_nth.
Qed.

Theorem C71_maxAbs : forall dev st sch l v,
  gpu_ready dev st sch -> is_max (map Rabs l) v -> (Z.of_nat (length l) <= 2 ^ 24)%Z ->
  exists st', gpu_ready dev st' sch /\ maxAbs rarith dev sch l st = Ok (v, st').
Proof.
  intros dev st sch l v Hg Hv Hn.
  assert (Hl0 : 0 < length l) by (destruct l; [destruct Hv as [[] _]|cbn; lia]).
  pose proof (ready_fitting _ _ _ Hg) as Hf.
  destruct (wrapper_max dev st sch true (k_maxAbs rarith l) (Some l) (length l)
              (fun i => Rabs (nth i l 0%R)) v Hf) as (st' & H1 & H2 & E); auto; try lia.
  + intros z Hz. injection Hz as <-. cbn [rarith zero].
    destruct Hv as [Hv _]. apply in_map_iff in Hv. destruct Hv as (x & <- & _). apply Rabs_pos.
  + intros Hz. discriminate Hz.
  + intros i Hi. cbn [k_maxAbs from_array element]. now rewrite (nth_error_nth' l 0%R Hi).
  + destruct Hv as [Hv _]. apply in_nth_R in Hv. destruct Hv as (i & Hi & Hx).
    rewrite map_length in Hi. exists i. split; auto. now rewrite <- is_abs_nth.
  + intros i Hi. apply Hv. apply in_map. now apply nth_In.
  + exists st'. split; [|exact E].
    apply (ready_again dev st); auto. eapply wrapper_reachable; [|exact E]. apply Hg.
Qed.

(** The minimum of the magnitudes, of arrays of at least half a block *)
Theorem C71_minAbs : forall dev st sch l v,
  gpu_ready dev st sch -> is_min (map Rabs l) v -> (Z.of_nat (length l) <= 2 ^ 24)%Z ->
  (Z.max 64 (maxT st) <= 2 * Z.of_nat (length l))%Z ->
  exists st', gpu_ready dev st' sch /\ minAbs rarith dev sch l st = Ok (v, st').
Proof.
  intros dev st sch l v Hg Hv Hn Hh.
  assert (Hl0 : 0 < length l) by (destruct l; [destruct Hv as [[] _]|cbn; lia]).
  pose proof (ready_fitting _ _ _ Hg) as Hf.
  destruct (wrapper_min dev st sch true (k_minAbs rarith l) (Some l) (length l)
              (fun i => Rabs (nth i l 0%R)) v Hf) as (st' & H1 & H2 & E); auto; try lia.
  + intros i Hi. cbn [k_minAbs from_array element]. now rewrite (nth_error_nth' l 0%R Hi).
  + destruct Hv as [Hv _]. apply in_nth_R in Hv. destruct Hv as (i & Hi & Hx).
    rewrite map_length in Hi. exists i. split; auto. now rewrite <- is_abs_nth.
  + intros i Hi. apply Hv. apply in_map. now apply nth_In.
  + exists st'. split; [|exact E].
    apply (ready_again dev st); auto. eapply wrapper_reachable; [|exact E]. apply Hg.
Qed.

(** ** Witnesses *)

(** A V100: 2048 threads per multiprocessor *)
Definition v100 : device := Device 32 2048 1024.
Definition st1024 : tarr := mark v100 1024 tarr0.

(** Each phase: all threads read, then all threads write; the warp in lockstep *)
Definition round_robin : nat -> schedule := fun _ =>
  Schedule (fun _ _ => seq 0 1024 ++ seq 0 1024)
    (fun _ => concat (repeat (seq 0 32 ++ seq 0 32) 6)).

Lemma v100_default : setThreadsPerBlock_default v100 tarr0 = Ok st1024.
Proof. vm_compute. reflexivity. Qed.

Lemma round_robin_fair : fair round_robin.
Proof.
  intros i b. split.
  - intros p t Ht. cbn [round_robin at_phase]. rewrite count_occ_app.
    assert (K : count_occ Nat.eq_dec (seq 0 1024) t = 1).
    { apply NoDup_count_occ'; [apply seq_NoDup|apply in_seq; lia]. }
    lia.
  - cbn [round_robin at_warp concat repeat]. rewrite <- !app_assoc.
    repeat (apply lock_cons; [apply Permutation_refl|apply Permutation_refl|]). apply lock_nil.
Qed.

Example C71_ready : gpu_ready v100 st1024 round_robin.
Proof.
  split; [reflexivity|]. split; [cbn; lia|]. split.
  - eapply reach_default; [apply reach_init|apply v100_default].
  - split; [discriminate|]. split; [cbn; lia|apply round_robin_fair].
Qed.

Example C71_ready_small : gpu_ready v100 (mark v100 32 st1024) round_robin.
Proof.
  destruct C71_ready as (H1 & H2 & H3 & H4 & H5 & H6).
  split; auto. split; auto. split; [|split; [discriminate|split; [cbn; lia|auto]]].
  apply (reach_set _ st1024 32); [auto|lia|reflexivity].
Qed.

(** ** Where the claim fails *)

(** An array of 2^24 + 1 elements, for instance the values on a mesh of
    97 x 257 x 673 points: (float)n rounds to 2^24, the grid covers 2^24 elements
    and the last element is left out of the sum. *)
Definition dropped : list R := repeat 0%R (Z.to_nat (2 ^ 24)) ++ [1%R].

Lemma rsum_zeros : forall m l, (forall i, i < m -> nth i l 0%R = 0%R) ->
  rsum m (fun i => nth i l 0%R) = 0%R.
Proof. intros m l H. rewrite (rsum_ext m _ (fun _ => 0%R) H). apply rsum_zero. Qed.

Lemma dropped_nth : forall i, i < Z.to_nat (2 ^ 24) -> nth i dropped 0%R = 0%R.
Proof.
  intros i Hi. unfold dropped. rewrite app_nth1 by (rewrite repeat_length; auto).
  apply nth_repeat.
Qed.

Lemma dropped_length : length dropped = (Z.to_nat (2 ^ 24) + 1)%nat.
Proof. unfold dropped. now rewrite app_length, repeat_length. Qed.

Lemma total_app : forall a b, total (a ++ b) = (total a + total b)%R.
Proof.
  induction a; intro b; unfold total in *; cbn [app fold_right]; [ring|]. rewrite IHa. ring.
Qed.

Lemma total_zeros : forall m, total (repeat 0%R m) = 0%R.
Proof. induction m; unfold total in *; cbn [repeat fold_right]; [auto|]. rewrite IHm. ring. Qed.

Theorem C71_sum_refuted :
  (97 * 257 * 673 = 2 ^ 24 + 1)%Z /\ gpu_ready v100 st1024 round_robin /\
  Z.of_nat (length dropped) = (2 ^ 24 + 1)%Z /\ total dropped = 1%R /\
  exists st', sum rarith v100 round_robin dropped st1024 = Ok (0%R, st').
Proof.
  split; [reflexivity|]. split; [apply C71_ready|].
  assert (Hlen : Z.of_nat (length dropped) = (2 ^ 24 + 1)%Z).
  { rewrite dropped_length. rewrite Nat2Z.inj_add, Z2Nat.id by lia. reflexivity. }
  split; [exact Hlen|]. split.
  - unfold dropped. rewrite total_app, total_zeros. unfold total. cbn [fold_right]. ring.
  - destruct (C71_sum_covered v100 st1024 round_robin dropped C71_ready) as (st' & _ & E).
    { rewrite Hlen. lia. }
    exists st'. rewrite E. clear E. unfold size. rewrite Hlen.
    change (maxT st1024) with 1024%Z.
    assert (Ec : (ceil_div (halvedSize (2 ^ 24 + 1)) (Z.max 64 1024) * (Z.max 64 1024 * 2) =
                  2 ^ 24)%Z) by reflexivity.
    rewrite Ec. rewrite Nat.min_r by (rewrite dropped_length; lia).
    rewrite (rsum_zeros (Z.to_nat (2 ^ 24)) dropped dropped_nth). reflexivity.
Qed.

(** The magnitudes of an array shorter than half a block: the threads beyond the
    end of the array read element idx - n, which is again beyond its end. *)
Lemma collect_UB : forall {A} m (f : nat -> outcome A), 0 < m -> f 0 = UB -> collect m f = UB.
Proof.
  induction m; intros f Hm Hf; [lia|]. cbn [collect].
  destruct m as [|m]; [cbn [collect bind]; now rewrite Hf|].
  rewrite IHm; auto. lia.
Qed.

Theorem C71_minAbs_small : forall dev st sch (l : list R),
  gpu_ready dev st sch -> l <> [] ->
  (2 * Z.of_nat (length l) < Z.max 64 (maxT st))%Z ->
  minAbs rarith dev sch l st = UB.
Proof.
  intros dev st sch l Hg Hl Hs.
  assert (Hl0 : 0 < length l) by (destruct l; [congruence|cbn; lia]).
  destruct (ready_fitting _ _ _ Hg) as (Hw & Hd & Hi & Hm & Hf).
  unfold minAbs, wrapper, size. rewrite (proj2 (Z.ltb_lt 0 _)) by lia. cbn [check bind].
  cbn [loop]. change (0 =? 0)%nat with true. rewrite orb_true_r.
  destruct (resources_ok dev (Z.of_nat (length l)) st Hw Hi ltac:(lia))
    as (s1 & j & E1 & I1 & T1 & M1 & M2 & B1).
  rewrite E1. cbn [bind pingpong]. unfold launch.
  pose proof (pow2_pos j) as Hpj.
  assert (Hn : (0 < blocks s1)%Z).
  { rewrite B1. apply ceil_div_bounds; [|lia]. apply halved_pos. lia. }
  rewrite (proj2 (Z.leb_gt _ _)) by lia. rewrite (proj2 (Z.ltb_ge _ _)) by lia.
  rewrite (proj2 (Z.leb_gt _ _)) by lia. cbn [orb].
  rewrite collect_UB; [reflexivity|lia|].
  unfold block. rewrite Nat2Z.id, T1, Nat2Z.id.
  match goal with |- (if ?c then _ else _) = _ => replace c with false; [reflexivity|] end.
  symmetry. apply not_true_iff_false. intro Hc. rewrite forallb_forall in Hc.
  assert (Hx : 2 * length l < 64 * 2 ^ j) by lia.
  specialize (Hc (2 * length l)). rewrite in_seq in Hc. specialize (Hc ltac:(lia)).
  unfold load in Hc. cbn [k_minAbs from_array element pad] in Hc.
  replace (0 * (64 * 2 ^ j * 2) + 2 * length l) with (2 * length l) in Hc by lia.
  rewrite (proj2 (Nat.ltb_ge _ _)) in Hc by lia.
  replace (2 * length l - length l) with (length l) in Hc by lia.
  rewrite (proj2 (nth_error_None l (length l))) in Hc by lia. discriminate.
Qed.

(** Without lockstep: a schedule in which every thread of the last warp executes
    its six statements in order, but thread after thread, counts elements twice. *)
Definition thread_by_thread : schedule :=
  Schedule (fun _ _ => seq 0 1024 ++ seq 0 1024)
    (fun _ => concat (map (fun t => repeat t 12) (rev (seq 0 32)))).

Definition ones_sum : kernel Z := from_array (fun x => x) Z.add (Some 0%Z) Z.add (repeat 1%Z 128).

Theorem C71_independent_threads_refuted :
  (forall t, t < 32 -> count_occ Nat.eq_dec (at_warp thread_by_thread 0) t = 12) /\
  block ones_sum (round_robin 0) 128 64 0 = Ok 128%Z /\
  exists v, block ones_sum thread_by_thread 128 64 0 = Ok v /\ v <> 128%Z.
Proof.
  split; [|split].
  - assert (K : forallb (fun t => count_occ Nat.eq_dec (at_warp thread_by_thread 0) t =? 12)
                  (seq 0 32) = true) by (vm_compute; reflexivity).
    rewrite forallb_forall in K. intros t Ht. apply Nat.eqb_eq, K, in_seq. lia.
  - vm_compute. reflexivity.
  - eexists. split; [vm_compute; reflexivity|]. discriminate.
Qed.

(** Not-a-number: the comparisons of the maximum drop it, so that the test isnan
    of AmIteratorGrid::maxAbs (rpg/scft/iterator/AmIteratorGrid.tpp lines 412-420)
    does not see it. *)
Definition farith : arith spec_float :=
  Arith (SFadd 53 1024) (SFsub 53 1024) (SFmul 53 1024)
    (fun x y => SFltb y x) SFabs (S754_zero false).

Definition one53 : spec_float := S754_finite false 4503599627370496 (-52).

Theorem C71_nan_refuted : exists st' v,
  maxAbs farith v100 round_robin [one53; S754_nan] (mark v100 64 tarr0) = Ok (v, st') /\
  v = one53.
Proof.
  eexists. eexists. split; [vm_compute; reflexivity|reflexivity].
Qed.

(** ** Concrete cases *)

Example C71_sum_three : exists st',
  sum rarith v100 round_robin [1%R; 2%R; 4%R] st1024 = Ok (7%R, st').
Proof.
  destruct (C71_sum v100 st1024 round_robin [1%R; 2%R; 4%R] C71_ready) as (st' & _ & E).
  - discriminate.
  - cbn; lia.
  - exists st'. rewrite E. f_equal. f_equal. unfold total. cbn [fold_right]. ring.
Qed.

(** An array that is reduced in two launches *)
Example C71_sum_large : exists st',
  sum rarith v100 round_robin (repeat 1%R (Z.to_nat (2 ^ 24))) (mark v100 32 st1024) =
  Ok (IZR (2 ^ 24), st').
Proof.
  destruct (C71_sum v100 _ round_robin (repeat 1%R (Z.to_nat (2 ^ 24))) C71_ready_small)
    as (st' & _ & E).
  - intro H. apply (f_equal (@length R)) in H. rewrite repeat_length in H. cbn [length] in H.
    assert (Z.of_nat (Z.to_nat (2 ^ 24)) = 0%Z) by now rewrite H.
    rewrite Z2Nat.id in H0 by lia. discriminate.
  - rewrite repeat_length, Z2Nat.id by lia. lia.
  - exists st'. rewrite E.
    assert (K : forall m, total (repeat 1%R m) = INR m).
    { induction m; [reflexivity|]. rewrite S_INR. unfold total in *. cbn [repeat fold_right].
      rewrite IHm. ring. }
    rewrite K, INR_IZR_INZ, Z2Nat.id by lia. reflexivity.
Qed.

Example C71_maxAbs_two : exists st',
  maxAbs rarith v100 round_robin [1%R; (-3)%R] st1024 = Ok (3%R, st').
Proof.
  destruct (C71_maxAbs v100 st1024 round_robin [1%R; (-3)%R] 3%R C71_ready)
    as (st' & _ & E); [|cbn; lia|exists st'; exact E].
  cbn [map]. rewrite (Rabs_right 1), (Rabs_left (-3)) by lra. split.
  - right. left. ring.
  - intros x [<-|[<-|[]]]; lra.
Qed.

Example C71_minAbs_ub :
  minAbs rarith v100 round_robin [1%R; (-3)%R] st1024 = UB.
Proof.
  apply C71_minAbs_small; [apply C71_ready|discriminate|cbn; lia].
Qed.

(** The rounding of the size agrees with the standard's conversion. *)
Example float_of_int_spec : forallb (fun n =>
  match binary_normalize 24 128 n 0 false with
  | S754_finite false m e =>
      if (0 <=? e)%Z then (Z.pos m * 2 ^ e =? float_of_int n)%Z
      else (Z.pos m =? float_of_int n * 2 ^ (- e))%Z
  | _ => false
  end)
  [1; 2; 99999; 100000; 16777215; 16777216; 16777217; 16777218; 16777219; 16777221;
   33554431; 33554433; 33554434; 33554435; 33554437; 33554438; 33554439; 67108868;
   67108869; 2147483647; 2147483583; 2147483584; 1000000007]%Z = true.
Proof. vm_compute. reflexivity. Qed.

Print Assumptions C71_sum_covered.
Print Assumptions C71_sum.
Print Assumptions C71_innerProduct.
Print Assumptions C71_max.
Print Assumptions C71_min.
Print Assumptions C71_maxAbs.
Print Assumptions C71_minAbs.
Print Assumptions C71_minAbs_small.
Print Assumptions C71_sum_refuted.
Print Assumptions C71_independent_threads_refuted.
Print Assumptions C71_nan_refuted.
