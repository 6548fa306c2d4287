(** C26: field files in r-grid (and k-grid) format. *)
From Coq Require Import String ZArith Reals List Bool Lia Lra Permutation.
From Verif Require Import Base MeshSpec Mesh PropsMesh UnitCell FieldIo FieldIoProofs.
Import ListNotations.
Local Open Scope string_scope.
Local Open Scope Z_scope.
Local Open Scope list_scope.

(** ** Specification *)
(** Fields on a mesh with n points. *)
Definition shaped {E} (n : Z) (fs : list (list E)) : Prop := Forall (fun f => Z.of_nat (length f) = n) fs.
Definition finite (x : option R) : Prop := x <> None.
Definition finiteK (x : option R * option R) : Prop := finite (fst x) /\ finite (snd x).
Definition allE {E} (P : E -> Prop) (fs : list (list E)) : Prop := Forall (Forall P) fs.
(** A value after it has been written with 13 decimals. *)
Definition rounded (rnd : nat -> R -> R) (x : option R) : option R := option_map (rnd 13%nat) x.
Definition roundedK (rnd : nat -> R -> R) (x : option R * option R) : option R * option R :=
  (rounded rnd (fst x), rounded rnd (snd x)).
Definition numeric (t : token) : Prop := match t with TD _ | TI _ => True | TW _ => False end.

Lemma decR_ok : forall rnd e rest sp, finite e -> decR (mkS (encR rnd e ++ rest) sp) = Ok (rounded rnd e, mkS rest sp).
Proof. intros rnd [r|] rest sp H; [reflexivity|contradiction H; reflexivity]. Qed.
Lemma decK_ok : forall rnd e rest sp, finiteK e -> decK (mkS (encK rnd e ++ rest) sp) = Ok (roundedK rnd e, mkS rest sp).
Proof.
  intros rnd [[a|] [b|]] rest sp [H1 H2]; try reflexivity; exfalso; [apply H2|apply H1|apply H1]; reflexivity.
Qed.

Lemma shaped_range : forall E (fs : list (list E)) n r, shaped n fs -> 0 <= r < n ->
  Forall (fun f => 0 <= r < Z.of_nat (length f)) fs.
Proof. intros E fs n r H Hr. eapply Forall_impl; [|exact H]. cbn. intros; lia. Qed.
Lemma shaped_ok : forall E (P : E -> Prop) d (fs : list (list E)) n r, shaped n fs -> allE P fs -> 0 <= r < n ->
  Forall (fun f => 0 <= r < Z.of_nat (length f) /\ P (nth (Z.to_nat r) f d)) fs.
Proof.
  intros E P d fs n r H HP Hr. induction H as [|f fs Hf H IH]; [constructor|].
  inversion HP; subst. constructor; [|auto]. split; [lia|].
  match goal with X : Forall P f |- _ => rewrite Forall_forall in X; apply X end. apply nth_In. lia.
Qed.
Lemma shaped_nat : forall E (fs : list (list E)) n, shaped n fs -> Forall (fun f => length f = Z.to_nat n) fs.
Proof. intros. eapply Forall_impl; [|exact H]. cbn. intros; lia. Qed.

(** ** The data section *)
(** Layout of the file: one row per mesh point, the first index of the position runs
    fastest, one number per field; each value of each field is written once. *)
Theorem C26_layout : forall rnd dims m fuel fs,
  dims <> [] -> setDimensions dims = Ok m -> size m <= Z.of_nat fuel -> fs <> [] -> shaped (size m) fs ->
  exists toks, writeRGridData rnd fuel fs (length fs) dims = Ok toks /\
    toks = concat (map (fun n => map (fun f => dbl rnd 13 (nth (Z.to_nat (rank m (fpos dims n))) f None)) fs)
                       (zseq 0 (Z.to_nat (size m)))) /\
    Permutation toks (concat (map (map (dbl rnd 13)) fs)).
Proof.
  intros rnd dims m fuel fs Hne Hm Hf Hfs HS.
  destruct (f_ranks dims m fuel Hne Hm Hf) as [v [V1 [V2 [V3 V4]]]].
  unfold writeRGridData. destruct fs as [|f0 fs0]; [congruence|].
  assert (L : (0 <? length (f0 :: fs0))%nat = true) by reflexivity.
  set (fs := f0 :: fs0) in *. clearbody fs. rewrite L, Nat.eqb_refl. cbn [check bind]. rewrite V1. cbn [bind].
  rewrite (writePoints_spec _ _ None).
  2:{ intros r Hr. apply (shaped_range _ _ (size m)); auto.
      apply (Permutation_in _ V3) in Hr. apply zseq_in in Hr. lia. }
  eexists; split; [reflexivity|].
  assert (T : forall r, tokPoint (option R) (encR rnd) None fs r = map (fun f => dbl rnd 13 (nth (Z.to_nat r) f None)) fs).
  { intros r. unfold tokPoint, encR. clear. induction fs; [reflexivity|]. cbn [map concat app]. rewrite IHfs. reflexivity. }
  split.
  - rewrite V2, map_map. f_equal. apply map_ext. intros n. apply T.
  - rewrite (map_ext _ _ T).
    transitivity (concat (map (fun r => map (fun f => dbl rnd 13 (nth (Z.to_nat r) f None)) fs) (zseq 0 (Z.to_nat (size m))))).
    + clear -V3. induction V3; cbn [map concat]; auto.
      * apply Permutation_app_head; auto.
      * rewrite !app_assoc. apply Permutation_app_tail, Permutation_app_comm.
      * etransitivity; eauto.
    + (* transpose *)
      assert (G : forall (l : list (list (option R))) (rs : list Z),
        Permutation (concat (map (fun r => map (fun f => dbl rnd 13 (nth (Z.to_nat r) f None)) l) rs))
                    (concat (map (fun f => map (fun r => dbl rnd 13 (nth (Z.to_nat r) f None)) rs) l))).
      { clear. induction l as [|f l IH]; intros rs.
        - cbn [map concat]. induction rs; cbn; auto.
        - cbn [map concat]. rewrite <- IH. clear IH. induction rs as [|r rs IH]; [constructor|].
          cbn [map concat app]. constructor. rewrite IH.
          rewrite !app_assoc. apply Permutation_app_tail. apply Permutation_app_comm. }
      rewrite G. apply Permutation_refl'. f_equal. clear -HS V4. apply map_ext_in. intros f Hf.
      unfold shaped in HS. rewrite Forall_forall in HS. specialize (HS f Hf).
      apply (nth_ext _ _ (dbl rnd 13 None) (dbl rnd 13 None)).
      { rewrite !map_length. unfold zseq. rewrite map_length, seq_length. lia. }
      intros i Hi. rewrite map_length in Hi. unfold zseq in Hi. rewrite map_length, seq_length in Hi.
      unfold zseq. rewrite map_map. rewrite map_nth.
      rewrite (nth_indep _ _ (dbl rnd 13 (nth (Z.to_nat (0 + Z.of_nat 0)) f None))) by (rewrite map_length, seq_length; auto).
      rewrite (map_nth (fun x => dbl rnd 13 (nth (Z.to_nat (0 + Z.of_nat x)) f None)) (seq 0 (Z.to_nat (size m))) 0%nat i).
      rewrite seq_nth by auto. f_equal. f_equal. lia.
Qed.
Print Assumptions C26_layout.

(** Reading the data section that was written into arrays of the same shape (whatever
    they contain) gives the fields back, rounded to the format; the stream is left
    behind the data. *)
Theorem C26_roundtrip : forall rnd dims m fuel fs gs rest sp,
  dims <> [] -> setDimensions dims = Ok m -> size m <= Z.of_nat fuel ->
  fs <> [] -> shaped (size m) fs -> allE finite fs ->
  length gs = length fs -> shaped (size m) gs ->
  rest <> [] \/ sp = true ->
  exists toks, writeRGridData rnd fuel fs (length fs) dims = Ok toks /\
    readRGridData fuel gs (length fs) dims (mkS (toks ++ rest) sp) = Ok (map (map (rounded rnd)) fs, mkS rest sp).
Proof.
  intros rnd dims m fuel fs gs rest sp Hne Hm Hf Hfs HS HF HL HG HR.
  destruct (f_ranks dims m fuel Hne Hm Hf) as [v [V1 [V2 [V3 V4]]]].
  assert (L : (0 <? length fs)%nat = true) by (destruct fs; [congruence|reflexivity]).
  unfold writeRGridData, readRGridData. rewrite HL, L, Nat.eqb_refl. cbn [check bind]. rewrite V1. cbn [bind].
  assert (RR : forall r, In r (map fst v) -> 0 <= r < size m).
  { intros r Hr. apply (Permutation_in _ V3) in Hr. apply zseq_in in Hr. lia. }
  rewrite (writePoints_spec _ _ None) by (intros; eapply shaped_range; eauto).
  eexists; split; [reflexivity|].
  rewrite (readPoints_spec (option R) (encR rnd) decR finite (rounded rnd) None (decR_ok rnd)).
  - cbn [bind snd]. assert (GD : good (mkS rest sp) = true).
    { unfold good; cbn [sToks sSpace]. destruct rest; [|reflexivity]. destruct HR; [congruence|auto]. }
    rewrite GD. cbn [check bind]. do 2 f_equal.
    apply (updAll_full _ (rounded rnd) None _ _ _ (Z.to_nat (size m))); auto using shaped_nat.
    intros i Hi. apply (Permutation_in _ (Permutation_sym V3)). apply zseq_in. lia.
  - auto.
  - intros r Hr. eapply shaped_ok; eauto.
  - intros r Hr. eapply shaped_range; eauto.
Qed.
Print Assumptions C26_roundtrip.

(** Values that the format represents exactly come back unchanged. *)
Theorem C26_roundtrip_exact : forall rnd dims m fuel fs gs rest,
  dims <> [] -> setDimensions dims = Ok m -> size m <= Z.of_nat fuel ->
  fs <> [] -> shaped (size m) fs -> length gs = length fs -> shaped (size m) gs ->
  allE (fun x => exists r, x = Some r /\ rnd 13%nat r = r) fs ->
  exists toks, writeRGridData rnd fuel fs (length fs) dims = Ok toks /\
    readRGridData fuel gs (length fs) dims (mkS (toks ++ rest) true) = Ok (fs, mkS rest true).
Proof.
  intros rnd dims m fuel fs gs rest Hne Hm Hf Hfs HS HL HG HE.
  destruct (C26_roundtrip rnd dims m fuel fs gs rest true) as [toks [W Rd]]; auto.
  - eapply Forall_impl; [|exact HE]. intros f Hff. eapply Forall_impl; [|exact Hff].
    intros x [r [-> _]]. discriminate.
  - exists toks. split; auto. rewrite Rd. do 2 f_equal. clear -HE.
    induction HE as [|f fs Hff HE IH]; [reflexivity|]. cbn [map]. rewrite IH. f_equal.
    induction Hff as [|x f [r [-> Hx]] Hff IH']; [reflexivity|]. cbn [map]. rewrite IH'. cbn. rewrite Hx. reflexivity.
Qed.
Print Assumptions C26_roundtrip_exact.

(** The overloads for a single field do the same as those for an array of one field. *)
Theorem C26_single : forall rnd fuel f dims s,
  writeRGridData1 rnd fuel f dims = writeRGridData rnd fuel [f] 1 dims /\
  readRGridData1 fuel f dims s =
    (q <- readRGridData fuel [f] 1 dims s ;; Ok (hd [] (fst q), snd q)).
Proof.
  intros rnd fuel f dims s. split.
  - unfold writeRGridData1, writeRGridData. cbn [length Nat.ltb Nat.leb Nat.eqb check bind].
    destruct (f_visit fuel dims) as [v| | |]; cbn [bind]; auto.
    unfold writePoints. generalize (map fst v) as rs. induction rs as [|r rs IH]; [reflexivity|].
    cbn [mapM]. unfold writePoint at 1. cbn [mapM]. destruct (at1 f r) as [x| | |]; cbn [bind]; auto.
    destruct (mapM _ rs) as [l| | |] eqn:E; cbn [bind] in IH |- *;
    destruct (mapM (writePoint (encR rnd) [f]) rs) as [l2| | |]; cbn [bind] in IH |- *; try discriminate IH; auto.
    injection IH as ->. reflexivity.
  - unfold readRGridData1, readRGridData. cbn [length Nat.ltb Nat.leb Nat.eqb check bind].
    destruct (f_visit fuel dims) as [v| | |]; cbn [bind]; auto.
    generalize (map fst v) as rs. intros rs. revert f s. induction rs as [|r rs IH]; intros f s.
    + cbn [readField1 readPoints bind fst snd]. destruct (good s); reflexivity.
    + cbn [readField1 readPoints readPoint]. unfold decR at 1. destruct (rdD s) as [x| | |]; cbn [bind fst snd]; auto.
      destruct (set1 f r (Some (fst x))) as [g| | |]; cbn [bind fst snd]; auto.
Qed.
Print Assumptions C26_single.

(** ** What is rejected *)
(** If reading succeeds, the stream started with one number per point and field, and
    something (a blank or line end, or a token) follows the last of them: truncated
    files, words such as nan, and files that end at the last digit are rejected. *)
Lemma readPoint_consumes : forall r gs s hs s', readPoint decR r gs s = Ok (hs, s') ->
  exists pre, sToks s = pre ++ sToks s' /\ sSpace s' = sSpace s /\ length pre = length gs /\ Forall numeric pre /\ length hs = length gs.
Proof.
  intros r. induction gs as [|g gs IH]; intros s hs s' H; cbn [readPoint] in H.
  - inversion H; subst. exists []. repeat split; auto.
  - unfold decR at 1 in H. destruct (rdD s) as [[x s1]| | |] eqn:E; try discriminate. cbn [bind fst snd] in H.
    destruct (set1 g r (Some x)) as [f'| | |]; try discriminate. cbn [bind] in H.
    destruct (readPoint decR r gs s1) as [[h2 s2]| | |] eqn:E2; try discriminate. cbn [bind fst snd] in H.
    inversion H; subst. destruct (IH _ _ _ E2) as [pre [P1 [P2 [P3 [P4 P5]]]]].
    unfold rdD in E. destruct (sToks s) as [|[w|n|y] t] eqn:Et; try discriminate;
    inversion E; subst; cbn [sToks sSpace] in *.
    + exists (TI n :: pre). cbn [app length]. rewrite P1. repeat split; auto. constructor; cbn; auto.
    + exists (TD x :: pre). cbn [app length]. rewrite P1. repeat split; auto. constructor; cbn; auto.
Qed.
Lemma readPoints_consumes : forall rs gs s hs s', readPoints decR rs gs s = Ok (hs, s') ->
  exists pre, sToks s = pre ++ sToks s' /\ sSpace s' = sSpace s /\ length pre = (length rs * length gs)%nat /\ Forall numeric pre.
Proof.
  induction rs as [|r rs IH]; intros gs s hs s' H; cbn [readPoints] in H.
  - inversion H; subst. exists []. repeat split; auto.
  - destruct (readPoint decR r gs s) as [[g1 s1]| | |] eqn:E; try discriminate. cbn [bind fst snd] in H.
    destruct (readPoint_consumes _ _ _ _ _ E) as [p1 [A1 [A2 [A3 [A4 A5]]]]].
    destruct (IH _ _ _ _ H) as [p2 [B1 [B2 [B3 B4]]]].
    exists (p1 ++ p2). rewrite A1, B1, <- app_assoc. repeat split; auto; try congruence.
    + rewrite app_length. cbn [length]. lia.
    + apply Forall_app; auto.
Qed.
Lemma readPoint_no_ub : forall r gs s N, 0 <= r < N -> shaped N gs ->
  readPoint decR r gs s = Throw \/ exists h s', readPoint decR r gs s = Ok (h, s') /\ shaped N h /\ length h = length gs.
Proof.
  intros r gs s N Hr HG. revert s. induction HG as [|g gs Hg HG IH]; intros s.
  - right. exists [], s. split; [reflexivity|]. split; [constructor|reflexivity].
  - cbn [readPoint]. unfold decR at 1 3. destruct (rdD s) as [[x s1]| | |] eqn:E; cbn [bind fst snd].
    + rewrite set1_ok by lia. cbn [bind]. destruct (IH s1) as [T|[h [s2 [T [S2 L2]]]]]; rewrite T; cbn [bind fst snd]; auto.
      right. do 2 eexists. split; [reflexivity|]. split; [|cbn; auto]. constructor; auto. rewrite update_length; auto.
    + auto.
    + unfold rdD in E. destruct (sToks s) as [|[| |] ?]; discriminate.
    + unfold rdD in E. destruct (sToks s) as [|[| |] ?]; discriminate.
Qed.
Lemma readPoints_no_ub : forall N rs gs s, (forall r, In r rs -> 0 <= r < N) -> shaped N gs ->
  readPoints decR rs gs s = Throw \/ exists h s', readPoints decR rs gs s = Ok (h, s') /\ shaped N h.
Proof.
  induction rs as [|r rs IH]; intros gs s HR HG; cbn [readPoints].
  - right; eauto.
  - destruct (readPoint_no_ub r gs s N) as [T|[h [s1 [T [S1 L1]]]]]; auto.
    + apply HR; left; auto.
    + rewrite T. auto.
    + rewrite T. cbn [bind fst snd]. apply IH; auto. intros; apply HR; right; auto.
Qed.
Theorem C26_read : forall dims m fuel gs s,
  dims <> [] -> setDimensions dims = Ok m -> size m <= Z.of_nat fuel -> gs <> [] -> shaped (size m) gs ->
  readRGridData fuel gs (length gs) dims s = Throw \/
  exists hs s' pre, readRGridData fuel gs (length gs) dims s = Ok (hs, s') /\
    sToks s = pre ++ sToks s' /\ Z.of_nat (length pre) = size m * Z.of_nat (length gs) /\ Forall numeric pre /\
    (sToks s' <> [] \/ sSpace s = true).
Proof.
  intros dims m fuel gs s Hne Hm Hf Hgs HG.
  destruct (f_ranks dims m fuel Hne Hm Hf) as [v [V1 [V2 [V3 V4]]]].
  assert (L : (0 <? length gs)%nat = true) by (destruct gs; [congruence|reflexivity]).
  unfold readRGridData. rewrite L, Nat.eqb_refl. cbn [check bind]. rewrite V1. cbn [bind].
  assert (RR : forall r, In r (map fst v) -> 0 <= r < size m).
  { intros r Hr. apply (Permutation_in _ V3) in Hr. apply zseq_in in Hr. lia. }
  destruct (readPoints_no_ub (size m) (map fst v) gs s RR HG) as [T|[h [s' [T _]]]]; rewrite T; cbn [bind snd]; auto.
  destruct (good s') eqn:GD; cbn [check bind]; auto. right.
  destruct (readPoints_consumes _ _ _ _ _ T) as [pre [P1 [P2 [P3 P4]]]].
  exists h, s', pre. split; [reflexivity|]. split; [auto|]. split; [|split; auto].
  - rewrite P3, V2, map_length. unfold zseq. rewrite map_length, seq_length. nia.
  - unfold good in GD. destruct (sToks s'); [right; congruence|left; discriminate].
Qed.
Print Assumptions C26_read.

(** A written field with an element that is not finite cannot be read back. *)
Theorem C26_nan_rejected : forall rnd dims m fuel fs gs rest sp,
  dims <> [] -> setDimensions dims = Ok m -> size m <= Z.of_nat fuel ->
  fs <> [] -> shaped (size m) fs -> length gs = length fs -> shaped (size m) gs ->
  ~ allE finite fs ->
  exists toks, writeRGridData rnd fuel fs (length fs) dims = Ok toks /\
    readRGridData fuel gs (length fs) dims (mkS (toks ++ rest) sp) = Throw.
Proof.
  intros rnd dims m fuel fs gs rest sp Hne Hm Hf Hfs HS HL HG HN.
  destruct (C26_layout rnd dims m fuel fs Hne Hm Hf Hfs HS) as [toks [W [LT PT]]].
  exists toks. split; auto. rewrite <- HL.
  assert (Hgs : gs <> []) by (intros ->; destruct fs; [congruence|discriminate HL]).
  destruct (C26_read dims m fuel gs (mkS (toks ++ rest) sp) Hne Hm Hf Hgs HG) as [T|[hs [s' [pre [_ [P1 [P2 [P3 _]]]]]]]]; auto.
  exfalso. apply HN. cbn [sToks] in P1.
  assert (LEN : length toks = length pre).
  { apply Nat2Z.inj. rewrite P2, HL, LT. clear -HS Hm Hne.
    assert (S0 : 0 <= size m).
    { destruct (mesh_rank_position_bijection dims m Hne Hm) as [_ [S1 _]]. rewrite S1.
      pose proof (all_positive_dims dims m Hne Hm) as P. clear -P. induction P; cbn [prodZ]; lia. }
    rewrite <- (Z2Nat.id (size m)) at 2 by auto. generalize (Z.to_nat (size m)) as k. intros k.
    assert (G : forall l : list Z, Z.of_nat (length (concat (map (fun n => map (fun f => dbl rnd 13 (nth (Z.to_nat (rank m (fpos dims n))) f None)) fs) l))) = Z.of_nat (length l) * Z.of_nat (length fs)).
    { induction l; [reflexivity|]. cbn [map concat length]. rewrite app_length, map_length. lia. }
    rewrite G. unfold zseq. rewrite map_length, seq_length. reflexivity. }
  assert (pre = toks).
  { transitivity (firstn (length pre) (pre ++ sToks s')).
    - rewrite firstn_app, Nat.sub_diag, firstn_all. cbn. rewrite app_nil_r. reflexivity.
    - rewrite <- P1, <- LEN, firstn_app, Nat.sub_diag, firstn_all. cbn. rewrite app_nil_r. reflexivity. }
  subst pre. clear -P3 PT. apply (Permutation_Forall PT) in P3. clear PT toks.
  induction fs as [|f fs IH]; [constructor|]. cbn [map concat] in P3. apply Forall_app in P3 as [A B].
  assert (Q : Forall finite f).
  { clear -A. induction f as [|x f IH]; [constructor|]. cbn [map] in A. inversion A; subst. constructor; auto.
    intros ->. cbn in *. auto. }
  constructor; [exact Q|]. apply IH; auto.
Qed.
Print Assumptions C26_nan_rejected.

(** A data section cut short, or without a line end behind its last number, is
    rejected. *)
Theorem C26_truncated_rejected : forall dims m fuel gs s,
  dims <> [] -> setDimensions dims = Ok m -> size m <= Z.of_nat fuel -> gs <> [] -> shaped (size m) gs ->
  Z.of_nat (length (sToks s)) < size m * Z.of_nat (length gs) \/
  (Z.of_nat (length (sToks s)) = size m * Z.of_nat (length gs) /\ sSpace s = false) ->
  readRGridData fuel gs (length gs) dims s = Throw.
Proof.
  intros dims m fuel gs s Hne Hm Hf Hgs HG H.
  destruct (C26_read dims m fuel gs s Hne Hm Hf Hgs HG) as [T|[hs [s' [pre [_ [P1 [P2 [P3 P4]]]]]]]]; auto.
  exfalso. rewrite P1, app_length in H. destruct H as [H|[H H']]; [lia|].
  destruct P4 as [P4|P4]; [|congruence]. destruct (sToks s'); [congruence|]. cbn [length] in H. lia.
Qed.
Print Assumptions C26_truncated_rejected.

(** ** K-grid data *)
Lemma it_ranks : forall dims m fuel, dims <> [] -> setDimensions dims = Ok m -> size m <= Z.of_nat fuel ->
  exists v, it_visit fuel dims = Ok v /\ map fst v = zseq 0 (Z.to_nat (size m)).
Proof.
  intros dims m fuel Hne Hm Hf. destruct (mesh_iterator_visits_all_in_order dims m fuel Hne Hm) as [A _].
  eexists. split; [apply A; auto|]. rewrite map_map. cbn [fst]. apply map_id.
Qed.
Lemma size_nonneg : forall dims m, dims <> [] -> setDimensions dims = Ok m -> 0 < size m.
Proof.
  intros dims m Hne Hm. destruct (mesh_rank_position_bijection dims m Hne Hm) as [_ [S1 _]]. rewrite S1.
  pose proof (all_positive_dims dims m Hne Hm) as P. clear -P. induction P; cbn [prodZ]; lia.
Qed.
Theorem C26_kgrid_roundtrip : forall rnd dims m fuel fs gs rest sp,
  dims <> [] -> setDimensions dims = Ok m -> size m <= Z.of_nat fuel ->
  fs <> [] -> shaped (size m) fs -> allE finiteK fs ->
  length gs = length fs -> shaped (size m) gs ->
  rest <> [] \/ sp = true ->
  exists toks, writeKGridData rnd fuel fs (length fs) dims = Ok toks /\
    readKGridData fuel gs dims (mkS (toks ++ rest) sp) = Ok (map (map (roundedK rnd)) fs, mkS rest sp).
Proof.
  intros rnd dims m fuel fs gs rest sp Hne Hm Hf Hfs HS HF HL HG HR.
  destruct (it_ranks dims m fuel Hne Hm Hf) as [v [V1 V2]].
  pose proof (size_nonneg dims m Hne Hm) as S0.
  assert (L : (0 <? length fs)%nat = true) by (destruct fs; [congruence|reflexivity]).
  unfold writeKGridData, readKGridData. rewrite L, Nat.eqb_refl. cbn [check bind]. rewrite V1. cbn [bind]. rewrite V2.
  rewrite (writeRows_spec _ _ (None, None)) by (intros; eapply shaped_range; eauto; lia).
  eexists; split; [reflexivity|].
  rewrite (readRows_spec _ (encK rnd) decK finiteK (roundedK rnd) (None, None) (decK_ok rnd)).
  - cbn [bind snd]. assert (GD : good (mkS rest sp) = true).
    { unfold good; cbn [sToks sSpace]. destruct rest; [|reflexivity]. destruct HR; [congruence|auto]. }
    rewrite GD. cbn [check bind]. do 2 f_equal.
    apply (updAll_full _ (roundedK rnd) (None, None) _ _ _ (Z.to_nat (size m))); auto using shaped_nat.
    intros i Hi. apply zseq_in. lia.
  - auto.
  - intros r Hr. eapply shaped_ok; eauto. lia.
  - intros r Hr. eapply shaped_range; eauto. lia.
Qed.
Print Assumptions C26_kgrid_roundtrip.

(** ** Header *)
Lemma rdN_TI : forall ds rest sp, rdN rdI (length ds) (mkS (map TI ds ++ rest) sp) = Ok (ds, mkS rest sp).
Proof.
  induction ds as [|d ds IH]; intros; [reflexivity|]. cbn [length rdN map app]. unfold rdI at 1. cbn [sToks sSpace bind fst snd].
  rewrite IH. reflexivity.
Qed.
Lemma rdN_TD : forall (h : nat -> R) ns rest sp,
  rdN rdD (length ns) (mkS (map (fun i => TD (h i)) ns ++ rest) sp) = Ok (map h ns, mkS rest sp).
Proof.
  intros h. induction ns as [|n ns IH]; intros; [reflexivity|]. cbn [length rdN map app]. unfold rdD at 1. cbn [sToks sSpace bind fst snd].
  rewrite IH. reflexivity.
Qed.
Lemma eqbL_iff : forall a b, eqbL a b = true <-> a = b.
Proof.
  induction a as [|x a IH]; destruct b as [|y b]; cbn [eqbL]; split; intros H; try congruence; auto.
  - apply andb_true_iff in H as [H1 H2]. apply Z.eqb_eq in H1. apply IH in H2. congruence.
  - inversion H; subst. rewrite Z.eqb_refl. apply IH. reflexivity.
Qed.
(** The mesh dimensions in a file are accepted exactly if they are those of the mesh. *)
Theorem C26_mesh_dimensions : forall dims dims' rest sp, rest <> [] \/ sp = true -> length dims' = length dims ->
  (dims' = dims -> readMeshDimensions dims (mkS (writeMeshDimensions dims' ++ rest) sp) = Ok (mkS rest sp)) /\
  (dims' <> dims -> readMeshDimensions dims (mkS (writeMeshDimensions dims' ++ rest) sp) = Throw).
Proof.
  intros dims dims' rest sp HR HL.
  assert (GD : good (mkS rest sp) = true).
  { unfold good; cbn [sToks sSpace]. destruct rest; [|reflexivity]. destruct HR; [congruence|auto]. }
  unfold readMeshDimensions, writeMeshDimensions. cbn [app rdW sToks sSpace bind fst snd].
  cbn [String.eqb Ascii.eqb Bool.eqb orb check bind]. rewrite <- HL, rdN_TI. cbn [bind fst snd].
  rewrite GD. cbn [check bind]. split; intros H.
  - apply eqbL_iff in H. rewrite H. reflexivity.
  - destruct (eqbL dims' dims) eqn:E; [apply eqbL_iff in E; congruence|reflexivity].
Qed.
Print Assumptions C26_mesh_dimensions.

Lemma latRead_name : forall l, latRead (dim l) (latName l) = Ok l.
Proof. destruct l; reflexivity. Qed.
Lemma latRead_dim : forall D w l, (1 <= D <= 3)%nat -> latRead D w = Ok l -> dim l = D.
Proof.
  intros D w l HD H. destruct D as [|[|[|[|D]]]]; try lia; unfold latRead in H;
  repeat match type of H with (if ?b then _ else _) = _ => destruct b end; inversion H; reflexivity.
Qed.

(** A unit cell whose lattice is set; a reader's cell may be unset or have the same
    lattice. *)
Definition cellSet (c : ucell) (l : lattice) : Prop := uLat c = Some l /\ uN c = nParam l /\ uD c = dim l.
Definition cellReady (c : ucell) (l : lattice) : Prop :=
  uD c = dim l /\ ((uLat c = None /\ uN c = 0%nat) \/ (uLat c = Some l /\ uN c = nParam l)).
(** The cell after reading: lattice and parameters of the file, vectors recomputed. *)
Definition cellRead (rnd : nat -> R -> R) (c c' : ucell) (l : lattice) : Prop :=
  cellSet c' l /\ uInit c' = true /\ (forall i, (i < nParam l)%nat -> uP c' i = rnd 10%nat (uP c i)) /\
  (forall i j, uR c' i j = rBasis l (uP c') i j).

Lemma lattice_eqb_refl : forall l, lattice_eqb l l = true.
Proof. intros. unfold lattice_eqb. destruct (lattice_eq_dec l l); congruence. Qed.
Lemma lattice_eqb_neq : forall l l', l <> l' -> lattice_eqb l l' = false.
Proof. intros. unfold lattice_eqb. destruct (lattice_eq_dec l l'); congruence. Qed.

Lemma unitcell_header_roundtrip : forall rnd c c0 l rest sp, cellSet c l -> cellReady c0 l ->
  exists c', readUnitCellHeader c0 (mkS (writeUnitCellHeader rnd c ++ rest) sp) = Ok (c', mkS rest sp) /\ cellRead rnd c c' l.
Proof.
  intros rnd c c0 l rest sp [C1 [C2 C3]] [R1 R2].
  unfold readUnitCellHeader, writeUnitCellHeader, expect. rewrite C1, C2.
  cbn [app rdW sToks sSpace bind fst snd String.eqb Ascii.eqb Bool.eqb check].
  rewrite R1, latRead_name. cbn [bind].
  set (c1 := mkUcell (uD c0) (Some l) (nParam l) (uP c0) false (uR c0) (uK c0) (uDr c0) (uDk c0) (uDrr c0) (uDkk c0)).
  assert (X : exists c1', match uLat c0 with
        | None => Ok (mkUcell (dim l) (Some l) (nParam l) (uP c0) false (uR c0) (uK c0) (uDr c0) (uDk c0) (uDrr c0) (uDkk c0))
        | Some l0 => check (lattice_eqb l l0) ;; Ok c0
        end = Ok c1' /\ uLat c1' = Some l /\ uN c1' = nParam l /\ uD c1' = dim l).
  { destruct R2 as [[A B]|[A B]]; rewrite A.
    - eexists; split; [reflexivity|]. auto.
    - rewrite lattice_eqb_refl. cbn [check bind]. eexists; split; [reflexivity|]. auto. }
  destruct X as [c1' [X1 [X2 [X3 X4]]]]. rewrite X1. cbn [bind rdI sToks sSpace fst snd]. rewrite X3, Z.eqb_refl. cbn [check bind].
  assert (Y := rdN_TD (fun i => rnd 10%nat (uP c i)) (seq 0 (nParam l)) rest sp). rewrite seq_length in Y.
  cbn [rdW sToks sSpace bind fst snd String.eqb Ascii.eqb Bool.eqb check]. rewrite Y. clear Y.
  cbn [bind fst snd]. unfold setLattice, withParams. cbn [uLat uN uD uP]. rewrite X2, X3, Nat.eqb_refl. cbn [check bind].
  eexists. split; [reflexivity|]. unfold cellRead, cellSet. cbn [uLat uN uD uP uInit uR]. repeat split; auto.
  intros i Hi. unfold putParams. destruct (Nat.ltb_spec i (nParam l)); [|lia].
  rewrite (nth_indep _ 0%R ((fun i => rnd 10%nat (uP c i)) 0%nat)) by (rewrite map_length, seq_length; auto).
  rewrite (map_nth (fun i => rnd 10%nat (uP c i))). rewrite seq_nth by auto. reflexivity.
Qed.

(** The header comes back: versions, lattice, (rounded) parameters, group, number of
    monomer types. *)
Theorem C26_header : forall rnd v1 v2 c c0 l group n rest sp, cellSet c l -> cellReady c0 l -> 0 < n ->
  exists toks c', writeFieldHeader rnd v1 v2 c group n = Ok toks /\
    readFieldHeader c0 (mkS (toks ++ rest) sp) = Ok (mkHead v1 v2 c' group n, mkS rest sp) /\ cellRead rnd c c' l.
Proof.
  intros rnd v1 v2 c c0 l group n rest sp HC HR Hn. destruct HC as [C1 [C2 C3]]. destruct HR as [R1 R2].
  unfold writeFieldHeader. destruct (Z.eqb_spec n 0); [lia|]. destruct (Z.ltb_spec 0 n); [|lia]. cbn [check bind].
  set (tail := (if String.eqb group "" then [] else [TW "group_name"; TW group]) ++ [TW "N_monomer"; TI n]).
  destruct (unitcell_header_roundtrip rnd c c0 l (tail ++ rest) sp) as [c' [U1 U2]]; [split; auto|split; auto|].
  do 2 eexists. split; [reflexivity|]. split; [|exact U2].
  unfold readFieldHeader, expect. rewrite <- !app_assoc.
  cbn [app rdW rdI sToks sSpace bind fst snd String.eqb Ascii.eqb Bool.eqb check]. rewrite C3, R1, Z.eqb_refl. cbn [check bind].
  rewrite U1. cbn [bind fst snd]. unfold tail.
  destruct (String.eqb_spec group "") as [->|NG].
  - cbn [app rdW rdI sToks sSpace bind fst snd String.eqb Ascii.eqb Bool.eqb check].
    destruct (Z.ltb_spec 0 n); [|lia]. reflexivity.
  - cbn [app rdW rdI sToks sSpace bind fst snd String.eqb Ascii.eqb Bool.eqb check].
    destruct (Z.ltb_spec 0 n); [|lia]. reflexivity.
Qed.
Print Assumptions C26_header.

(** ** Whole files *)
(** Arrays of mesh fields on one mesh. *)
Definition onMesh {E} (dims : list Z) (n : Z) (F : list (meshField E)) : Prop :=
  Forall (fun f => fst f = dims /\ Z.of_nat (length (snd f)) = n) F.
(** The group name written to a file: none if the data are not symmetric. *)
Definition fileGroup (io : fio) (sym : bool) (g : string) : Prop :=
  if sym then ioGroup io = Some g /\ g <> "" else g = "".

Lemma onMesh_shaped : forall E dims n (F : list (meshField E)), onMesh dims n F -> shaped n (map snd F).
Proof. intros E dims n F H. induction H as [|f F [A B] H IH]; constructor; auto. Qed.
Lemma onMesh_dims : forall E dims n (F : list (meshField E)), onMesh dims n F -> forallb (fun f => eqbL (fst f) dims) F = true.
Proof.
  intros E dims n F H. apply forallb_forall. intros f Hf. unfold onMesh in H. rewrite Forall_forall in H.
  apply eqbL_iff. apply H; auto.
Qed.
Lemma inspect_ok : forall E dims n (F : list (meshField E)), F <> [] -> onMesh dims n F ->
  inspectFields (Some F) = Ok (Z.of_nat (length F), dims).
Proof.
  intros E dims n F HF H. unfold inspectFields. destruct F as [|f F]; [congruence|].
  cbn [hd]. assert (fst f = dims) as -> by (inversion H; subst; tauto).
  rewrite (onMesh_dims E dims n) by auto. reflexivity.
Qed.
Lemma meshSize_prod : forall dims, meshSize dims = prodZ dims.
Proof.
  intros dims. unfold meshSize. assert (G : forall l a, fold_left Z.mul l a = a * prodZ l).
  { induction l; intros; cbn [fold_left prodZ]; [lia|]. rewrite IHl. lia. }
  rewrite G. lia.
Qed.
Lemma alloc_ok : forall E cap junk (G : option (list (meshField E))) dims N n,
  cap dims = N -> 0 <= N ->
  match G with Some F => F <> [] /\ onMesh dims N F /\ Z.of_nat (length F) = n | None => 0 < n end ->
  exists F, checkAllocateFields cap junk G n dims = Ok F /\ onMesh dims N F /\ Z.of_nat (length F) = n.
Proof.
  intros E cap junk [F|] dims N n HC HN H.
  - destruct H as [H1 [H2 H3]]. exists F. split; [|auto]. unfold checkAllocateFields.
    destruct F as [|f F]; [congruence|]. rewrite H3, Z.eqb_refl, (onMesh_dims _ _ N) by auto. reflexivity.
  - eexists. split; [reflexivity|]. split; [|rewrite repeat_length; lia].
    apply Forall_forall. intros f Hf. apply repeat_spec in Hf. subst f. cbn [fst snd]. rewrite repeat_length. split; [reflexivity|]. lia.
Qed.

(** Header of a file that the FieldIo [io] wrote and [io'] reads. *)
Lemma io_header : forall rnd io io' c c0 l sym g n rest sp,
  cellSet c l -> cellReady c0 l -> 0 < n -> fileGroup io sym g ->
  ioLat io' = Some l -> (ioGroup io' = None \/ (ioBasisOk io' = true /\ (sym = true -> ioGroup io' = Some g))) ->
  exists toks c', ioWriteHeader rnd io n c sym = Ok toks /\
    ioReadHeader io' c0 (mkS (toks ++ rest) sp) = Ok ((n, c', sym), mkS rest sp) /\ cellRead rnd c c' l.
Proof.
  intros rnd io io' c c0 l sym g n rest sp HC HR Hn HG HL HI.
  destruct (C26_header rnd 1 0 c c0 l g n rest sp HC HR Hn) as [toks [c' [W [Rd CR]]]].
  exists toks, c'. split; [|split; [|exact CR]].
  - unfold ioWriteHeader. unfold fileGroup in HG. destruct sym; [destruct HG as [-> _]|subst g]; exact W.
  - unfold ioReadHeader.
    assert (P0 : ioPre io' c0 = Ok tt).
    { unfold ioPre. destruct HR as [_ [[A B]|[A B]]]; rewrite A, B; [reflexivity|]. rewrite HL, lattice_eqb_refl. destruct l; reflexivity. }
    rewrite P0. cbn [bind]. rewrite Rd. cbn [bind fst snd hV1 hCell hGroup hN].
    destruct CR as [[C1 [C2 C3]] [C4 _]]. rewrite C4, C1, C2, HL, lattice_eqb_refl.
    replace (0 <? nParam l)%nat with true by (destruct l; reflexivity). cbn [Z.eqb Pos.eqb check bind].
    assert (SY : negb (String.eqb g "") = sym).
    { unfold fileGroup in HG. destruct sym.
      - destruct HG as [_ HG]. destruct (String.eqb_spec g ""); [congruence|reflexivity].
      - subst g. reflexivity. }
    rewrite SY. destruct HI as [HI|[HB HI]].
    + rewrite HI. reflexivity.
    + destruct (ioGroup io') as [g'|]; [|reflexivity]. rewrite HB. destruct sym; [|reflexivity].
      specialize (HI eq_refl). injection HI as ->. rewrite String.eqb_refl. reflexivity.
Qed.

(** A file written by writeFieldsRGrid is read back by readFieldsRGrid: fields and
    cell parameters rounded to the format, the flag for symmetry unchanged. *)
Theorem C26_file : forall rnd dims m fuel io io' F G junk c c0 l sym g rest sp,
  dims <> [] -> setDimensions dims = Ok m -> size m <= Z.of_nat fuel ->
  F <> [] -> onMesh dims (size m) F -> allE finite (map snd F) ->
  match G with Some H => H <> [] /\ onMesh dims (size m) H /\ length H = length F | None => True end ->
  cellSet c l -> cellReady c0 l -> fileGroup io sym g ->
  ioLat io' = Some l -> (ioGroup io' = None \/ (ioBasisOk io' = true /\ (sym = true -> ioGroup io' = Some g))) ->
  rest <> [] \/ sp = true ->
  exists toks c', writeFieldsRGrid rnd fuel io (Some F) c true sym true = Ok toks /\
    readFieldsRGrid fuel io' dims junk G c0 (mkS (toks ++ rest) sp) =
      Ok (map (map (rounded rnd)) (map snd F), c', sym, mkS rest sp) /\ cellRead rnd c c' l.
Proof.
  intros rnd dims m fuel io io' F G junk c c0 l sym g rest sp Hne Hm Hf HF HO HFin HGG HC HR HG HL HI HS.
  pose proof (size_nonneg dims m Hne Hm) as S0.
  assert (Hn : 0 < Z.of_nat (length F)) by (destruct F; [congruence|cbn [length]; lia]).
  assert (MS : meshSize dims = size m).
  { rewrite meshSize_prod. destruct (mesh_rank_position_bijection dims m Hne Hm) as [_ [S1 _]]. auto. }
  destruct (alloc_ok _ meshSize junk G dims (size m) (Z.of_nat (length F)) MS) as [A [A1 [A2 A3]]]; [lia| |].
  { destruct G as [H|]; [|auto]. destruct HGG as [X1 [X2 X3]]. rewrite X3. auto. }
  destruct (C26_roundtrip rnd dims m fuel (map snd F) (map snd A) rest sp) as [data [D1 D2]]; auto.
  { destruct F; [congruence|discriminate]. }
  { eapply onMesh_shaped; eauto. }
  { rewrite !map_length. apply Nat2Z.inj. exact A3. }
  { eapply onMesh_shaped; eauto. }
  destruct (io_header rnd io io' c c0 l sym g (Z.of_nat (length F)) (writeMeshDimensions dims ++ data ++ rest) sp) as [head [c' [H1 [H2 H3]]]]; auto.
  exists (head ++ writeMeshDimensions dims ++ data), c'. split; [|split; [|exact H3]].
  - unfold writeFieldsRGrid. rewrite (inspect_ok _ dims (size m)) by auto. cbn [bind fst snd]. rewrite H1. cbn [bind].
    rewrite Nat2Z.id. rewrite map_length in D1. rewrite D1. reflexivity.
  - unfold readFieldsRGrid. rewrite <- !app_assoc, H2. cbn [bind].
    destruct (C26_mesh_dimensions dims dims (data ++ rest) sp) as [M _]; auto.
    { destruct HS as [HS|HS]; [|auto]. left. destruct data; [auto|discriminate]. }
    rewrite (M eq_refl). cbn [bind]. rewrite A1. cbn [bind]. rewrite map_length in D2. rewrite Nat2Z.id, D2. reflexivity.
Qed.
Print Assumptions C26_file.

(** Files of another lattice, mesh, group or number of fields are rejected. *)
Theorem C26_file_rejected : forall rnd dims m fuel io io' F G junk c c0 l sym g rest sp dims',
  dims <> [] -> setDimensions dims = Ok m -> size m <= Z.of_nat fuel ->
  F <> [] -> onMesh dims (size m) F ->
  cellSet c l -> cellReady c0 l -> fileGroup io sym g -> length dims' = length dims ->
  rest <> [] \/ sp = true ->
  ioLat io' <> Some l \/
  (sym = true /\ exists g', ioGroup io' = Some g' /\ g' <> g) \/
  dims' <> dims \/
  (exists H, G = Some H /\ length H <> length F) ->
  exists toks, writeFieldsRGrid rnd fuel io (Some F) c true sym true = Ok toks /\
    readFieldsRGrid fuel io' dims' junk G c0 (mkS (toks ++ rest) sp) = Throw.
Proof.
  intros rnd dims m fuel io io' F G junk c c0 l sym g rest sp dims' Hne Hm Hf HF HO HC HR HG HD HS HX.
  assert (Hn : 0 < Z.of_nat (length F)) by (destruct F; [congruence|cbn [length]; lia]).
  assert (HFne : map snd F <> []) by (destruct F; [congruence|discriminate]).
  destruct (C26_layout rnd dims m fuel (map snd F) Hne Hm Hf HFne (onMesh_shaped _ _ _ _ HO)) as [data [D1 _]].
  destruct (C26_header rnd 1 0 c c0 l g (Z.of_nat (length F)) (writeMeshDimensions dims ++ data ++ rest) sp HC HR Hn) as [head [c' [W [Rd CR]]]].
  assert (WH : ioWriteHeader rnd io (Z.of_nat (length F)) c sym = Ok head).
  { unfold ioWriteHeader. unfold fileGroup in HG. destruct sym; [destruct HG as [-> _]|subst g]; exact W. }
  exists (head ++ writeMeshDimensions dims ++ data). split.
  - unfold writeFieldsRGrid. rewrite (inspect_ok _ dims (size m)) by auto. cbn [bind fst snd]. rewrite WH. cbn [bind].
    rewrite Nat2Z.id. rewrite map_length in D1. rewrite D1. reflexivity.
  - unfold readFieldsRGrid. rewrite <- !app_assoc.
    assert (HH : ioReadHeader io' c0 (mkS (head ++ writeMeshDimensions dims ++ data ++ rest) sp) = Throw \/
                 (ioReadHeader io' c0 (mkS (head ++ writeMeshDimensions dims ++ data ++ rest) sp)
                    = Ok ((Z.of_nat (length F), c', sym), mkS (writeMeshDimensions dims ++ data ++ rest) sp) /\
                  ioLat io' = Some l /\ (sym = true -> forall g', ioGroup io' = Some g' -> g' = g))).
    { unfold ioReadHeader.
      assert (P0 : ioPre io' c0 = Throw \/ ioPre io' c0 = Ok tt).
      { unfold ioPre. destruct (uLat c0) as [x|].
        - destruct (0 <? uN c0)%nat; cbn [check bind]; [|left; reflexivity].
          destruct (ioLat io') as [y|]; [destruct (lattice_eqb x y)|]; [right|left|left]; reflexivity.
        - destruct (uN c0 =? 0)%nat; [right|left]; reflexivity. }
      destruct P0 as [P0|P0]; rewrite P0; cbn [bind]; [left; reflexivity|].
      rewrite Rd. cbn [bind fst snd hV1 hCell hGroup hN]. destruct CR as [[C1 [C2 C3]] [C4 _]]. rewrite C4, C1, C2.
      replace (0 <? nParam l)%nat with true by (destruct l; reflexivity). cbn [Z.eqb Pos.eqb check bind].
      destruct (ioLat io') as [l'|]; [|left; reflexivity]. unfold lattice_eqb. destruct (lattice_eq_dec l' l) as [->|]; [|left; reflexivity]. cbn [check bind].
      assert (SY : negb (String.eqb g "") = sym).
      { unfold fileGroup in HG. destruct sym.
        - destruct HG as [_ HG]. destruct (String.eqb_spec g ""); [congruence|reflexivity].
        - subst g. reflexivity. }
      rewrite SY. destruct (ioGroup io') as [g'|]; [|right; repeat split; auto; discriminate].
      destruct sym.
      - destruct (String.eqb_spec g g') as [->|]; [|left; reflexivity]. cbn [check bind]. destruct (ioBasisOk io'); [|left; reflexivity].
        right. repeat split; auto. intros _ g'' E. congruence.
      - cbn [bind]. destruct (ioBasisOk io'); [|left; reflexivity]. right. repeat split; auto. discriminate. }
    destruct HH as [->|[-> [HH1 HH2]]]; [reflexivity|]. cbn [bind].
    destruct (C26_mesh_dimensions dims' dims (data ++ rest) sp) as [M1 M2]; auto.
    { destruct HS as [HS|HS]; [|auto]. left. destruct data; [auto|discriminate]. }
    destruct (list_eq_dec Z.eq_dec dims dims') as [->|ND]; [|rewrite M2 by auto; reflexivity].
    rewrite (M1 eq_refl). cbn [bind]. destruct HX as [HX|[[HX1 [g' [HX2 HX3]]]|[HX|[H [-> HX]]]]].
    + contradiction.
    + exfalso. apply HX3. eapply HH2; eauto.
    + congruence.
    + unfold checkAllocateFields. destruct (0 <? length H)%nat; cbn [check bind]; auto.
      destruct (Z.eqb_spec (Z.of_nat (length H)) (Z.of_nat (length F))); [lia|reflexivity].
Qed.
Print Assumptions C26_file_rejected.

(** A case: two fields on a 2 x 3 mesh in a cell that is rectangular; the rounding is
    the identity. *)
Definition fieldA : list (option R) := map Some [1; 2; 3; 4; 5; 6]%R.
Definition fieldB : list (option R) := map Some [7; 8; 9; 10; 11; 12]%R.
Example C26_case :
  (exists m, setDimensions [2; 3] = Ok m /\ size m = 6 /\ shaped (size m) [fieldA; fieldB] /\ allE finite [fieldA; fieldB]) /\
  writeRGridData (fun _ x => x) 6 [fieldA; fieldB] 2 [2; 3] =
    Ok [TD 1; TD 7; TD 4; TD 10; TD 2; TD 8; TD 5; TD 11; TD 3; TD 9; TD 6; TD 12] /\
  (exists c, setLatParams (newCell 2 (fun _ => 0%R)) Rectangular [2; 3]%R = Ok c /\ cellSet c Rectangular) /\
  cellReady (newCell 2 (fun _ => 0%R)) Rectangular.
Proof.
  split; [|split; [|split]].
  - eexists. split; [reflexivity|]. split; [reflexivity|]. split.
    + repeat constructor.
    + repeat constructor; discriminate.
  - reflexivity.
  - eexists. split; [reflexivity|]. repeat split.
  - split; [reflexivity|]. left. split; reflexivity.
Qed.
(** Without a line end behind the last number the file is refused. *)
Example C26_no_newline :
  readRGridData 2 [[None; None]] 1 [2] (mkS [TD 1; TD 2] true) = Ok ([[Some 1%R; Some 2%R]], mkS [] true) /\
  readRGridData 2 [[None; None]] 1 [2] (mkS [TD 1; TD 2] false) = Throw.
Proof. split; reflexivity. Qed.
