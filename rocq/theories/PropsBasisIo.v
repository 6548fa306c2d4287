(** Field files in basis format: C28, fieldIoUtil.tpp readBasisData, writeBasisData. *)
From Coq Require Import ZArith Reals Lra Lia List Bool.
From Coquelicot Require Import Complex.
From Verif Require Import Base MeshSpec Mesh MeshProofs PropsMesh FieldIo PropsFieldIo Basis BasisSpec BasisProofs PropsBasis BasisValid.
From Coq Require Import List.
Import ListNotations.
Local Open Scope Z_scope.
Local Open Scope list_scope.
Local Arguments Cmod : simpl never.

(** ** Reading what was written *)
Section Fields.
Variable g : R -> R.
(** A field of which the first i components have been read *)
Definition part (i : nat) (f : list R) : list R := map g (firstn i f) ++ repeat 0%R (length f - i).
Lemma part_set : forall i f, (i < length f)%nat -> set1 (part i f) (Z.of_nat i) (g (nth i f 0%R)) = Ok (part (S i) f).
Proof.
  intros i f Hi. unfold set1, part. rewrite app_length, map_length, firstn_length, repeat_length.
  destruct (Z.leb_spec 0 (Z.of_nat i)); [|lia]. destruct (Z.ltb_spec (Z.of_nat i) (Z.of_nat (Nat.min i (length f) + (length f - i)))); [|lia].
  cbn [andb]. f_equal. rewrite Nat2Z.id. revert i Hi H H0. induction f as [|x f IH]; intros i Hi _ _; [cbn in Hi; lia|].
  destruct i as [|i].
  - cbn [firstn map app length Nat.sub nth repeat update]. destruct (length f); reflexivity.
  - cbn [firstn map app length Nat.sub nth repeat update]. f_equal. rewrite IH; [reflexivity|cbn in Hi; lia|lia|]. cbn in Hi. lia.
Qed.
Lemma putAll_part : forall i fields, Forall (fun f => (i < length f)%nat) fields ->
  putAll (map (part i) fields) (Z.of_nat i) (map (fun f => g (nth i f 0%R)) fields) = Ok (map (part (S i)) fields).
Proof.
  induction fields as [|f fs IH]; intros H; [reflexivity|]. inversion H; subst. cbn [map putAll]. rewrite part_set by auto. cbn [bind]. rewrite IH by auto. reflexivity.
Qed.
End Fields.
Lemma rdN_vals : forall xs rest, rdN rdD (length xs) (mkS (map TD xs ++ rest) true) = Ok (xs, mkS rest true).
Proof. induction xs as [|x xs IH]; intros; [reflexivity|]. cbn [length rdN map app]. unfold rdD at 1. cbn [sToks sSpace bind fst snd]. rewrite IH. reflexivity. Qed.
Lemma rdLine_ok : forall xs v n rest, rdLine (length xs) (length v) (mkS (map TD xs ++ map TI v ++ [TI n] ++ rest) true) = Ok (xs, v, n, mkS rest true).
Proof.
  intros. unfold rdLine. rewrite rdN_vals. cbn [bind fst snd]. rewrite rdN_TI. cbn [bind fst snd app]. unfold rdI. cbn [sToks sSpace bind fst snd]. unfold good. cbn [sToks sSpace]. destruct rest; reflexivity.
Qed.
Lemma eqbL_refl : forall v, eqbL v v = true.
Proof. intros v. apply eqbL_eq. auto. Qed.

Section RoundTrip.
Variables (b : basis) (smin : list Z -> list Z) (g : R -> R) (fields : list (list R)) (nb : nat).
Hypothesis G : goodBasis b.
Hypothesis N : named b smin.
Hypothesis Hnb : bNBasis b = Z.of_nat nb.
Hypothesis Hlen : Forall (fun f => length f = nb) fields.
Let D := length (dimensions (bMesh b)).
Definition vals (i : Z) : list R := map (fun f => g (nth (Z.to_nat i) f 0%R)) fields.
Definition line (i : Z) (s : star) : list token := map TD (vals i) ++ map TI (sBz s) ++ [TI (sSize s)].
(** The text: one line for every star that is not cancelled *)
Fixpoint text (ib : Z) (l : list star) : list token :=
  match l with
  | [] => []
  | s :: r => if sCancel s then text ib r else line ib s ++ text (ib + 1) r
  end.
Lemma find_ok : forall is s, sAt b is s -> sCancel s = false -> exists i, findStar b (sBz s) = Ok (i, is, s).
Proof.
  intros is s Hs HC. destruct (N is s Hs HC) as [_ [_ [i [w [H1 [H2 H3]]]]]]. exists i. unfold findStar. rewrite H1. cbn [bind].
  rewrite (wAt_at1 _ _ _ H2). cbn [bind]. rewrite H3, (sAt_at1 _ _ _ Hs). reflexivity.
Qed.
Lemma line_read : forall is s ib rest, sAt b is s -> sCancel s = false ->
  rdLine (length fields) D (mkS (line ib s ++ rest) true) = Ok (vals ib, sBz s, sSize s, mkS rest true).
Proof.
  intros is s ib rest Hs HC. destruct (N is s Hs HC) as [HL _]. unfold line. rewrite <- !app_assoc.
  replace (length fields) with (length (vals ib)) by (unfold vals; apply map_length). unfold D. rewrite <- HL. apply rdLine_ok.
Qed.
Lemma put_ok : forall i, 0 <= i < Z.of_nat nb -> putAll (map (part g (Z.to_nat i)) fields) i (vals i) = Ok (map (part g (Z.to_nat (i + 1))) fields).
Proof.
  intros i Hi. pose proof (putAll_part g (Z.to_nat i) fields) as P. rewrite Z2Nat.id in P by lia. unfold vals. rewrite P.
  - replace (S (Z.to_nat i)) with (Z.to_nat (i + 1)) by lia. reflexivity.
  - eapply Forall_impl; [|exact Hlen]. cbn. intros; lia.
Qed.
Lemma text_lines : forall l is iw ib, layout (size (bMesh b)) (bNBasis b) is iw ib l -> forall done rest fuel,
  bStars b = done ++ l -> Z.of_nat (length done) = is -> 0 <= ib -> (Z.to_nat (Z.of_nat nb - ib) <= fuel)%nat ->
  readStars smin b fuel D (Z.of_nat nb - ib) (map (part g (Z.to_nat ib)) fields) (mkS (text ib l ++ rest) true) =
  Ok (map (part g nb) fields, mkS rest true).
Proof.
  intros l is iw ib L. induction L as [is|is iw ib s r F St B E EW SZ BI L IH|is iw ib s1 s2 r F1 F2 St1 St2 C B1 E1 B2 SZ1 SZ2 SZ3 E2 BI1 BI2 L IH]; intros done rest fuel HB HD H0 HF.
  - cbn [text app]. rewrite Hnb, Z.sub_diag, Nat2Z.id. destruct fuel; reflexivity.
  - pose proof (layout_at b done _ HB s r eq_refl) as Hs. rewrite HD in Hs. cbn [text]. destruct (sCancel s) eqn:EC.
    + apply (IH (done ++ [s])); auto. rewrite <- app_assoc; auto. rewrite app_length; cbn [length]; lia.
    + pose proof (layout_le _ _ _ _ _ _ L) as [_ LE]. rewrite Hnb in LE.
      destruct fuel as [|fuel]; [lia|]. cbn [readStars]. destruct (Z.ltb_spec 0 (Z.of_nat nb - ib)); [|lia].
      rewrite map_length, <- app_assoc, (line_read is) by auto. cbn [bind]. destruct (N is s Hs EC) as [_ [SM _]]. rewrite SM, eqbL_refl.
      destruct (find_ok is s Hs EC) as [i FO]. rewrite FO. cbn [bind]. rewrite EC. cbn [negb check bind]. rewrite Z.eqb_refl, F. cbn [Z.eqb]. rewrite eqbL_refl, BI, put_ok by lia. cbn [bind].
      replace (Z.of_nat nb - ib - 1) with (Z.of_nat nb - (ib + 1)) by lia. apply (IH (done ++ [s])); try lia; auto.
      rewrite <- app_assoc; auto. rewrite app_length; cbn [length]; lia.
  - pose proof (layout_at b done _ HB s1 _ eq_refl) as Hs1. rewrite HD in Hs1.
    assert (HB2 : bStars b = (done ++ [s1]) ++ s2 :: r) by (rewrite <- app_assoc; auto).
    pose proof (layout_at b _ _ HB2 s2 r eq_refl) as Hs2. rewrite app_length in Hs2. cbn [length] in Hs2. replace (Z.of_nat (length done + 1)) with (is + 1) in Hs2 by lia.
    cbn [text]. rewrite C. destruct (sCancel s1) eqn:EC.
    + apply (IH (done ++ [s1; s2])); auto. rewrite <- app_assoc; auto. rewrite app_length; cbn [length]; lia.
    + pose proof (layout_le _ _ _ _ _ _ L) as [_ LE]. rewrite Hnb in LE.
      destruct fuel as [|fuel]; [lia|]. cbn [readStars]. destruct (Z.ltb_spec 0 (Z.of_nat nb - ib)); [|lia].
      rewrite map_length, <- !app_assoc, (line_read is) by auto. cbn [bind]. destruct (N is s1 Hs1 EC) as [_ [SM _]]. rewrite SM, eqbL_refl.
      destruct (find_ok is s1 Hs1 EC) as [i FO]. rewrite FO. cbn [bind]. rewrite EC. cbn [negb check bind]. rewrite Z.eqb_refl, F1. cbn [Z.eqb].
      rewrite (line_read (is + 1)) by auto. cbn [bind]. unfold readPair. destruct (N _ s2 Hs2 C) as [_ [SM2 _]]. rewrite SM2, eqbL_refl. cbn [check bind].
      destruct (find_ok _ s2 Hs2 C) as [i2 FO2]. rewrite FO2. cbn [bind]. rewrite C. cbn [negb check bind]. rewrite Z.eqb_refl, SZ3, Z.eqb_refl. cbn [check bind].
      rewrite F1, F2. cbn [Z.eqb Pos.eqb check bind]. destruct (Z.eqb_spec (is + 1) 0); [lia|]. cbn [negb check bind]. rewrite BI1.
      destruct (Z.eqb_spec (ib + 1) 0); [lia|]. cbn [negb check bind]. rewrite !eqbL_refl. cbn [check bind]. rewrite put_ok by lia. cbn [bind]. rewrite put_ok by lia. cbn [bind fst snd].
      replace (ib + 1 + 1) with (ib + 2) by lia. replace (Z.of_nat nb - ib - 2) with (Z.of_nat nb - (ib + 2)) by lia.
      apply (IH (done ++ [s1; s2])); try lia; auto. rewrite <- app_assoc; auto. rewrite app_length; cbn [length]; lia.
Qed.
Lemma write_text : forall l is iw ib, layout (size (bMesh b)) (bNBasis b) is iw ib l -> 0 <= ib -> writeStars (fun _ => g) fields (Z.of_nat nb) ib l = Ok (text ib l).
Proof.
  assert (ONE : forall i, 0 <= i < Z.of_nat nb -> mapM (fun f => x <- at1 f i ;; Ok (TD (g x))) fields = Ok (map TD (vals i))).
  { intros i Hi. unfold vals. revert Hlen. generalize fields as l. induction l as [|f fs IH]; intros H; [reflexivity|]. inversion H; subst. cbn [mapM map].
    replace (at1 f i) with (Ok (nth (Z.to_nat i) f 0%R)). 2: { symmetry. apply at1_spec. split; [lia|]. apply nth_error_nth'. lia. }
    cbn [bind]. rewrite IH by auto. reflexivity. }
  assert (STEP : forall ib s r t, 0 <= ib < Z.of_nat nb -> sCancel s = false -> writeStars (fun _ => g) fields (Z.of_nat nb) (ib + 1) r = Ok t ->
    writeStars (fun _ => g) fields (Z.of_nat nb) ib (s :: r) = Ok (line ib s ++ t)).
  { intros ib s r t Hib HC HR. cbn [writeStars]. destruct (Z.leb_spec (Z.of_nat nb) ib); [lia|]. rewrite HC, ONE by auto. cbn [bind]. rewrite HR. cbn [bind]. unfold line. rewrite <- !app_assoc. reflexivity. }
  assert (SKIP : forall ib s r, sCancel s = true -> 0 <= ib -> ib <= Z.of_nat nb -> writeStars (fun _ => g) fields (Z.of_nat nb) ib r = Ok (text ib r) ->
    writeStars (fun _ => g) fields (Z.of_nat nb) ib (s :: r) = Ok (text ib (s :: r))).
  { intros ib s r HC H0 H1 HR. cbn [writeStars text]. rewrite HC. destruct (Z.leb_spec (Z.of_nat nb) ib); auto.
    revert HR. clear -H. destruct r; cbn [writeStars]; auto. destruct (Z.leb_spec (Z.of_nat nb) ib); [auto|lia]. }
  intros l is iw ib L. induction L as [is|is iw ib s r F St B E EW SZ BI L IH|is iw ib s1 s2 r F1 F2 St1 St2 C B1 E1 B2 SZ1 SZ2 SZ3 E2 BI1 BI2 L IH]; intros H0.
  - reflexivity.
  - pose proof (layout_le _ _ _ _ _ _ L) as [_ LE]. rewrite Hnb in LE. destruct (sCancel s) eqn:EC.
    + apply SKIP; auto; lia.
    + cbn [text]. rewrite EC. apply STEP; auto; try lia. apply IH. lia.
  - pose proof (layout_le _ _ _ _ _ _ L) as [_ LE]. rewrite Hnb in LE. destruct (sCancel s1) eqn:EC.
    + apply SKIP; [exact EC|lia|lia|]. apply SKIP; [exact C|lia|lia|]. apply IH. lia.
    + cbn [text]. rewrite EC, C. apply STEP; auto; try lia. apply STEP; auto; try lia. replace (ib + 1 + 1) with (ib + 2) by lia. apply IH. lia.
Qed.
End RoundTrip.

(** A file written by writeBasisData is read back: every component to the digits that
    were written; what follows is left in the stream. *)
Theorem C28_roundtrip : forall b smin rnd fields old toks rest, goodBasis b -> named b smin -> 0 < bNBasis b -> fields <> [] -> length old = length fields ->
  Forall (fun f => Z.of_nat (length f) = bNBasis b) fields -> Forall (fun f => Z.of_nat (length f) = bNBasis b) old ->
  writeBasisData rnd fields b = Ok toks ->
  readBasisData smin b old (bNBasis b) (mkS (toks ++ rest) true) = Ok (map (map (rnd 10%nat)) fields, mkS rest true).
Proof.
  intros b smin rnd fields old toks rest G N NB HN HO HL HLo HW.
  assert (Hnb : bNBasis b = Z.of_nat (Z.to_nat (bNBasis b))) by lia. set (nb := Z.to_nat (bNBasis b)) in *.
  assert (HL' : Forall (fun f => length f = nb) fields) by (eapply Forall_impl; [|exact HL]; cbn; intros; lia).
  assert (HLo' : Forall (fun f => length f = nb) old) by (eapply Forall_impl; [|exact HLo]; cbn; intros; lia).
  assert (T : toks = text (rnd 10%nat) fields 0 (bStars b)).
  { unfold writeBasisData in HW. destruct fields as [|f0 fs]; [contradiction|]. inv_check HW. inv_check HW.
    replace (Z.of_nat (length f0)) with (Z.of_nat nb) in HW by (inversion HL'; subst; lia).
    assert (EQ : writeStars rnd (f0 :: fs) (Z.of_nat nb) 0 (bStars b) = writeStars (fun _ => rnd 10%nat) (f0 :: fs) (Z.of_nat nb) 0 (bStars b)).
    { generalize (bStars b) as l, 0. induction l as [|s l IH]; intros i; [reflexivity|]. cbn [writeStars]. rewrite !IH. reflexivity. }
    rewrite EQ in HW. rewrite (write_text b (rnd 10%nat) (f0 :: fs) nb Hnb HL' _ 0 0 0 (gb_layout b G)) in HW by lia. injection HW as <-. reflexivity. }
  subst toks. unfold readBasisData. rewrite (gb_init b G). cbn [check bind]. destruct old as [|o0 os]; [destruct fields; [contradiction|discriminate]|].
  assert (L0 : length o0 = nb) by (inversion HLo'; auto). rewrite L0, <- Hnb. destruct (Z.ltb_spec 0 (bNBasis b)); [|lia]. cbn [check bind].
  replace (forallb _ (o0 :: os)) with true. 2: { symmetry. apply forallb_forall. intros f Hf. rewrite Forall_forall in HLo'. rewrite (HLo' f Hf). apply Nat.eqb_refl. }
  cbn [check bind]. rewrite Z.ltb_irrefl.
  pose proof (text_lines b smin (rnd 10%nat) fields nb N Hnb HL' _ 0 0 0 (gb_layout b G) [] rest nb eq_refl eq_refl) as TL.
  rewrite Z.sub_0_r, <- Hnb in TL. specialize (TL ltac:(lia) ltac:(lia)).
  replace (map (fun f : list R => repeat 0%R (length f)) (o0 :: os)) with (map (part (rnd 10%nat) (Z.to_nat 0)) fields).
  2: { transitivity (repeat (repeat 0%R nb) (length fields)).
       - clear -HL'. induction fields as [|f fs IH]; [reflexivity|]. inversion HL'; subst. cbn [map length repeat]. rewrite IH by auto. unfold part. cbn [Z.to_nat firstn map app]. rewrite Nat.sub_0_r. congruence.
       - rewrite <- HO. clear -HLo'. induction (o0 :: os) as [|f fs IH]; [reflexivity|]. inversion HLo'; subst. cbn [map length repeat]. rewrite IH by auto. congruence. }
  fold nb. rewrite TL. do 2 f_equal. clear -HL'. induction fields as [|f fs IH]; [reflexivity|]. inversion HL'; subst. cbn [map]. f_equal; auto.
  unfold part. match goal with H : length f = nb |- _ => rewrite <- H end. rewrite firstn_all, Nat.sub_diag, app_nil_r. reflexivity.
Qed.
Print Assumptions C28_roundtrip.

(** Example: six points, one dimension *)
Definition smin6 (v : list Z) : list Z := map (fun x => let r := x mod 6 in if r <=? 3 then r else r - 6) v.
Lemma ex6_named : named ex6 smin6.
Proof.
  assert (H : forall is s, sAt ex6 is s -> length (sBz s) = 1%nat /\ smin6 (sBz s) = sBz s /\ exists i w, waveId ex6 (mShift (mesh1 6) (sBz s)) = Ok i /\ wAt ex6 i w /\ wStar w = is).
  { each_star; eexists; eexists; (split; [reflexivity|]); (split; [split; [|reflexivity]; lia|reflexivity]). }
  intros is s Hs _. apply H. auto.
Qed.
Example ex6_file : exists toks, writeBasisData (fun _ x => x) [[1; 2; 3; 4; 5; 6]; [7; 8; 9; 10; 11; 12]]%R ex6 = Ok toks /\
  readBasisData smin6 ex6 [repeat 0%R 6; repeat 0%R 6] 6 (mkS toks true) = Ok ([[1; 2; 3; 4; 5; 6]; [7; 8; 9; 10; 11; 12]]%R, mkS [] true).
Proof.
  assert (W : exists toks, writeBasisData (fun _ x => x) [[1; 2; 3; 4; 5; 6]; [7; 8; 9; 10; 11; 12]]%R ex6 = Ok toks) by (eexists; reflexivity).
  destruct W as [toks W]. exists toks. split; auto.
  pose proof (C28_roundtrip ex6 smin6 (fun _ x => x) [[1; 2; 3; 4; 5; 6]; [7; 8; 9; 10; 11; 12]]%R [repeat 0%R 6; repeat 0%R 6] toks [] ex6_good ex6_named) as P.
  rewrite app_nil_r in P. apply P; auto; try discriminate; repeat constructor.
Qed.

(** ** Pairs of lines *)
(** C28, as far as it holds.  If the line of an open star is accepted and its number of waves
    fits, then the next line exists, names a star that is not cancelled and has the
    same size and the opposite flag, by a wave in the first Brillouin zone.  If the first
    line names the second star of a pair, the next one is its partner.  Missing: if the
    first line names the first star of a pair, the next one need not be its partner, only
    the second star of some pair (C28_refuted). *)
Theorem C28_pairs_partial : forall b smin fuel D k fields st r temp v n st1 i is s,
  readStars smin b fuel D k fields st = Ok r -> 0 < k ->
  rdLine (length fields) D st = Ok (temp, v, n, st1) -> smin v = v -> findStar b v = Ok (i, is, s) -> sSize s = n -> sFlag s <> 0 ->
  sCancel s = false /\
  exists temp2 v2 st2 i2 is2 s2, rdLine (length fields) D st1 = Ok (temp2, v2, n, st2) /\ smin v2 = v2 /\
    findStar b v2 = Ok (i2, is2, s2) /\ sCancel s2 = false /\ sSize s2 = n /\ sFlag s2 = - sFlag s /\
    ((sFlag s = 1 /\ v = sBz s /\ v2 = sBz s2) \/ (sFlag s = -1 /\ is2 = is - 1 /\ i = sBegin s /\ v2 = smin (vNeg v) /\ sBasis s2 = sBasis s - 1)).
Proof.
  intros b smin fuel D k fields st r temp v n st1 i is s H HK HR HV HF HS HFl.
  destruct fuel as [|fuel]; cbn [readStars] in H; destruct (Z.ltb_spec 0 k); try lia; [discriminate|].
  rewrite HR in H. cbn [bind] in H. rewrite HV, eqbL_refl, HF in H. cbn [bind] in H. inv_check H. rewrite HS, Z.eqb_refl in H.
  destruct (sFlag s =? 0) eqn:E0; [lia|]. split; [destruct (sCancel s); auto; discriminate|].
  inv_bind H. destruct a as [[[temp2 v2] n2] st2]. inv_bind H. clear H. unfold readPair in E2.
  inv_check E2. apply eqbL_eq in E3. inv_bind E2. destruct a0 as [[i2 is2] s2]. inv_check E2. inv_check E2. inv_check E2. apply Z.eqb_eq in E6, E7. rewrite <- E7 in E1.
  exists temp2, v2, st2, i2, is2, s2. split; auto. split; auto. split; auto. split; [destruct (sCancel s2); auto; discriminate|]. split; [lia|].
  destruct (Z.eqb_spec (sFlag s) 1) as [F1|F1].
  - inv_check E2. inv_check E2. inv_check E2. inv_check E2. inv_check E2. apply eqbL_eq in E11, E12. apply Z.eqb_eq in E8. split; [lia|]. left. auto.
  - destruct (Z.eqb_spec (sFlag s) (-1)) as [F2|F2]; [|discriminate]. inv_check E2. inv_check E2. inv_check E2. inv_check E2. inv_check E2.
    apply Z.eqb_eq in E8, E9, E10, E11. apply eqbL_eq in E12. split; [lia|]. right. repeat split; auto; lia.
Qed.
Print Assumptions C28_pairs_partial.
(** A line that names a cancelled star is refused. *)
Theorem C28_cancelled : forall b smin fuel D k fields st temp v n st1 i is s, 0 < k ->
  rdLine (length fields) D st = Ok (temp, v, n, st1) -> smin v = v -> findStar b v = Ok (i, is, s) -> sCancel s = true ->
  readStars smin b (S fuel) D k fields st = Throw.
Proof.
  intros b smin fuel D k fields st temp v n st1 i is s HK HR HV HF HC. cbn [readStars]. destruct (Z.ltb_spec 0 k); [|lia].
  rewrite HR. cbn [bind]. rewrite HV, eqbL_refl, HF. cbn [bind]. rewrite HC. reflexivity.
Qed.
(** C28 is false: the line of star 1, the first of a pair, is followed by the line of star
    -2, the second of another pair; the file is accepted and the value 3 given for star -2
    becomes the component of star -1. *)
Definition mixed : list token :=
  [TD 1; TI 0; TI 1; TD 2; TI 1; TI 1; TD 3; TI (-2); TI 1; TD 4; TI 2; TI 1; TD 5; TI (-1); TI 1; TD 6; TI 3; TI 1].
Theorem C28_refuted : exists b smin is s is2 s2 file fields', goodBasis b /\ named b smin /\
  sAt b is s /\ sFlag s = 1 /\ sAt b is2 s2 /\ is2 <> is + 1 /\
  (* the second and the third line name these two stars *)
  (exists x0 x1 x2 pre rest, file = pre ++ [TD x1] ++ map TI (sBz s) ++ [TI (sSize s)] ++ [TD x2] ++ map TI (sBz s2) ++ [TI (sSize s2)] ++ rest /\ pre = [TD x0; TI 0; TI 1]) /\
  readBasisData smin b [repeat 0%R 6] 6 (mkS file true) = Ok (fields', mkS [] true) /\
  (* the component of the partner of star is *)
  nth 2 (nth 0 fields' []) 0%R = 3%R /\ (exists s', sAt b (is + 1) s' /\ sBasis s' = 2).
Proof.
  exists ex6, smin6, 1, (mkStar 1 1 2 1 1 1 [1] false), 4, (mkStar 1 4 5 4 4 (-1) [-2] false), mixed, [[1; 2; 3; 4; 5; 6]%R].
  split; [apply ex6_good|]. split; [apply ex6_named|]. split; [split; [lia|reflexivity]|]. split; [reflexivity|]. split; [split; [lia|reflexivity]|]. split; [lia|].
  split; [exists 1%R, 2%R, 3%R, [TD 1; TI 0; TI 1], [TD 4; TI 2; TI 1; TD 5; TI (-1); TI 1; TD 6; TI 3; TI 1]; split; reflexivity|].
  split; [reflexivity|]. split; [reflexivity|]. exists (mkStar 1 2 3 2 2 (-1) [-1] false). split; [split; [lia|reflexivity]|reflexivity].
Qed.
Print Assumptions C28_refuted.

(** ** Reversed pairs *)
(** If the lines of a pair are in the opposite order, with values A and B, the components
    that are stored give the wave of the first line the Fourier component (A - iB)/sqrt 2
    times a positive number, the magnitude of the coefficient: as in a basis in which
    this wave is the first of the pair and has a real positive coefficient. *)
Lemma putAll_nth : forall fields id xs fs' j f', putAll fields id xs = Ok fs' -> nth_error fs' j = Some f' ->
  exists f x, nth_error fields j = Some f /\ nth_error xs j = Some x /\ set1 f id x = Ok f'.
Proof.
  induction fields as [|f fields IH]; intros id xs fs' j f' H Hj; cbn [putAll] in H.
  - injection H as <-. destruct j; discriminate.
  - destruct xs as [|x xs]; [discriminate|]. inv_bind H. inv_bind H. injection H as <-. destruct j as [|j]; cbn [nth_error] in *.
    + injection Hj as <-. exists f, x. auto.
    + eapply IH; eauto.
Qed.
Lemma set1_nth : forall (f : list R) id x f', set1 f id x = Ok f' -> 0 <= id < Z.of_nat (length f) /\ length f' = length f /\
  nth (Z.to_nat id) f' 0%R = x /\ forall k, 0 <= k -> k <> id -> nth (Z.to_nat k) f' 0%R = nth (Z.to_nat k) f 0%R.
Proof.
  intros f id x f' H. unfold set1 in H. destruct (Z.leb_spec 0 id); [|discriminate]. destruct (Z.ltb_spec id (Z.of_nat (length f))); [|discriminate]. injection H as <-.
  split; [lia|]. split; [apply update_length|]. split; [apply nth_update_same; lia|]. intros k Hk Nk. apply nth_update_other. lia.
Qed.
Theorem C28_reversed : forall b smin i is s temp v n fields temp2 v2 n2 st fields' st' w, goodBasis b -> conjugate b -> indexed b -> images b smin ->
  length v = length (dimensions (bMesh b)) ->
  sFlag s = -1 -> sCancel s = false -> wAt b i w -> findStar b v = Ok (i, is, s) ->
  readPair smin b i is (sBasis s) s temp v n fields (temp2, v2, n2, st) = Ok (fields', st') ->
  forall j A B f', nth_error temp j = Some A -> nth_error temp2 j = Some B -> nth_error fields' j = Some f' ->
  Cmult (component f' s) (wCoeff w) = Cmult (Cdiv (A, (- B)%R) (RtoC (sqrt 2))) (RtoC (Cmod (wCoeff w))).
Proof.
  intros b smin i is s temp v n fields temp2 v2 n2 st fields' st' w G CJ IX IM LV FL HC Hw HF H j A B f' HA HB Hf.
  unfold findStar in HF. inv_bind HF. inv_bind HF. inv_bind HF. injection HF as -> <- ->. apply at1_wAt in E0. apply at1_sAt in E1.
  assert (a0 = w) by (eapply wAt_fun; eauto). subst a0. clear E0.
  unfold readPair in H. inv_check H. inv_bind H. destruct a as [[i2 is2] s2]. inv_check H. inv_check H. inv_check H. rewrite FL in H. cbn [Z.eqb] in H.
  inv_check H. inv_check H. inv_check H. inv_check H. inv_check H. inv_bind H. rename a into w2. inv_bind H. inv_bind H. injection H as <- <-.
  apply Z.eqb_eq in E8. apply eqbL_eq in E10. apply at1_wAt in E11. unfold findStar in E2. inv_bind E2. inv_bind E2. inv_bind E2. injection E2 as -> _ _. 
  (* waveId2 is the inverse of w *)
  assert (LN : length (vNeg v) = length (dimensions (bMesh b))) by (unfold vNeg; rewrite map_length; auto).
  destruct (IM _ LN) as [LM IMN].
  assert (D1 : wDft w = mShift (bMesh b) v) by (eapply IX; eauto).
  assert (D2 : wDft w2 = mShift (bMesh b) (vNeg v)). { rewrite (IX v2 i2 w2); auto; rewrite E10; auto. }
  destruct (gb_inv b G i w Hw) as [w' [W1 [W2 [W3 _]]]].
  assert (D3 : wDft w' = wDft w2).
  { rewrite D2, W3, D1. symmetry. apply shift_neg_shift.
    - apply (proj1 (mesh_constructible _ (gb_ne b G))). eexists. apply (gb_mesh b G).
    - change (fst (shift (dimensions (bMesh b)) v)) with (mShift (bMesh b) v). rewrite <- D1. apply (in_box_length _ _ (gb_box b G w (wAt_in _ _ _ Hw))). }
  assert (EQ : w' = w2).
  { destruct W1 as [W1a W1b], E11 as [W2a W2b].
    pose proof (proj1 (NoDup_nth_error (map wDft (bWaves b))) (gb_nodup b G)) as ND.
    assert (Z.to_nat (wInv w) = Z.to_nat i2).
    { apply ND. - rewrite map_length. apply nth_error_Some. congruence. - rewrite !nth_error_map, W1b, W2b. cbn. congruence. }
    congruence. }
  subst w'. pose proof (CJ i w w2 Hw W1) as CC.
  destruct (putAll_nth _ _ _ _ _ _ E13 Hf) as [f1 [x1 [P1 [P2 P3]]]]. destruct (putAll_nth _ _ _ _ _ _ E12 P1) as [f0 [x0 [Q1 [Q2 Q3]]]].
  rewrite map_map, nth_error_map in P2, Q2. 
  assert (CB : forall (l l' : list R) k x y, nth_error l k = Some x -> nth_error l' k = Some y -> nth_error (combine l l') k = Some (x, y)).
  { clear. induction l as [|a l IH]; intros l' k x y H1 H2; destruct k, l'; cbn in *; try discriminate; [injection H1 as ->; injection H2 as ->; auto|eauto]. }
  rewrite (CB _ _ _ _ _ HA HB) in P2, Q2. set (c := Cmult (A, (- B)%R) (Cdiv (wCoeff w2) (RtoC (Cmod (wCoeff w2))))).
  change (Some (snd c) = Some x1) in P2. change (Some (fst c) = Some x0) in Q2. assert (X1 : x1 = snd c) by congruence. assert (X0 : x0 = fst c) by congruence. clear P2 Q2. subst x1 x0.
  apply set1_nth in P3, Q3. destruct P3 as [P3a [_ [P3b P3c]]], Q3 as [Q3a [_ [Q3b _]]].
  unfold component. rewrite HC, FL. cbn [Z.eqb]. rewrite P3b. replace (sBasis s - 1) with (sBasis s2) by lia. rewrite P3c, Q3b by lia.
  rewrite <- surjective_pairing. unfold c. rewrite CC, Cmod_conj.
  assert (W0 : (0 < Cmod (wCoeff w))%R).
  { pose proof (gb_coeff b G _ s i w E1 Hw eq_refl HC). lra. }
  assert (M0 : RtoC (Cmod (wCoeff w)) <> RtoC 0) by (intros X; injection X; lra). pose proof sqrt2_ne as S0.
  assert (XM : Cmult (Cconj (wCoeff w)) (wCoeff w) = Cmult (RtoC (Cmod (wCoeff w))) (RtoC (Cmod (wCoeff w)))).
  { clear. destruct (wCoeff w) as [x y]. unfold Cmod, Cconj, Cmult, RtoC. cbn [fst snd]. f_equal; [|ring].
    rewrite Rmult_0_r, Rminus_0_r, sqrt_sqrt; [ring|]. cbn. nra. }
  transitivity (Cmult (Cdiv (A, (- B)%R) (RtoC (sqrt 2))) (Cdiv (Cmult (Cconj (wCoeff w)) (wCoeff w)) (RtoC (Cmod (wCoeff w))))).
  - field. auto.
  - rewrite XM. field. auto.
Qed.
Print Assumptions C28_reversed.

Lemma ex6_indexed : indexed ex6 /\ images ex6 smin6.
Proof.
  split.
  - intros u i w HL H Hw. destruct u as [|x [|? ?]]; try discriminate HL.
    assert (B : in_box [6] (mShift (mesh1 6) [x])) by (apply shift_box; [repeat constructor|reflexivity]).
    change (bMesh ex6) with (mesh1 6) in *. destruct (mShift (mesh1 6) [x]) as [|y l] eqn:E; inversion B as [|? ? ? ? Hy Hl]; subst. inversion Hl; subst.
    assert (C : y = 0 \/ y = 1 \/ y = 2 \/ y = 3 \/ y = 4 \/ y = 5) by lia.
    repeat (destruct C as [->|C]; [cbn in H; injection H as <-; destruct Hw as [_ Hw]; cbn in Hw; injection Hw as <-; reflexivity|]).
    subst y. cbn in H; injection H as <-; destruct Hw as [_ Hw]; cbn in Hw; injection Hw as <-; reflexivity.
  - intros u HL. destruct u as [|x [|? ?]]; try discriminate HL. split; [reflexivity|]. 
    unfold smin6, mShift. cbn [map dimensions bMesh ex6 mesh1 shift].
    set (y := if x mod 6 <=? 3 then x mod 6 else x mod 6 - 6). destruct (Mesh.shift1 6 y) as [a sa] eqn:E1. destruct (Mesh.shift1 6 x) as [c sc] eqn:E2.
    apply mesh_shift_coordinate in E1, E2; [|lia|lia]. cbn [fst]. f_equal. pose proof (Z.div_mod x 6 ltac:(lia)). pose proof (Z.mod_pos_bound x 6 ltac:(lia)).
    unfold y in *. destruct (Z.leb_spec (x mod 6) 3); lia.
Qed.
(** The lines of -1 and 1 in this order, with values 4 and 5: the components 4 and -5 *)
Example ex6_reversed : exists fields' st', readPair smin6 ex6 2 2 2 (mkStar 1 2 3 2 2 (-1) [-1] false) [4%R] [-1] 1 [repeat 0%R 6] ([5%R], [1], 1, mkS [] true) = Ok (fields', st') /\
  findStar ex6 [-1] = Ok (2, 2, mkStar 1 2 3 2 2 (-1) [-1] false).
Proof. eexists. eexists. split; reflexivity. Qed.
