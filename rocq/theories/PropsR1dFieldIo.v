(** C83: field files of one-dimensional systems, and their change of mesh. *)
From Coq Require Import Reals ZArith String List Bool Arith Lra Lia.
From Verif Require Import Base RSum R1dFieldIo R1dFieldIoProofs.
Import ListNotations.

(** A file with the fields [g] is read as these fields, whatever the arrays held before and whatever follows. *)
Theorem C83_read : forall d fs nm nx (g : nat -> nat -> R) rest,
  (0 < nm)%nat -> (0 < nx)%nat -> dnx d = Z.of_nat nx -> Shape nm nx fs ->
  exists fs', readFields d fs (mkStream (FieldText nx nm g ++ rest) false) = Ok (fs', mkStream rest false)
    /\ Shape nm nx fs' /\ forall j i, (j < nm)%nat -> (i < nx)%nat -> val fs' j i = g j i.
Proof.
  intros d fs nm nx g rest Pm Px D S. unfold FieldText, readFields. cbn [app]. unfold readWord, readInt. cbn [bad toks].
  cbn [String.eqb Ascii.eqb Bool.eqb]. unfold check at 1. cbn [bind].
  replace (0 <? Z.of_nat nx)%Z with true by (symmetry; apply Z.ltb_lt; lia). rewrite D, Z.eqb_refl. cbn [check bind].
  cbn [String.eqb Ascii.eqb Bool.eqb check bind].
  replace (0 <? Z.of_nat nm)%Z with true by (symmetry; apply Z.ltb_lt; lia). cbn [check bind].
  replace (Z.of_nat nm =? Z.of_nat (length fs))%Z with true by (symmetry; apply Z.eqb_eq; destruct S; lia). cbn [check bind].
  rewrite (shape_forallb nm nx fs _ S eq_refl). cbn [check bind]. rewrite Nat2Z.id.
  destruct (rows_read nm nx g nx 0 None fs rest S) as (fs' & E & S' & M); [lia|].
  exists fs'. split; [exact E|]. split; auto. intros j i J I. specialize (M i ltac:(lia)).
  change (map (fun f => nth i f 0%R) fs') with (atRow fs' i) in M. rewrite (atRow_val nm fs' i) in M by apply S'.
  apply (f_equal (fun l => nth j l 0%R)) in M.
  rewrite !(nth_indep _ 0%R ((fun j => val fs' j i) 0%nat)) in M by (rewrite map_length, seq_length; auto).
  rewrite (map_nth (fun j => val fs' j i)), seq_nth in M by auto.
  rewrite (nth_indep _ _ ((fun j => g j i) 0%nat)) in M by (rewrite map_length, seq_length; auto).
  rewrite (map_nth (fun j => g j i)), seq_nth in M by auto. exact M.
Qed.
Print Assumptions C83_read.

(** If the fields are read without failure of the stream, the text was a header with the dimensions of the domain and
    of the arrays, then as many numbered rows, and the arrays now hold the numbers of these rows. *)
Theorem C83_read_sound : forall d fs s fs' s', readFields d fs s = Ok (fs', s') -> bad s' = false ->
  exists nm nx l, (0 < nm)%nat /\ (0 < nx)%nat /\ dnx d = Z.of_nat nx /\ Shape nm nx fs /\ Shape nm nx fs' /\ bad s = false
    /\ toks s = [TW "nx"; TI (Z.of_nat nx); TW "nm"; TI (Z.of_nat nm)] ++ l /\ IsRows nx 0 fs' l (toks s').
Proof.
  intros d fs s fs' s' H B. unfold readFields in H.
  destruct (readWord EmptyString s) as [lab s1] eqn:E1. unfold check in H.
  destruct (String.eqb lab "nx") eqn:Q1; [|discriminate]. apply String.eqb_eq in Q1. cbn [bind] in H.
  destruct (readInt None s1) as [[nx|] s2] eqn:E2; [|discriminate].
  destruct (0 <? nx)%Z eqn:Q2; [|discriminate]. apply Z.ltb_lt in Q2. cbn [bind] in H.
  destruct (nx =? dnx d)%Z eqn:Q3; [|discriminate]. apply Z.eqb_eq in Q3. cbn [bind] in H.
  destruct (readWord lab s2) as [lab2 s3] eqn:E3.
  destruct (String.eqb lab2 "nm") eqn:Q4; [|discriminate]. apply String.eqb_eq in Q4. cbn [bind] in H.
  destruct (readInt None s3) as [[nm|] s4] eqn:E4; [|discriminate].
  destruct (0 <? nm)%Z eqn:Q5; [|discriminate]. apply Z.ltb_lt in Q5. cbn [bind] in H.
  destruct (nm =? Z.of_nat (length fs))%Z eqn:Q6; [|discriminate]. apply Z.eqb_eq in Q6. cbn [bind] in H.
  destruct (forallb _ fs) eqn:Q7; [|discriminate]. cbn [bind] in H. rewrite forallb_forall in Q7.
  assert (S : Shape (length fs) (Z.to_nat nx) fs). { split; auto. apply Forall_forall. intros f I. specialize (Q7 f I). apply Z.eqb_eq in Q7. lia. }
  destruct (rows_good _ _ _ _ _ _ _ _ _ H B S) as [B4 R]; [lia|].
  exists (length fs), (Z.to_nat nx), (toks s4).
  assert (P0 : (0 < length fs)%nat) by lia. split; [exact P0|]. split; [lia|]. split; [lia|]. split; [exact S|].
  split; [eapply shape_rows; [exact H|exact S]|].
  unfold readInt in E4. destruct (bad s3) eqn:B3; [inversion E4; subst; congruence|].
  unfold readWord in E3. destruct (bad s2) eqn:B2; [inversion E3; subst; congruence|].
  unfold readInt in E2. destruct (bad s1) eqn:B1; [inversion E2; subst; congruence|].
  unfold readWord in E1. destruct (bad s) eqn:B0; [inversion E1; subst; congruence|].
  split; [reflexivity|]. subst lab lab2 nm.
  destruct (toks s) as [|[w|z|x] t]; inversion E1; subst; try discriminate. cbn [toks bad] in *.
  destruct t as [|[w|z|x] t]; inversion E2; subst; try discriminate. cbn [toks bad] in *.
  destruct t as [|[w|z'|x] t]; inversion E3; subst; try discriminate. cbn [toks bad] in *.
  destruct t as [|[w|z'|x] t]; inversion E4; subst; try discriminate. cbn [toks bad] in *.
  split; [|exact R]. cbn [app]. rewrite Z2Nat.id by lia. reflexivity.
Qed.
Print Assumptions C83_read_sound.

(** Also when the stream has failed: for two points or more the text has the header, all rows but the last, and the
    number of the last; only numbers of the last row can be missing. *)
Theorem C83_read_failed : forall d fs s fs' s', readFields d fs s = Ok (fs', s') -> (2 <= dnx d)%Z ->
  exists nm nx l l', (0 < nm)%nat /\ dnx d = Z.of_nat (S nx) /\ Shape nm (S nx) fs /\ Shape nm (S nx) fs' /\ bad s = false
    /\ toks s = [TW "nx"; TI (Z.of_nat (S nx)); TW "nm"; TI (Z.of_nat nm)] ++ l /\ IsRows nx 0 fs' l (TI (Z.of_nat nx) :: l').
Proof.
  intros d fs s fs' s' H D. unfold readFields in H.
  destruct (readWord EmptyString s) as [lab s1] eqn:E1. unfold check in H.
  destruct (String.eqb lab "nx") eqn:Q1; [|discriminate]. apply String.eqb_eq in Q1. cbn [bind] in H.
  destruct (readInt None s1) as [[nx|] s2] eqn:E2; [|discriminate].
  destruct (0 <? nx)%Z eqn:Q2; [|discriminate]. apply Z.ltb_lt in Q2. cbn [bind] in H.
  destruct (nx =? dnx d)%Z eqn:Q3; [|discriminate]. apply Z.eqb_eq in Q3. cbn [bind] in H.
  destruct (readWord lab s2) as [lab2 s3] eqn:E3.
  destruct (String.eqb lab2 "nm") eqn:Q4; [|discriminate]. apply String.eqb_eq in Q4. cbn [bind] in H.
  destruct (readInt None s3) as [[nm|] s4] eqn:E4; [|discriminate].
  destruct (0 <? nm)%Z eqn:Q5; [|discriminate]. apply Z.ltb_lt in Q5. cbn [bind] in H.
  destruct (nm =? Z.of_nat (length fs))%Z eqn:Q6; [|discriminate]. apply Z.eqb_eq in Q6. cbn [bind] in H.
  destruct (forallb _ fs) eqn:Q7; [|discriminate]. cbn [bind] in H. rewrite forallb_forall in Q7.
  destruct (Z.to_nat nx) as [|m] eqn:M; [lia|].
  assert (S : Shape (length fs) (S m) fs). { split; auto. apply Forall_forall. intros f I. specialize (Q7 f I). apply Z.eqb_eq in Q7. lia. }
  destruct (rows_any _ _ _ _ _ _ _ _ _ H ltac:(discriminate) ltac:(lia) S ltac:(lia)) as [B4 [l' R]].
  exists (length fs), m, (toks s4), l'.
  assert (P0 : (0 < length fs)%nat) by lia. split; [exact P0|]. split; [lia|]. split; [exact S|].
  split; [eapply shape_rows; [exact H|exact S]|].
  unfold readInt in E4. destruct (bad s3) eqn:B3; [inversion E4; subst; congruence|].
  unfold readWord in E3. destruct (bad s2) eqn:B2; [inversion E3; subst; congruence|].
  unfold readInt in E2. destruct (bad s1) eqn:B1; [inversion E2; subst; congruence|].
  unfold readWord in E1. destruct (bad s) eqn:B0; [inversion E1; subst; congruence|].
  split; [reflexivity|]. subst lab lab2 nm.
  destruct (toks s) as [|[w|z|x] t]; inversion E1; subst; try discriminate. cbn [toks bad] in *.
  destruct t as [|[w|z|x] t]; inversion E2; subst; try discriminate. cbn [toks bad] in *.
  destruct t as [|[w|z'|x] t]; inversion E3; subst; try discriminate. cbn [toks bad] in *.
  destruct t as [|[w|z'|x] t]; inversion E4; subst; try discriminate. cbn [toks bad] in *.
  split; [|exact R]. cbn [app]. repeat f_equal. lia.
Qed.
Print Assumptions C83_read_failed.

(** A file that ends within its last row is accepted; the field that lacks its last value keeps the old one. *)
Definition shortText : list token := removelast (FieldText 2 2 (fun j i => INR (j + i))).
Theorem C83_short_refuted : exists d fs s fs', s = mkStream shortText false /\ Shape 2 2 fs /\
  readFields d fs s = Ok (fs', mkStream [] true) /\ val fs' 1 1 = 7%R /\ val fs 1 1 = 7%R.
Proof.
  exists (mkDomain 2 0 1), [[7; 7]; [7; 7]]%R. do 2 eexists. split; [reflexivity|].
  split. { split; auto. } split; [reflexivity|]. split; reflexivity.
Qed.
Print Assumptions C83_short_refuted.

(** Writing gives a file with the values of the fields, so that reading it returns them as printed. *)
Theorem C83_write : forall d fmt fs nm nx, (0 < nm)%nat -> dnx d = Z.of_nat nx -> Shape nm nx fs ->
  writeFields d fmt fs true = Ok (FieldText nx nm (fun j i => fmt (val fs j i)))
  /\ writeFields d fmt fs false = Ok (skipn 4 (FieldText nx nm (fun j i => fmt (val fs j i)))).
Proof.
  intros d fmt fs nm nx P D S. unfold writeFields. rewrite (shape_head nm nx fs S P). rewrite D, Z.eqb_refl.
  replace (length fs) with nm by (symmetry; apply S).
  replace (0 <? Z.of_nat nm)%Z with true by (symmetry; apply Z.ltb_lt; lia). cbn [check bind].
  rewrite (shape_forallb nm nx fs _ S eq_refl). cbn [check bind]. rewrite Nat2Z.id.
  assert (Q : flat_map (fun i => rowOf fmt (Z.of_nat i) (atRow fs i)) (seq 0 nx)
    = flat_map (fun i => TI (Z.of_nat i) :: map (fun j => TD (fmt (val fs j i))) (seq 0 nm)) (seq 0 nx)).
  { apply flat_map_ext. intros i. unfold rowOf. rewrite (atRow_val nm fs i) by apply S. now rewrite map_map. }
  rewrite Q. split; reflexivity.
Qed.
Print Assumptions C83_write.

Theorem C83_roundtrip : forall d fmt fs old nm nx rest text, (0 < nm)%nat -> (0 < nx)%nat -> dnx d = Z.of_nat nx ->
  Shape nm nx fs -> Shape nm nx old -> writeFields d fmt fs true = Ok text ->
  exists fs', readFields d old (mkStream (text ++ rest) false) = Ok (fs', mkStream rest false)
    /\ forall j i, (j < nm)%nat -> (i < nx)%nat -> val fs' j i = fmt (val fs j i).
Proof.
  intros d fmt fs old nm nx rest text Pm Px D S S0 W. destruct (C83_write d fmt fs nm nx Pm D S) as [E _]. rewrite E in W. inversion W; subst.
  destruct (C83_read d old nm nx (fun j i => fmt (val fs j i)) rest Pm Px D S0) as (fs' & R & _ & V). eauto.
Qed.
Print Assumptions C83_roundtrip.

(** The new mesh of [nx] points covers the same domain with equal steps.  Point [i] of it lies in cell [k i] of the old
    mesh, at the fraction [t i] of it, and each field gets there the linear interpolation between the ends of the cell. *)
Definition oldPoint (d : domain) (k : nat) (t : R) : R := (xMin d + (INR k + t) * ((xMax d - xMin d) / (IZR (dnx d) - 1)))%R.
Definition newPoint (d : domain) (nx i : nat) : R := (xMin d + INR i * ((xMax d - xMin d) / (INR nx - 1)))%R.
Definition lin (t a b : R) : R := ((1 - t) * a + t * b)%R.

Lemma seq_ends : forall n, (2 <= n)%nat -> seq 0 n = 0%nat :: seq 1 (n - 2) ++ [(n - 1)%nat].
Proof.
  intros n H. destruct n as [|[|n]]; try lia. cbn [seq]. f_equal. replace (S (S n) - 2)%nat with n by lia.
  rewrite <- seq_S. cbn [seq]. f_equal.
Qed.

Theorem C83_remesh : forall d fmt fs nm n nx, (0 < nm)%nat -> dnx d = Z.of_nat n -> (2 <= n)%nat -> (dnx d <= 2147483647)%Z ->
  (xMin d < xMax d)%R -> Shape nm n fs -> (2 <= nx)%nat ->
  exists (k : nat -> nat) (t : nat -> R),
    (forall i, (i < nx)%nat -> (S (k i) < n)%nat /\ (0 <= t i <= 1)%R /\ newPoint d nx i = oldPoint d (k i) (t i)) /\
    remesh d fmt fs (Z.of_nat nx) = Ok (FieldText nx nm (fun j i => fmt (lin (t i) (val fs j (k i)) (val fs j (S (k i)))))).
Proof.
  intros d fmt fs nm n nx Pm D N2 MX X SH NX.
  set (y := fun i : nat => (INR i * (INR n - 1) / (INR nx - 1))%R).
  assert (n1 : (2 <= INR n)%R) by (apply (le_INR 2); auto). assert (x1 : (2 <= INR nx)%R) by (apply (le_INR 2); auto).
  set (k := fun i : nat => if (i =? nx - 1)%nat then (n - 2)%nat else Z.to_nat (Int_part (y i))).
  set (t := fun i : nat => (y i - INR (k i))%R).
  assert (MX' : (INR n <= 2147483647)%R). { rewrite INR_IZR_INZ, <- D. now apply IZR_le. }
  assert (YB : forall i, (i < nx - 1)%nat -> (0 <= y i < INR n - 1)%R).
  { intros i I. unfold y. assert (L : (INR i + 1 <= INR nx - 1)%R).
    { rewrite <- S_INR. replace (INR nx - 1)%R with (INR (nx - 1)) by (rewrite minus_INR by lia; simpl; lra). apply le_INR. lia. }
    pose proof (pos_INR i). split.
    - apply Rmult_le_pos; [nra|]. left. apply Rinv_0_lt_compat. lra.
    - apply (Rmult_lt_reg_r (INR nx - 1)); [lra|]. replace (INR i * (INR n - 1) / (INR nx - 1) * (INR nx - 1))%R with (INR i * (INR n - 1))%R by (field; lra). nra. }
  assert (KB : forall i, (i < nx - 1)%nat -> truncInt (y i) = Ok (Z.of_nat (k i)) /\ (S (k i) < n)%nat /\ (INR (k i) <= y i < INR (k i) + 1)%R).
  { intros i I. destruct (YB i I) as [Y0 Y1]. destruct (truncInt_pos (y i) Y0 ltac:(lra)) as (k' & E & B).
    assert (K : k i = k'). { unfold k. replace (i =? nx - 1)%nat with false by (symmetry; apply Nat.eqb_neq; lia).
      unfold truncInt in E. destruct (Rle_dec 0 (y i)); [|contradiction]. destruct (_ && _)%bool in E; inversion E. lia. }
    rewrite K. split; auto. split; auto. apply INR_lt. rewrite S_INR.
    assert (INR k' + 1 < INR n)%R by lra. lra. }
  assert (KL : k (nx - 1)%nat = (n - 2)%nat) by (unfold k; now rewrite Nat.eqb_refl).
  assert (YL : y (nx - 1)%nat = (INR n - 1)%R). { unfold y. rewrite minus_INR by lia. simpl (INR 1). field. lra. }
  exists k, t. split.
  - intros i I. assert (C : (i < nx - 1)%nat \/ i = (nx - 1)%nat) by lia.
    assert (PT : newPoint d nx i = oldPoint d (k i) (t i)).
    { unfold newPoint, oldPoint, t, y. rewrite D, <- INR_IZR_INZ. field. lra. }
    destruct C as [C| ->].
    + destruct (KB i C) as (_ & K & B). split; auto. split; auto. unfold t. lra.
    + rewrite KL. split; [lia|]. split; [|rewrite KL in PT; exact PT]. unfold t. rewrite KL, YL, minus_INR by lia. simpl (INR 2). lra.
  - unfold remesh. replace (length fs) with nm by (symmetry; apply SH).
    replace (0 <? Z.of_nat nm)%Z with true by (symmetry; apply Z.ltb_lt; lia). cbn [check bind].
    rewrite (shape_forallb' nm n fs _ SH D). cbn [check bind].
    replace (dnx d <=? 0)%Z with false by (symmetry; apply Z.leb_gt; lia).
    replace (Z.to_nat (Z.of_nat nx - 2)) with (nx - 2)%nat by lia.
    set (row := fun i => TI (Z.of_nat i) :: map (fun j => TD (fmt (lin (t i) (val fs j (k i)) (val fs j (S (k i)))))) (seq 0 nm)).
    assert (RR : forall l, (forall i, In i l -> (i < nx - 1)%nat) ->
      remeshRows d fmt fs ((xMax d - xMin d) / IZR (Z.of_nat nx - 1)) l = Ok (flat_map row l)).
    { induction l as [|i l IH]; intros A; auto. cbn [remeshRows flat_map].
      assert (I : (i < nx - 1)%nat) by (apply A; now left). destruct (KB i I) as (E & K & B).
      unfold remeshRow.
      replace ((xMax d - xMin d) / IZR (Z.of_nat nx - 1) * INR i / domDx d)%R with (y i)
        by (unfold domDx, y; rewrite D, !minus_IZR, <- !INR_IZR_INZ; field; repeat split; lra).
      rewrite E. cbn [bind]. replace (0 <=? Z.of_nat (k i))%Z with true by (symmetry; apply Z.leb_le; lia).
      cbn [check bind]. replace (Z.of_nat (k i) + 1 <? dnx d)%Z with true by (symmetry; apply Z.ltb_lt; lia). cbn [check bind].
      rewrite IH by (intros; apply A; now right). cbn [bind]. f_equal. f_equal. unfold row, rowOf. f_equal. rewrite Nat2Z.id, <- INR_IZR_INZ.
      rewrite map_map, map_val. replace (length fs) with nm by (symmetry; apply SH). reflexivity. }
    rewrite RR by (intros i I; apply in_seq in I; lia). cbn [bind]. f_equal. unfold FieldText, header. f_equal.
    fold row. rewrite (seq_ends nx NX). cbn [flat_map]. rewrite flat_map_app. cbn [flat_map]. rewrite app_nil_r.
    assert (R0 : rowOf fmt 0 (atRow fs 0) = row 0%nat).
    { unfold rowOf, row. f_equal. rewrite (atRow_val nm) by apply SH. rewrite map_map. apply map_ext. intros j. do 2 f_equal.
      destruct (KB 0%nat ltac:(lia)) as (_ & _ & B).
      assert (Y0 : y 0%nat = 0%R) by (unfold y; simpl; field; lra). assert (K0 : k 0%nat = 0%nat).
      { destruct (k 0%nat); auto. rewrite S_INR in B. pose proof (pos_INR n0). lra. }
      unfold lin, t. rewrite K0, Y0. simpl. lra. }
    assert (R1 : rowOf fmt (Z.of_nat nx - 1) (atRow fs (Z.to_nat (dnx d - 1))) = row (nx - 1)%nat).
    { unfold rowOf, row. f_equal. { f_equal. lia. }
      rewrite (atRow_val nm) by apply SH. rewrite map_map. apply map_ext. intros j. do 2 f_equal.
      unfold lin, t. rewrite KL, YL, minus_INR by lia. simpl (INR 2). replace (S (n - 2)) with (Z.to_nat (dnx d - 1)) by lia. lra. }
    rewrite R0, R1. rewrite <- ?app_assoc. reflexivity.
Qed.
Print Assumptions C83_remesh.

(** What interpolation keeps: the bounds of each field, linear profiles, the sum of the fields (incompressibility), and
    the values at points common to both meshes, in particular both ends. *)
Theorem C83_remesh_keeps : forall d fmt fs nm n nx, (0 < nm)%nat -> dnx d = Z.of_nat n -> (2 <= n)%nat -> (dnx d <= 2147483647)%Z ->
  (xMin d < xMax d)%R -> Shape nm n fs -> (2 <= nx)%nat ->
  exists g, remesh d fmt fs (Z.of_nat nx) = Ok (FieldText nx nm (fun j i => fmt (g j i))) /\
    (forall j lo hi, (forall m, (m < n)%nat -> (lo <= val fs j m <= hi)%R) -> forall i, (i < nx)%nat -> (lo <= g j i <= hi)%R) /\
    (forall j a b, (forall m, (m < n)%nat -> val fs j m = (a + b * oldPoint d m 0)%R) -> forall i, (i < nx)%nat -> g j i = (a + b * newPoint d nx i)%R) /\
    (forall c, (forall m, (m < n)%nat -> rsum nm (fun j => val fs j m) = c) -> forall i, (i < nx)%nat -> rsum nm (fun j => g j i) = c) /\
    (forall j i m, (i < nx)%nat -> (m < n)%nat -> newPoint d nx i = oldPoint d m 0 -> g j i = val fs j m).
Proof.
  intros d fmt fs nm n nx Pm D N2 MX X SH NX. destruct (C83_remesh d fmt fs nm n nx Pm D N2 MX X SH NX) as (k & t & A & E).
  exists (fun j i => lin (t i) (val fs j (k i)) (val fs j (S (k i)))). split; [exact E|]. unfold lin.
  assert (n1 : (2 <= INR n)%R) by (apply (le_INR 2); auto).
  split; [|split; [|split]].
  - intros j lo hi H i I. destruct (A i I) as (K & T & _). pose proof (H (k i) ltac:(lia)). pose proof (H (S (k i)) K). nra.
  - intros j a b H i I. destruct (A i I) as (K & T & P). rewrite (H (k i)), (H (S (k i))) by lia. rewrite P. unfold oldPoint. rewrite S_INR. ring.
  - intros c H i I. destruct (A i I) as (K & T & P). rewrite rsum_plus, !rsum_scal, (H (k i)), (H (S (k i))) by lia. ring.
  - intros j i m I M Q. destruct (A i I) as (K & T & P). rewrite P in Q. unfold oldPoint in Q. rewrite D, <- INR_IZR_INZ in Q.
    assert (Q' : (INR (k i) + t i = INR m)%R).
    { apply Rplus_eq_reg_l, Rmult_eq_reg_r in Q; [lra|]. apply Rgt_not_eq. apply Rdiv_lt_0_compat; lra. }
    assert (C : m = k i \/ m = S (k i)).
    { assert (INR (k i) <= INR m)%R by lra. assert (INR m <= INR (S (k i)))%R by (rewrite S_INR; lra).
      apply INR_le in H, H0. lia. }
    destruct C as [-> | ->]; [|rewrite S_INR in Q'].
    + replace (t i) with 0%R by lra. ring.
    + replace (t i) with 1%R by lra. ring.
Qed.
Print Assumptions C83_remesh_keeps.

Lemma text_ext : forall nx nm g h, (forall j i, (j < nm)%nat -> (i < nx)%nat -> g j i = h j i) -> FieldText nx nm g = FieldText nx nm h.
Proof.
  intros nx nm g h H. unfold FieldText. f_equal. rewrite !flat_map_concat_map. f_equal. apply map_ext_in. intros i I. apply in_seq in I.
  f_equal. apply map_ext_in. intros j J. apply in_seq in J. rewrite H; auto; lia.
Qed.
(** The same number of points gives the same fields. *)
Theorem C83_remesh_same : forall d fmt fs nm n, (0 < nm)%nat -> dnx d = Z.of_nat n -> (2 <= n)%nat -> (dnx d <= 2147483647)%Z ->
  (xMin d < xMax d)%R -> Shape nm n fs ->
  remesh d fmt fs (dnx d) = Ok (FieldText n nm (fun j i => fmt (val fs j i))).
Proof.
  intros d fmt fs nm n Pm D N2 MX X SH. destruct (C83_remesh_keeps d fmt fs nm n n Pm D N2 MX X SH N2) as (g & E & _ & _ & _ & G).
  rewrite <- D in E. rewrite E. f_equal. apply text_ext. intros j i J I. f_equal. apply G; auto.
  unfold newPoint, oldPoint. rewrite D, <- INR_IZR_INZ. ring.
Qed.
Print Assumptions C83_remesh_same.

(** The interpolated file is read by a system with the new number of points. *)
Theorem C83_remesh_read : forall d d' fmt fs old nm n nx rest text, (0 < nm)%nat -> dnx d = Z.of_nat n -> (2 <= n)%nat ->
  (dnx d <= 2147483647)%Z -> (xMin d < xMax d)%R -> Shape nm n fs -> (2 <= nx)%nat -> dnx d' = Z.of_nat nx -> Shape nm nx old ->
  remesh d fmt fs (dnx d') = Ok text ->
  exists fs' k t, readFields d' old (mkStream (text ++ rest) false) = Ok (fs', mkStream rest false) /\
    forall i, (i < nx)%nat -> (S (k i) < n)%nat /\ (0 <= t i <= 1)%R /\ newPoint d nx i = oldPoint d (k i) (t i) /\
      forall j, (j < nm)%nat -> val fs' j i = fmt (lin (t i) (val fs j (k i)) (val fs j (S (k i)))).
Proof.
  intros d d' fmt fs old nm n nx rest text Pm D N2 MX X SH NX D' SO H.
  destruct (C83_remesh d fmt fs nm n nx Pm D N2 MX X SH NX) as (k & t & A & E). rewrite D', E in H. inversion H; subst text.
  destruct (C83_read d' old nm nx (fun j i => fmt (lin (t i) (val fs j (k i)) (val fs j (S (k i))))) rest Pm ltac:(lia) D' SO) as (fs' & R & _ & V).
  exists fs', k, t. split; [exact R|]. intros i I. destruct (A i I) as (B1 & B2 & B3). repeat (split; [assumption|]). intros j J. now rewrite V.
Qed.
Print Assumptions C83_remesh_read.

(** Extension by [m] points repeats the last value. *)
Theorem C83_extend : forall d fmt fs nm n m, (0 < nm)%nat -> (0 < n)%nat -> dnx d = Z.of_nat n -> Shape nm n fs ->
  extend d fmt fs (Z.of_nat m) = Ok (FieldText (n + m) nm (fun j i => fmt (val fs j (Nat.min i (n - 1))))).
Proof.
  intros d fmt fs nm n m Pm Pn D SH. unfold extend. rewrite (shape_head nm n fs SH Pm), D, Z.eqb_refl.
  replace (length fs) with nm by (symmetry; apply SH).
  replace (0 <? Z.of_nat nm)%Z with true by (symmetry; apply Z.ltb_lt; lia). cbn [check bind].
  rewrite (shape_forallb nm n fs _ SH eq_refl). cbn [check bind].
  replace (Z.of_nat n =? 0)%Z with false by (symmetry; apply Z.eqb_neq; lia). cbn [andb]. f_equal.
  unfold FieldText, header. rewrite Nat2Z.inj_add, !Nat2Z.id. f_equal. rewrite seq_app, flat_map_app. f_equal.
  - rewrite !flat_map_concat_map. f_equal. apply map_ext_in. intros i I. apply in_seq in I. unfold rowOf. f_equal.
    rewrite (atRow_val nm) by apply SH. rewrite map_map. apply map_ext. intros j. rewrite Nat.min_l by lia. reflexivity.
  - cbn [Nat.add]. rewrite !flat_map_concat_map. f_equal. apply map_ext_in. intros i I. apply in_seq in I. unfold rowOf. f_equal.
    rewrite (atRow_val nm) by apply SH. rewrite map_map. apply map_ext. intros j. rewrite Nat.min_r by lia. reflexivity.
Qed.
Print Assumptions C83_extend.

(** Numbers of points that are not checked: interpolation to one point writes two rows, extension by a negative number
    writes more rows than it announces.  Neither is a field file. *)
Definition d3 : domain := mkDomain 3 0 2.
Definition fs3 : list (list R) := [[1; 2; 4]]%R.
Theorem C83_dimension_refuted : exists t u, remesh d3 (fun x => x) fs3 1 = Ok t /\ extend d3 (fun x => x) fs3 (-1) = Ok u /\
  forall nx nm g, t <> FieldText nx nm g /\ u <> FieldText nx nm g.
Proof.
  do 2 eexists. split; [reflexivity|]. split; [reflexivity|]. intros nx nm g.
  split; intros H; unfold FieldText in H; cbn [app] in H; inversion H as [[A B C]];
  (assert (nm = 1%nat) by lia); subst nm; [assert (nx = 1%nat) by lia | assert (nx = 2%nat) by lia]; subst nx; discriminate C.
Qed.
Print Assumptions C83_dimension_refuted.

(** Three points onto five: hypotheses hold, and the new values are the expected ones. *)
Example C83_case : exists g, remesh d3 (fun x => x) fs3 5 = Ok (FieldText 5 1 g) /\ g 0%nat 2%nat = 2%R /\ (1 <= g 0%nat 3%nat <= 4)%R.
Proof.
  destruct (C83_remesh_keeps d3 (fun x => x) fs3 1 3 5) as (g & E & B & _ & _ & G);
    [cbn; lia | reflexivity | lia | cbn; lia | cbn; lra | split; [reflexivity | repeat constructor] | lia |].
  exists g. split; [exact E|]. split.
  - rewrite (G 0%nat 2%nat 1%nat); auto. unfold newPoint, oldPoint. simpl. field.
  - apply B; auto. intros [|[|[|m]]] M; try lia; unfold val; simpl; lra.
Qed.
