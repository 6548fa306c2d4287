(** Specification of field files and of interpolation, and lemmas about the model of r1d FieldIo. *)
From Coq Require Import Reals ZArith String List Bool Arith Lra Lia.
From Verif Require Import Base RSum R1dFieldIo.
Import ListNotations.

(** Fields: [nm] columns of [nx] values; value [i] of column [j]. *)
Definition Shape (nm nx : nat) (fs : list (list R)) : Prop := length fs = nm /\ Forall (fun f => length f = nx) fs.
Definition val (fs : list (list R)) (j i : nat) : R := nth i (nth j fs []) 0%R.
(** The number that a token stands for. *)
Definition numeral (t : token) : option R := match t with TW _ => None | TI n => Some (IZR n) | TD x => Some x end.
(** [l] consists of [n] numbered rows, from number [i], with the values of [fs], and of [rest]. *)
Fixpoint IsRows (n i : nat) (fs : list (list R)) (l rest : list token) : Prop :=
  match n with
  | O => l = rest
  | S n' => exists r l', l = TI (Z.of_nat i) :: r ++ l' /\ map numeral r = map (fun f => Some (nth i f 0%R)) fs /\ IsRows n' (S i) fs l' rest
  end.
(** The text of a field file with value [g j i] of column [j] in row [i]. *)
Definition FieldText (nx nm : nat) (g : nat -> nat -> R) : list token :=
  [TW "nx"; TI (Z.of_nat nx); TW "nm"; TI (Z.of_nat nm)]
  ++ flat_map (fun i => TI (Z.of_nat i) :: map (fun j => TD (g j i)) (seq 0 nm)) (seq 0 nx).

Lemma shape_upd : forall nm nx fs fs' i s s', readRow i fs s = (fs', s') -> Shape nm nx fs -> Shape nm nx fs'.
Proof.
  intros nm nx fs. revert nm. induction fs as [|f fs IH]; intros nm fs' i s s' H [L F]; cbn [readRow] in H.
  - inversion H; subst; split; auto.
  - destruct (readDbl _ s) as [v s1]. destruct (readRow i fs s1) as [r' s2] eqn:E. inversion H; subst. inversion F; subst.
    destruct (IH (length fs) _ _ _ _ E) as [L' F']; [split; auto|]. split; [cbn; congruence|]. constructor; auto.
    now rewrite update_length.
Qed.
Lemma shape_rows : forall nm nx n i idum fs fs' s s', readRows n i idum fs s = Ok (fs', s') -> Shape nm nx fs -> Shape nm nx fs'.
Proof.
  induction n; intros i idum fs fs' s s' H S; cbn [readRows] in H.
  - inversion H; subst; auto.
  - destruct (readInt idum s) as [[v|] s1]; [|discriminate]. unfold check in H. destruct (v =? Z.of_nat i)%Z; [|discriminate].
    cbn [bind] in H. destruct (readRow i fs s1) as [f2 s2] eqn:E. apply IHn in H; auto. eapply shape_upd; eauto.
Qed.
Lemma row_other : forall i k fs fs' s s', readRow i fs s = (fs', s') -> i <> k ->
  map (fun f => nth k f 0%R) fs' = map (fun f => nth k f 0%R) fs.
Proof.
  intros i k. induction fs as [|f fs IH]; intros fs' s s' H N; cbn [readRow] in H.
  - now inversion H.
  - destruct (readDbl _ s) as [v s1]. destruct (readRow i fs s1) as [r' s2] eqn:E. inversion H; subst. cbn [map].
    rewrite nth_update_other, (IH _ _ _ E); auto.
Qed.
Lemma rows_other : forall k n i idum fs fs' s s', readRows n i idum fs s = Ok (fs', s') -> (k < i)%nat ->
  map (fun f => nth k f 0%R) fs' = map (fun f => nth k f 0%R) fs.
Proof.
  intros k. induction n; intros i idum fs fs' s s' H L; cbn [readRows] in H.
  - now inversion H.
  - destruct (readInt idum s) as [[v|] s1]; [|discriminate]. unfold check in H. destruct (v =? Z.of_nat i)%Z; [|discriminate].
    cbn [bind] in H. destruct (readRow i fs s1) as [f2 s2] eqn:E. rewrite (IHn _ _ _ _ _ _ H), (row_other _ _ _ _ _ _ E); auto; lia.
Qed.
Lemma row_bad : forall i fs s, bad s = true -> snd (readRow i fs s) = s.
Proof.
  induction fs as [|f fs IH]; intros s B; cbn [readRow]; auto. unfold readDbl. rewrite B.
  specialize (IH s B). destruct (readRow i fs s). cbn in *. auto.
Qed.
Lemma row_good : forall nx i fs fs' s s', readRow i fs s = (fs', s') -> bad s' = false ->
  Forall (fun f => length f = nx) fs -> (i < nx)%nat ->
  bad s = false /\ exists r, toks s = r ++ toks s' /\ map numeral r = map (fun f => Some (nth i f 0%R)) fs'.
Proof.
  intros nx i. induction fs as [|f fs IH]; intros fs' s s' H B F L; cbn [readRow] in H.
  - inversion H; subst. split; auto. exists []; auto.
  - destruct (readDbl (nth i f 0%R) s) as [v s1] eqn:D. destruct (readRow i fs s1) as [r' s2] eqn:E. inversion H; subst.
    inversion F; subst. destruct (IH _ _ _ E) as (B1 & r & T & M); auto.
    unfold readDbl in D. destruct (bad s) eqn:Bs; [inversion D; subst; congruence|]. split; auto.
    destruct (toks s) as [|[w|n|x] t]; inversion D; subst; cbn in *; try discriminate; rewrite T.
    + exists (TI n :: r). split; auto. cbn [map]. rewrite M, nth_update_same; auto.
    + exists (TD v :: r). split; auto. cbn [map]. rewrite M, nth_update_same; auto.
Qed.
Lemma rows_good : forall nm nx n i idum fs fs' s s', readRows n i idum fs s = Ok (fs', s') -> bad s' = false ->
  Shape nm nx fs -> (i + n <= nx)%nat -> bad s = false /\ IsRows n i fs' (toks s) (toks s').
Proof.
  induction n; intros i idum fs fs' s s' H B S L; cbn [readRows] in H.
  - inversion H; subst. cbn. auto.
  - destruct (readInt idum s) as [[v|] s1] eqn:D; [|discriminate]. unfold check in H.
    destruct (v =? Z.of_nat i)%Z eqn:V; [|discriminate]. apply Z.eqb_eq in V. cbn [bind] in H.
    destruct (readRow i fs s1) as [f2 s2] eqn:E.
    pose proof (shape_upd _ _ _ _ _ _ _ E S) as S2.
    destruct (IHn _ _ _ _ _ _ H B S2) as [B2 R]; [lia|].
    destruct (row_good nx _ _ _ _ _ E B2) as (B1 & r & T & M); [apply S|lia|].
    unfold readInt in D. destruct (bad s) eqn:Bs; [inversion D; subst; congruence|]. split; auto. cbn [IsRows].
    destruct (toks s) as [|[w|z|x] t]; inversion D; subst; cbn in *; try discriminate.
    exists r, (toks s2). rewrite T. split; auto. split; auto. rewrite M.
    rewrite <- (map_map (fun f => nth i f 0%R) Some f2), <- (map_map (fun f => nth i f 0%R) Some fs'). f_equal.
    symmetry. eapply rows_other; eauto.
Qed.
(** A stream that fails does so in the last row. *)
Lemma rows_any : forall nm nx n i idum fs fs' s s', readRows (S n) i idum fs s = Ok (fs', s') ->
  idum <> Some (Z.of_nat i) -> (1 <= i + n)%nat ->
  Shape nm nx fs -> (i + S n <= nx)%nat ->
  bad s = false /\ exists l, IsRows n i fs' (toks s) (TI (Z.of_nat (i + n)) :: l).
Proof.
  induction n; intros i idum fs fs' s s' H I0 I1 S L.
  - cbn [readRows] in H. destruct (readInt idum s) as [[v|] s1] eqn:D; [|discriminate]. unfold check in H.
    destruct (v =? Z.of_nat i)%Z eqn:V; [|discriminate]. apply Z.eqb_eq in V.
    unfold readInt in D. destruct (bad s) eqn:Bs; [inversion D; subst; congruence|]. split; auto.
    destruct (toks s) as [|[w|z|x] t]; inversion D; subst; try congruence; try lia.
    exists t. cbn. now rewrite Nat.add_0_r.
  - remember (Datatypes.S n) as n1. cbn [readRows] in H. destruct (readInt idum s) as [[v|] s1] eqn:D; [|discriminate]. unfold check in H.
    destruct (v =? Z.of_nat i)%Z eqn:V; [|discriminate]. apply Z.eqb_eq in V. cbn [bind] in H.
    destruct (readRow i fs s1) as [f2 s2] eqn:E. subst n1.
    pose proof (shape_upd _ _ _ _ _ _ _ E S) as S2. pose proof (rows_other i _ _ _ _ _ _ _ H ltac:(lia)) as K.
    destruct (IHn _ _ _ _ _ _ H) as [B2 [l R]]; auto; try lia. { intros Q. inversion Q. lia. }
    destruct (row_good nx _ _ _ _ _ E B2) as (B1 & r & T & M); [apply S|lia|].
    unfold readInt in D. destruct (bad s) eqn:Bs; [inversion D; subst; congruence|]. split; auto.
    exists l. cbn [IsRows].
    destruct (toks s) as [|[w|z|x] t]; inversion D; subst; cbn in *; try discriminate.
    exists r, (toks s2). rewrite T. split; auto. split.
    + rewrite M.
      rewrite <- (map_map (fun f => nth i f 0%R) Some f2), <- (map_map (fun f => nth i f 0%R) Some fs'). f_equal.
      symmetry. exact K.
    + rewrite Nat.add_succ_r. exact R.
Qed.

(** Reading back what stands in the text. *)
Lemma row_read : forall nx i vs fs rest, length vs = length fs -> Forall (fun f => length f = nx) fs -> (i < nx)%nat ->
  exists fs', readRow i fs (mkStream (map TD vs ++ rest) false) = (fs', mkStream rest false)
    /\ map (fun f => nth i f 0%R) fs' = vs.
Proof.
  intros nx i. induction vs as [|v vs IH]; intros [|f fs] rest L F B; try discriminate L.
  - exists []. auto.
  - inversion F; subst. destruct (IH fs rest) as (fs' & E & M); auto.
    exists (update f i v :: fs'). cbn [readRow readDbl map app bad toks]. rewrite E. split; auto. cbn [map].
    rewrite nth_update_same, M; auto.
Qed.
Lemma rows_read : forall nm nx (g : nat -> nat -> R) n i idum fs rest, Shape nm nx fs -> (i + n <= nx)%nat ->
  exists fs', readRows n i idum fs (mkStream (flat_map (fun k => TI (Z.of_nat k) :: map (fun j => TD (g j k)) (seq 0 nm)) (seq i n) ++ rest) false)
    = Ok (fs', mkStream rest false) /\ Shape nm nx fs'
    /\ forall k, (i <= k < i + n)%nat -> map (fun f => nth k f 0%R) fs' = map (fun j => g j k) (seq 0 nm).
Proof.
  intros nm nx g. induction n; intros i idum fs rest S L; cbn [readRows seq flat_map].
  - exists fs. split; auto. split; auto. intros; lia.
  - cbn [app]. unfold readInt at 1. cbn [bad toks]. unfold check. rewrite Z.eqb_refl. cbn [bind].
    rewrite <- app_assoc. rewrite <- (map_map (fun j => g j i) TD).
    destruct (row_read nx i (map (fun j => g j i) (seq 0 nm)) fs
      (flat_map (fun k => TI (Z.of_nat k) :: map (fun j => TD (g j k)) (seq 0 nm)) (seq (Datatypes.S i) n) ++ rest)) as (f2 & E & M).
    { rewrite map_length, seq_length. symmetry; apply S. } { apply S. } { lia. }
    rewrite E. pose proof (shape_upd _ _ _ _ _ _ _ E S) as S2.
    destruct (IHn (Datatypes.S i) (Some (Z.of_nat i)) f2 rest S2) as (fs' & E' & S' & M'); [lia|].
    exists fs'. split; auto. split; auto. intros k K. destruct (Nat.eq_dec k i) as [->|N]; [|apply M'; lia].
    rewrite <- M. eapply rows_other; [exact E'|lia].
Qed.
Lemma atRow_val : forall nm fs i, length fs = nm -> atRow fs i = map (fun j => val fs j i) (seq 0 nm).
Proof.
  intros nm fs i <-. unfold atRow, val. induction fs as [|f fs IH]; auto. cbn [map length seq]. f_equal.
  rewrite <- seq_shift, map_map. exact IH.
Qed.
Lemma map_val : forall {B} (F : list R -> B) fs, map F fs = map (fun j => F (nth j fs [])) (seq 0 (length fs)).
Proof.
  intros B F fs. induction fs as [|f fs IH]; auto. cbn [map length seq]. f_equal. rewrite <- seq_shift, map_map. exact IH.
Qed.
Lemma shape_forallb : forall nm nx fs z, Shape nm nx fs -> z = Z.of_nat nx -> forallb (fun f => (z =? Z.of_nat (length f))%Z) fs = true.
Proof. intros nm nx fs z [_ F] ->. apply forallb_forall. intros f I. rewrite Forall_forall in F. rewrite (F f I). apply Z.eqb_refl. Qed.
Lemma shape_forallb' : forall nm nx fs z, Shape nm nx fs -> z = Z.of_nat nx -> forallb (fun f => (Z.of_nat (length f) =? z)%Z) fs = true.
Proof. intros nm nx fs z [_ F] ->. apply forallb_forall. intros f I. rewrite Forall_forall in F. rewrite (F f I). apply Z.eqb_refl. Qed.
Lemma shape_head : forall nm nx fs, Shape nm nx fs -> (0 < nm)%nat -> length (nth 0 fs []) = nx.
Proof. intros nm nx [|f fs] [L F] P; cbn in *; [lia|]. now inversion F. Qed.

(** Interpolation *)
Lemma truncInt_pos : forall y, (0 <= y)%R -> (y < 2147483647)%R -> exists k : nat, truncInt y = Ok (Z.of_nat k) /\ (INR k <= y < INR k + 1)%R.
Proof.
  intros y H L. unfold truncInt. destruct (Rle_dec 0 y) as [_|C]; [|contradiction].
  destruct (base_Int_part y) as [A B].
  assert (P : (0 <= Int_part y)%Z). { apply le_IZR. assert (IZR (-1) < IZR (Int_part y))%R by (simpl; lra). apply lt_IZR in H0. apply IZR_le. lia. }
  assert (Q : (Int_part y <= 2147483647)%Z). { apply le_IZR. lra. }
  exists (Z.to_nat (Int_part y)). rewrite Z2Nat.id by auto.
  replace ((-2147483648 <=? Int_part y)%Z) with true by (symmetry; apply Z.leb_le; lia).
  replace ((Int_part y <=? 2147483647)%Z) with true by (symmetry; apply Z.leb_le; lia).
  split; auto. rewrite INR_IZR_INZ, Z2Nat.id by auto. lra.
Qed.
