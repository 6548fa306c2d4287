From Coq Require Import String ZArith Reals List Bool Lia Permutation.
From Verif Require Import Base MeshSpec Mesh PropsMesh UnitCell FieldIo.
Import ListNotations.
Local Open Scope string_scope.
Local Open Scope Z_scope.
Local Open Scope list_scope.

Lemma at1_ok : forall E (f : list E) r d, 0 <= r < Z.of_nat (length f) -> at1 f r = Ok (nth (Z.to_nat r) f d).
Proof.
  intros E f r d H. unfold at1. destruct (Z.ltb_spec r 0); [lia|].
  rewrite (nth_error_nth' f d) by lia. reflexivity.
Qed.
Lemma set1_ok : forall E (f : list E) r x, 0 <= r < Z.of_nat (length f) -> set1 f r x = Ok (update f (Z.to_nat r) x).
Proof.
  intros E f r x H. unfold set1.
  destruct (Z.leb_spec 0 r); [|lia]. destruct (Z.ltb_spec r (Z.of_nat (length f))); [reflexivity|lia].
Qed.

Lemma fold_update_length : forall E (h : nat -> E) ns (g : list E),
  length (fold_left (fun g n => update g n (h n)) ns g) = length g.
Proof. induction ns; intros; cbn [fold_left]; auto. rewrite IHns. apply update_length. Qed.
Lemma fold_update_nth : forall E (h : nat -> E) d ns (g : list E) i, (i < length g)%nat ->
  nth i (fold_left (fun g n => update g n (h n)) ns g) d = if in_dec Nat.eq_dec i ns then h i else nth i g d.
Proof.
  induction ns as [|n ns IH]; intros g i Hi; cbn [fold_left]; [reflexivity|].
  rewrite IH by (rewrite update_length; auto).
  destruct (in_dec Nat.eq_dec i ns) as [I|N]; destruct (in_dec Nat.eq_dec i (n :: ns)) as [I'|N']; auto.
  - exfalso; apply N'; right; auto.
  - destruct I' as [->|I']; [|tauto]. apply nth_update_same; auto.
  - apply nth_update_other. intros ->. apply N'. left; auto.
Qed.
Lemma fold_update_all : forall E (f g : list E) (canon : E -> E) d ns, length g = length f ->
  (forall i, (i < length f)%nat -> In i ns) ->
  fold_left (fun g n => update g n (canon (nth n f d))) ns g = map canon f.
Proof.
  intros E f g canon d ns HL HA.
  apply (nth_ext _ _ (canon d) (canon d)).
  - rewrite (fold_update_length E (fun n => canon (nth n f d))), map_length; auto.
  - intros i Hi. rewrite (fold_update_length E (fun n => canon (nth n f d))) in Hi.
    rewrite (fold_update_nth E (fun n => canon (nth n f d))) by auto.
    destruct (in_dec Nat.eq_dec i ns) as [_|N]; [|exfalso; apply N, HA; lia].
    rewrite map_nth. reflexivity.
Qed.

Lemma combine_map_l : forall A B (h : A * B -> B) (l : list A) (k : list B),
  combine l (map h (combine l k)) = map (fun p => (fst p, h p)) (combine l k).
Proof.
  induction l as [|a l IH]; intros k; [reflexivity|]. destruct k as [|b k]; [reflexivity|].
  cbn [combine map fst]. rewrite IH. reflexivity.
Qed.
Lemma combine_snd_map : forall A B C (h : A -> C) (l : list A) (k : list B), length l = length k ->
  map (fun p => h (fst p)) (combine l k) = map h l.
Proof.
  induction l as [|a l IH]; intros [|b k] H; try discriminate; auto.
  cbn [combine map fst]. rewrite IH; auto.
Qed.
Lemma combine_snd : forall A B (l : list A) (k : list B), length l = length k -> map snd (combine l k) = k.
Proof.
  induction l as [|a l IH]; intros [|b k] H; try discriminate; auto.
  cbn [combine map snd]. rewrite IH; auto.
Qed.

Section Points.
Variable E : Type.
Variable enc : E -> list token.
Variable dec : stream -> outcome (E * stream).
Variable okE : E -> Prop.
Variable canon : E -> E.
Variable d : E.
Hypothesis decOk : forall e rest sp, okE e -> dec (mkS (enc e ++ rest) sp) = Ok (canon e, mkS rest sp).

Definition tokPoint (fs : list (list E)) (r : Z) : list token :=
  concat (map (fun f => enc (nth (Z.to_nat r) f d)) fs).

Lemma writePoint_spec : forall fs r, Forall (fun f => 0 <= r < Z.of_nat (length f)) fs ->
  writePoint enc fs r = Ok (tokPoint fs r).
Proof.
  intros fs r H. unfold writePoint, tokPoint.
  assert (X : mapM (fun f => x <- at1 f r ;; Ok (enc x)) fs = Ok (map (fun f => enc (nth (Z.to_nat r) f d)) fs)).
  { induction H as [|f fs Hf H IH]; [reflexivity|]. cbn [mapM map].
    rewrite (at1_ok E f r d Hf). cbn [bind]. rewrite IH. reflexivity. }
  rewrite X. reflexivity.
Qed.
Lemma writePoints_spec : forall rs fs,
  (forall r, In r rs -> Forall (fun f => 0 <= r < Z.of_nat (length f)) fs) ->
  writePoints enc rs fs = Ok (concat (map (tokPoint fs) rs)).
Proof.
  intros rs fs H. unfold writePoints.
  assert (X : mapM (writePoint enc fs) rs = Ok (map (tokPoint fs) rs)).
  { induction rs as [|r rs IH]; [reflexivity|]. cbn [mapM map].
    rewrite writePoint_spec by (apply H; left; auto). cbn [bind].
    rewrite IH by (intros; apply H; right; auto). reflexivity. }
  rewrite X. reflexivity.
Qed.

Definition upd1 (r : Z) (p : list E * list E) : list E :=
  update (snd p) (Z.to_nat r) (canon (nth (Z.to_nat r) (fst p) d)).
Lemma readPoint_spec : forall r fs gs rest sp, length fs = length gs ->
  Forall (fun f => 0 <= r < Z.of_nat (length f) /\ okE (nth (Z.to_nat r) f d)) fs ->
  Forall (fun g => 0 <= r < Z.of_nat (length g)) gs ->
  readPoint dec r gs (mkS (tokPoint fs r ++ rest) sp) = Ok (map (upd1 r) (combine fs gs), mkS rest sp).
Proof.
  intros r. induction fs as [|f fs IH]; intros gs rest sp HL HF HG; destruct gs as [|g gs]; try discriminate HL.
  - reflexivity.
  - inversion HF as [|? ? [Hf Hok] HF']; inversion HG as [|? ? Hg HG']; subst.
    unfold tokPoint. cbn [map concat readPoint combine]. rewrite <- app_assoc, decOk by auto.
    cbn [bind fst snd]. rewrite set1_ok by auto. cbn [bind]. fold (tokPoint fs r).
    rewrite IH by (auto; congruence). reflexivity.
Qed.

Definition updAll (rs : list Z) (p : list E * list E) : list E :=
  fold_left (fun g n => update g n (canon (nth n (fst p) d))) (map Z.to_nat rs) (snd p).
Lemma upd1_length : forall r p, length (upd1 r p) = length (snd p).
Proof. intros. apply update_length. Qed.
Lemma forall_upd1 : forall (P : nat -> Prop) r fs gs, Forall (fun g => P (length g)) gs ->
  Forall (fun g => P (length g)) (map (upd1 r) (combine fs gs)).
Proof.
  intros P r fs gs H. apply Forall_forall. intros g Hg. apply in_map_iff in Hg as [[a b] [<- Hp]].
  rewrite upd1_length. apply in_combine_r in Hp. rewrite Forall_forall in H. apply (H b); auto.
Qed.
Lemma readPoints_spec : forall rs fs gs rest sp, length fs = length gs ->
  (forall r, In r rs -> Forall (fun f => 0 <= r < Z.of_nat (length f) /\ okE (nth (Z.to_nat r) f d)) fs) ->
  (forall r, In r rs -> Forall (fun g => 0 <= r < Z.of_nat (length g)) gs) ->
  readPoints dec rs gs (mkS (concat (map (tokPoint fs) rs) ++ rest) sp) =
  Ok (map (updAll rs) (combine fs gs), mkS rest sp).
Proof.
  induction rs as [|r rs IH]; intros fs gs rest sp HL HF HG.
  - cbn [map concat readPoints app]. unfold updAll. cbn [map fold_left]. rewrite combine_snd by auto. reflexivity.
  - cbn [map concat readPoints]. rewrite <- app_assoc.
    rewrite readPoint_spec; [| auto | apply HF; left; auto | apply HG; left; auto].
    cbn [bind fst snd]. rewrite IH.
    + rewrite combine_map_l. rewrite map_map. reflexivity.
    + rewrite map_length, combine_length. lia.
    + intros; apply HF; right; auto.
    + intros. apply (forall_upd1 (fun n => 0 <= r0 < Z.of_nat n)). apply HG; right; auto.
Qed.

Lemma updAll_full : forall rs fs gs N, length fs = length gs ->
  Forall (fun f => length f = N) fs -> Forall (fun g => length g = N) gs ->
  (forall i, (i < N)%nat -> In (Z.of_nat i) rs) ->
  map (updAll rs) (combine fs gs) = map (map canon) fs.
Proof.
  intros rs fs gs N HL HF HG HA. revert gs HL HG.
  induction HF as [|f fs Hf HF IH]; intros gs HL HG; destruct gs as [|g gs]; try discriminate; auto.
  inversion HG; subst. cbn [combine map]. rewrite IH by (auto; congruence). f_equal.
  unfold updAll. cbn [fst snd]. apply fold_update_all; [congruence|].
  intros i Hi. apply in_map_iff. exists (Z.of_nat i). split; [apply Nat2Z.id|auto].
Qed.

(** Rows of k-grid files *)
Fixpoint tokRows (fs : list (list E)) (rs : list Z) : list token :=
  match rs with [] => [] | r :: rs' => TI r :: tokPoint fs r ++ tokRows fs rs' end.
Lemma writeRows_spec : forall n i fs,
  (forall r, i <= r < i + Z.of_nat n -> Forall (fun f => 0 <= r < Z.of_nat (length f)) fs) ->
  writeRows enc i (zseq i n) fs = Ok (tokRows fs (zseq i n)).
Proof.
  induction n as [|n IH]; intros i fs H; [reflexivity|].
  unfold zseq. rewrite <- cons_seq. cbn [map]. rewrite <- seq_shift, map_map.
  replace (i + Z.of_nat 0) with i by lia.
  replace (map (fun x => i + Z.of_nat (S x)) (seq 0 n)) with (zseq (i + 1) n)
    by (unfold zseq; apply map_ext; intros; lia).
  cbn [writeRows tokRows]. rewrite Z.eqb_refl. cbn [check bind].
  rewrite writePoint_spec by (apply H; lia). cbn [bind]. rewrite IH by (intros; apply H; lia). reflexivity.
Qed.
Lemma readRows_spec : forall n i fs gs rest sp, length fs = length gs ->
  (forall r, i <= r < i + Z.of_nat n -> Forall (fun f => 0 <= r < Z.of_nat (length f) /\ okE (nth (Z.to_nat r) f d)) fs) ->
  (forall r, i <= r < i + Z.of_nat n -> Forall (fun g => 0 <= r < Z.of_nat (length g)) gs) ->
  readRows dec i (zseq i n) gs (mkS (tokRows fs (zseq i n) ++ rest) sp) =
  Ok (map (updAll (zseq i n)) (combine fs gs), mkS rest sp).
Proof.
  induction n as [|n IH]; intros i fs gs rest sp HL HF HG.
  - cbn. unfold updAll. cbn [map fold_left]. rewrite combine_snd by auto. reflexivity.
  - assert (Z0 : zseq i (S n) = i :: zseq (i + 1) n).
    { unfold zseq. rewrite <- cons_seq. cbn [map]. rewrite <- seq_shift, map_map. f_equal; [lia|].
      apply map_ext; intros; lia. }
    rewrite Z0. cbn [tokRows readRows app]. unfold rdI at 1. cbn [sToks sSpace bind fst snd].
    rewrite Z.eqb_refl. cbn [check bind]. rewrite <- app_assoc.
    rewrite readPoint_spec; [| auto | apply HF; lia | apply HG; lia].
    cbn [bind fst snd]. rewrite IH.
    + rewrite combine_map_l, map_map. reflexivity.
    + rewrite map_length, combine_length. lia.
    + intros; apply HF; lia.
    + intros. apply (forall_upd1 (fun n => 0 <= r < Z.of_nat n)). apply HG; lia.
Qed.
End Points.

Lemma zseq_in : forall a n x, In x (zseq a n) <-> a <= x < a + Z.of_nat n.
Proof.
  intros. unfold zseq. rewrite in_map_iff. split.
  - intros [k [<- H]]. apply in_seq in H. lia.
  - intros H. exists (Z.to_nat (x - a)). split; [lia|]. apply in_seq. lia.
Qed.

(** The ranks visited by the Fortran iterator. *)
Lemma f_ranks : forall dims m fuel, dims <> [] -> setDimensions dims = Ok m -> size m <= Z.of_nat fuel ->
  exists v, f_visit fuel dims = Ok v /\
    map fst v = map (fun n => rank m (fpos dims n)) (zseq 0 (Z.to_nat (size m))) /\
    Permutation (map fst v) (zseq 0 (Z.to_nat (size m))) /\ 0 < size m.
Proof.
  intros dims m fuel Hne Hm Hf.
  destruct (mesh_iterator_fortran_visits_all dims m fuel Hne Hm Hf) as [v [V1 [V2 [V3 V4]]]].
  exists v. split; auto. split; [|split; auto].
  - rewrite <- (map_map (fpos dims) (rank m)), <- V2, map_map.
    clear V2 V4 V1. induction v as [|[r p] v IH]; [reflexivity|]. cbn [map fst snd].
    rewrite IH by (intros; apply V3; right; auto). f_equal. apply (V3 r p). left; auto.
  - destruct (mesh_rank_position_bijection dims m Hne Hm) as [_ [S1 _]].
    rewrite S1. assert (P : positive dims).
    { destruct (mesh_constructible dims Hne) as [A _]. apply A. exists m; auto. }
    clear -P. induction P; cbn [prodZ]; lia.
Qed.

Lemma all_positive_dims : forall dims m, dims <> [] -> setDimensions dims = Ok m -> positive dims.
Proof. intros dims m Hne Hm. destruct (mesh_constructible dims Hne) as [A _]. apply A. exists m; auto. Qed.
