(* C29: field containers accept field-setting calls in any order. *)
From Coq Require Import List Arith Bool Lia Reals Lra.
From Verif Require Import FieldStore.
Import ListNotations.
Set Implicit Arguments.

Ltac spl := repeat match goal with |- _ /\ _ => split end.

Section Spec.
Variable A : Type.
Variables toR toB : list A -> list A.

(* A list of n components of length m. *)
Definition shaped (n m : nat) (fs : list (list A)) : Prop :=
  length fs = n /\ Forall (fun f => length f = m) fs.

(* A call whose argument (or file) has the right number of components, each
   of the right length, for a mesh of m points and nb basis functions. *)
Definition wellDim (n m nb : nat) (k : call A) : Prop :=
  match k with
  | CSetBasis fs => shaped n nb fs
  | CSetRGrid fs _ => shaped n m fs
  | CReadBasis f => fNMon f = n /\ fSym f = true /\ fOk f = true /\
                    shaped n nb (fData f)
  | CReadRGrid f _ => fNMon f = n /\ fOk f = true /\ shaped n m (fData f)
  end.

(* Does the call give a symmetric field? *)
Definition givesSym (k : call A) : bool :=
  match k with
  | CSetBasis _ | CReadBasis _ => true
  | CSetRGrid _ b | CReadRGrid _ b => b
  end.

(* The grid values of the field that a call gives. *)
Definition gridOf (k : call A) : list (list A) :=
  match k with
  | CSetBasis fs => map toR fs
  | CReadBasis f => map toR (fData f)
  | CSetRGrid fs _ => fs
  | CReadRGrid f _ => fData f
  end.

(* A grid field described as symmetric is a combination of basis functions. *)
Definition honest (k : call A) : Prop :=
  givesSym k = true -> map toR (map toB (gridOf k)) = gridOf k.

End Spec.

Section Proofs.
Variable A : Type.
Variable junk : A.
Variables toR toB : list A -> list A.
Variables n m nb : nat.
Hypothesis Hn : 0 < n.
Hypothesis Hm : 0 < m.
Hypothesis Hnb : 0 < nb.
Hypothesis toR_len : forall b, length b = nb -> length (toR b) = m.
Hypothesis toB_len : forall r, length r = m -> length (toB r) = nb.
Hypothesis toB_toR : forall b, length b = nb -> toB (toR b) = b.

Notation store := (store A).
Notation ctx := (mkCtx m (Some nb)).

Definition wf (s : store) : Prop :=
  sNMon s = n /\
  (sAllocR s = true -> sMeshSize s = m /\ shaped n m (sRGrid s)) /\
  (sAllocB s = true -> sNBasis s = nb /\ shaped n nb (sBasis s)) /\
  (sHasData s = true -> sAllocR s = true).

Lemma setNth_app : forall X (pre old : list X) x y,
  setNth (length pre) x (pre ++ y :: old) = pre ++ x :: old.
Proof.
  induction pre as [|p pre IH]; intros old x y; cbn; [reflexivity|].
  now rewrite IH.
Qed.

Lemma copyBasis_ok : forall fs pre old (s : store),
  sBasis s = pre ++ old -> length old = length fs ->
  Forall (fun f => length f = sNBasis s) fs ->
  copyBasis (length pre) fs s = Done (withBasis (pre ++ fs) s).
Proof.
  induction fs as [|f fs IH]; intros pre old s E L F; cbn [copyBasis].
  - destruct old; [|discriminate]. rewrite <- E. now destruct s.
  - destruct old as [|o old]; [discriminate|].
    inversion F as [|? ? F1 F2]; subst.
    unfold chk. rewrite F1, Nat.eqb_refl. cbn [andThen].
    rewrite E, setNth_app.
    replace (S (length pre)) with (length (pre ++ [f]))
      by (rewrite app_length; cbn; lia).
    rewrite (IH (pre ++ [f]) old).
    + rewrite <- app_assoc. reflexivity.
    + cbn. now rewrite <- app_assoc.
    + now injection L.
    + exact F2.
Qed.

Lemma copyRGrid_ok : forall fs pre old (s : store),
  sRGrid s = pre ++ old -> length old = length fs ->
  Forall (fun f => length f = sMeshSize s) fs ->
  copyRGrid (length pre) fs s = Done (withRGrid (pre ++ fs) s).
Proof.
  induction fs as [|f fs IH]; intros pre old s E L F; cbn [copyRGrid].
  - destruct old; [|discriminate]. rewrite <- E. now destruct s.
  - destruct old as [|o old]; [discriminate|].
    inversion F as [|? ? F1 F2]; subst.
    unfold chk. rewrite F1, Nat.eqb_refl. cbn [andThen].
    rewrite E, setNth_app.
    replace (S (length pre)) with (length (pre ++ [f]))
      by (rewrite app_length; cbn; lia).
    rewrite (IH (pre ++ [f]) old).
    + rewrite <- app_assoc. reflexivity.
    + cbn. now rewrite <- app_assoc.
    + now injection L.
    + exact F2.
Qed.

Lemma shaped_repeat : forall k l (x : A), shaped k l (repeat (repeat x l) k).
Proof.
  intros k l x. split; [apply repeat_length|].
  apply Forall_forall. intros f Hf. apply repeat_spec in Hf. subst.
  apply repeat_length.
Qed.

Lemma shape_true : forall k l (fs : list (list A)),
  shaped k l fs -> shape k l fs = true.
Proof.
  intros k l fs [L F]. unfold shape. rewrite L, Nat.eqb_refl. cbn.
  apply forallb_forall. intros f Hf. rewrite Forall_forall in F.
  apply Nat.eqb_eq. now apply F.
Qed.

Lemma shaped_toR : forall fs, shaped n nb fs -> shaped n m (map toR fs).
Proof.
  intros fs [L F]. split; [now rewrite map_length|].
  apply Forall_forall. intros f Hf. apply in_map_iff in Hf.
  destruct Hf as [g [<- Hg]]. apply toR_len. rewrite Forall_forall in F. auto.
Qed.

Lemma shaped_toB : forall fs, shaped n m fs -> shaped n nb (map toB fs).
Proof.
  intros fs [L F]. split; [now rewrite map_length|].
  apply Forall_forall. intros f Hf. apply in_map_iff in Hf.
  destruct Hf as [g [<- Hg]]. apply toB_len. rewrite Forall_forall in F. auto.
Qed.

Lemma ensureR_ok : forall s, wf s -> exists s',
  ensureR junk ctx s = Done s' /\ wf s' /\ sAllocR s' = true /\
  sAllocB s' = sAllocB s /\ sHasData s' = sHasData s /\ sNote s' = sNote s.
Proof.
  intros s W. pose proof W as (W1 & W2 & W3 & W4). unfold ensureR.
  destruct (sAllocR s) eqn:AR.
  - exists s. spl; auto.
  - assert (HD : sHasData s = false).
    { destruct (sHasData s); [|reflexivity]. discriminate (W4 eq_refl). }
    unfold allocateRGrid, chk. cbn [cMesh].
    destruct (Nat.ltb_spec 0 m); [|lia]. cbn [andThen].
    rewrite W1. destruct (Nat.ltb_spec 0 n); [|lia].
    cbn [andThen]. rewrite HD, AR. cbn [andThen negb].
    eexists. split; [reflexivity|]. unfold wf. cbn.
    spl; auto; intros; try (now apply W3).
    split; [reflexivity|]. rewrite W1. apply shaped_repeat.
Qed.

Lemma ensureB_ok : forall s, wf s ->
  sAllocB s = true \/ sHasData s = false -> exists s',
  ensureB junk ctx s = Done s' /\ wf s' /\ sAllocB s' = true /\
  sAllocR s' = sAllocR s /\ sHasData s' = sHasData s /\ sNote s' = sNote s /\
  sRGrid s' = sRGrid s.
Proof.
  intros s W C. pose proof W as (W1 & W2 & W3 & W4). unfold ensureB.
  destruct (sAllocB s) eqn:AB.
  - exists s. spl; auto.
  - assert (HD : sHasData s = false) by (destruct C; [discriminate|assumption]).
    unfold allocateBasis, chk. cbn [cBasis].
    rewrite W1. destruct (Nat.ltb_spec 0 n); [|lia].
    destruct (Nat.ltb_spec 0 nb); [|lia].
    cbn [andThen]. rewrite HD, AB. cbn [andThen negb].
    eexists. split; [reflexivity|]. unfold wf. cbn.
    spl; auto; intros; try (now apply W2); try congruence.
    split; [reflexivity|]. rewrite W1. apply shaped_repeat.
Qed.

(* The effect of one call on a container in which no earlier call is in the
   way. *)
Definition after (k : call A) (s s' : store) : Prop :=
  wf s' /\ sHasData s' = true /\ sIsSym s' = givesSym k /\
  sRGrid s' = gridOf toR k /\
  (givesSym k = true -> sAllocB s' = true /\ sBasis s' = map toB (sRGrid s')) /\
  sAllocB s' = (sAllocB s || givesSym k)%bool /\
  sNote s' = S (sNote s).

Lemma map_toB_toR : forall fs, Forall (fun f => length f = nb) fs ->
  map toB (map toR fs) = fs.
Proof.
  intros fs F. rewrite map_map. rewrite <- (map_id fs) at 2.
  apply map_ext_in. intros f Hf. apply toB_toR. rewrite Forall_forall in F. auto.
Qed.

Lemma shaped_len : forall k l (fs : list (list A)), shaped k l fs -> length fs = k.
Proof. now intros k l fs []. Qed.

Lemma call_ok : forall k s, wf s -> wellDim n m nb k ->
  givesSym k = false \/ sAllocB s = true \/ sHasData s = false ->
  exists s', runCall junk toR toB ctx k s = Done s' /\ after k s s'.
Proof.
  intros k s W D C. pose proof W as (W1 & _).
  destruct k as [fs|fs sym|f|f sym]; cbn [runCall].
  - (* setBasis *)
    cbn [wellDim givesSym] in *. destruct C as [C|C]; [discriminate|].
    destruct (ensureR_ok W) as (s1 & E1 & V1 & R1 & B1 & H1 & N1).
    assert (C1 : sAllocB s1 = true \/ sHasData s1 = false)
      by (rewrite B1, H1; exact C).
    destruct (ensureB_ok V1 C1) as (s2 & E2 & V2 & B2 & R2 & H2 & N2 & G2).
    unfold setBasis, chk. rewrite (shaped_len D), W1, Nat.eqb_refl.
    cbn [andThen]. rewrite E1. cbn [andThen]. rewrite E2. cbn [andThen].
    destruct V2 as (V21 & V22 & V23 & V24). destruct (V23 B2) as [Q1 Q2].
    change 0 with (length (@nil (list A))).
    rewrite (@copyBasis_ok fs [] (sBasis s2)).
    2: reflexivity. 2: now rewrite (shaped_len Q2), (shaped_len D).
    2: rewrite Q1; apply D.
    cbn [andThen app]. unfold convertToR, chk. cbn. rewrite R2, R1, B2. cbn.
    eexists. split; [reflexivity|]. unfold after, wf. cbn.
    destruct (V22 ltac:(congruence)) as [Q3 _].
    spl; auto; intros; auto; try congruence.
    + split; [exact Q3|]. now apply shaped_toR.
    + split; [exact B2|]. symmetry. apply map_toB_toR. apply D.
    + rewrite Bool.orb_true_r. exact B2.
  - (* setRGrid *)
    cbn [wellDim givesSym] in *.
    destruct (ensureR_ok W) as (s1 & E1 & V1 & R1 & B1 & H1 & N1).
    unfold setRGrid, chk. rewrite E1. cbn [andThen].
    pose proof V1 as (V11 & V12 & V13 & V14). destruct (V12 R1) as [Q1 Q2].
    rewrite V11, (shaped_len D), Nat.eqb_refl. cbn [andThen].
    change 0 with (length (@nil (list A))).
    rewrite (@copyRGrid_ok fs [] (sRGrid s1)).
    2: reflexivity. 2: now rewrite (shaped_len Q2), (shaped_len D).
    2: rewrite Q1; apply D.
    cbn [andThen app].
    assert (V3 : wf (withRGrid fs s1)).
    { unfold wf. cbn. spl; auto. }
    destruct sym.
    + destruct C as [C|C]; [discriminate|].
      assert (C1 : sAllocB (withRGrid fs s1) = true \/
                   sHasData (withRGrid fs s1) = false)
        by (cbn; rewrite B1, H1; exact C).
      destruct (ensureB_ok V3 C1) as (s2 & E2 & V2 & B2 & R2 & H2 & N2 & G2).
      rewrite E2. cbn [andThen]. unfold convertToB, chk.
      rewrite B2, R2. cbn [withRGrid sAllocR]. rewrite R1. cbn.
      cbn in G2, N2. destruct V2 as (V21 & V22 & V23 & V24).
      destruct (V23 B2) as [Q3 _]. rewrite R2 in V22. cbn in V22.
      destruct (V22 R1) as [Q4 _]. cbn in R2.
      eexists. split; [reflexivity|]. unfold after, wf. cbn. rewrite G2.
      spl; auto; intros; auto; try congruence.
      * split; [exact Q3|]. now apply shaped_toB.
      * rewrite Bool.orb_true_r. exact B2.
    + cbn. eexists. split; [reflexivity|]. unfold after, wf. cbn.
      spl; auto; intros; auto; try congruence.
      rewrite B1. now destruct (sAllocB s).
  - (* readBasis *)
    cbn [wellDim givesSym] in *. destruct C as [C|C]; [discriminate|].
    destruct D as (D1 & D2 & D3 & D4).
    destruct (ensureR_ok W) as (s1 & E1 & V1 & R1 & B1 & H1 & N1).
    assert (C1 : sAllocB s1 = true \/ sHasData s1 = false)
      by (rewrite B1, H1; exact C).
    destruct (ensureB_ok V1 C1) as (s2 & E2 & V2 & B2 & R2 & H2 & N2 & G2).
    unfold readBasis, chk. rewrite W1, D1, D2, Nat.eqb_refl. cbn [cMesh cBasis].
    destruct (Nat.ltb_spec 0 m); [|lia]. destruct (Nat.ltb_spec 0 n); [|lia].
    cbn [andThen]. rewrite E1. cbn [andThen]. rewrite E2. cbn [andThen].
    destruct V2 as (V21 & V22 & V23 & V24). destruct (V23 B2) as [Q1 Q2].
    unfold readDataB. rewrite D3, V21, Q1, (shape_true D4). cbn [andb andThen].
    unfold convertToR, chk. cbn. rewrite R2, R1, B2. cbn.
    eexists. split; [reflexivity|]. unfold after, wf. cbn.
    destruct (V22 ltac:(congruence)) as [Q3 _].
    spl; auto; intros; auto; try congruence.
    + split; [exact Q3|]. now apply shaped_toR.
    + split; [exact B2|]. symmetry. apply map_toB_toR. apply D4.
    + rewrite Bool.orb_true_r. exact B2.
  - (* readRGrid *)
    cbn [wellDim givesSym] in *. destruct D as (D1 & D3 & D4).
    destruct (ensureR_ok W) as (s1 & E1 & V1 & R1 & B1 & H1 & N1).
    unfold readRGrid, chk. rewrite W1. destruct (Nat.ltb_spec 0 n); [|lia].
    cbn [andThen]. rewrite E1. cbn [andThen].
    pose proof V1 as (V11 & V12 & V13 & V14). destruct (V12 R1) as [Q1 Q2].
    rewrite D1, V11, Nat.eqb_refl. cbn [andThen].
    unfold readDataR. rewrite D3, V11, Q1, (shape_true D4). cbn [andb andThen].
    assert (V3 : wf (withRGrid (fData f) s1)).
    { unfold wf. cbn. spl; auto. }
    destruct sym.
    + destruct C as [C|C]; [discriminate|]. cbn [cBasis andThen].
      assert (C1 : sAllocB (withRGrid (fData f) s1) = true \/
                   sHasData (withRGrid (fData f) s1) = false)
        by (cbn; rewrite B1, H1; exact C).
      destruct (ensureB_ok V3 C1) as (s2 & E2 & V2 & B2 & R2 & H2 & N2 & G2).
      rewrite E2. cbn [andThen]. unfold convertToB, chk.
      rewrite B2, R2. cbn [withRGrid sAllocR]. rewrite R1. cbn.
      cbn in G2, N2. destruct V2 as (V21 & V22 & V23 & V24).
      destruct (V23 B2) as [Q3 _]. rewrite R2 in V22. cbn in V22.
      destruct (V22 R1) as [Q4 _]. cbn in R2.
      eexists. split; [reflexivity|]. unfold after, wf. cbn. rewrite G2.
      spl; auto; intros; auto; try congruence.
      * split; [exact Q3|]. now apply shaped_toB.
      * rewrite Bool.orb_true_r. exact B2.
    + cbn. eexists. split; [reflexivity|]. unfold after, wf. cbn.
      spl; auto; intros; auto; try congruence.
      rewrite B1. now destruct (sAllocB s).
Qed.

(* A symmetric call after data was stored without a basis is refused. *)
Lemma call_refused : forall k s, wf s -> wellDim n m nb k ->
  givesSym k = true -> sAllocB s = false -> sHasData s = true ->
  exists s', runCall junk toR toB ctx k s = Raise s'.
Proof.
  intros k s W D G AB HD. pose proof W as (W1 & W2 & W3 & W4).
  specialize (W4 HD). destruct (W2 W4) as [Q1 Q2].
  assert (EB : forall s : store, sAllocB s = false -> sHasData s = true ->
            exists s', ensureB junk ctx s = Raise s').
  { intros t T1 T2. unfold ensureB, allocateBasis, chk. rewrite T1. cbn [cBasis].
    destruct (0 <? sNMon t); cbn [andThen]; [|eauto].
    destruct (0 <? nb); cbn [andThen]; [|eauto].
    try rewrite T1. cbn [negb andThen]. try rewrite T2. cbn. eauto. }
  assert (ER : ensureR junk ctx s = Done s) by (unfold ensureR; now rewrite W4).
  destruct k as [fs|fs sym|f|f sym]; cbn [runCall givesSym wellDim] in *.
  - unfold setBasis, chk. rewrite W1, (shaped_len D), Nat.eqb_refl.
    cbn [andThen]. rewrite ER. cbn [andThen].
    destruct (EB s AB HD) as [s' E]. rewrite E. cbn. eauto.
  - subst. unfold setRGrid, chk. rewrite ER. cbn [andThen].
    rewrite W1, (shaped_len D), Nat.eqb_refl. cbn [andThen].
    change 0 with (length (@nil (list A))).
    rewrite (@copyRGrid_ok fs [] (sRGrid s)).
    2: reflexivity. 2: now rewrite (shaped_len Q2), (shaped_len D).
    2: rewrite Q1; apply D.
    cbn [andThen app].
    destruct (EB (withRGrid fs s) AB HD) as [s' E]. rewrite E. cbn. eauto.
  - destruct D as (D1 & D2 & D3 & D4).
    unfold readBasis, chk. rewrite W1, D1, D2, Nat.eqb_refl. cbn [cMesh cBasis].
    destruct (Nat.ltb_spec 0 m); [|lia]. destruct (Nat.ltb_spec 0 n); [|lia].
    cbn [andThen]. rewrite ER. cbn [andThen].
    destruct (EB s AB HD) as [s' E]. rewrite E. cbn. eauto.
  - subst. destruct D as (D1 & D3 & D4).
    unfold readRGrid, chk. rewrite W1. destruct (Nat.ltb_spec 0 n); [|lia].
    cbn [andThen]. rewrite ER. cbn [andThen].
    rewrite D1, W1, Nat.eqb_refl. cbn [andThen].
    unfold readDataR. rewrite D3, W1, Q1, (shape_true D4). cbn [andb andThen cBasis].
    destruct (EB (withRGrid (fData f) s) AB HD) as [s' E]. rewrite E. cbn. eauto.
Qed.

(* A container whose r-grid and basis arrays have been allocated, as
   SystemTmpl does for w before any field is set. *)
Definition allocated (s : store) : Prop := wf s /\ sAllocB s = true.

(* The state reached after at least one call: data is reported; the r-grid
   values are those given by the last call; when symmetry is reported the
   two representations are of the same field; observers were notified once
   per call. *)
Definition consistent (s0 s : store) (ks : list (call A)) : Prop :=
  sHasData s = true /\
  sRGrid s = gridOf toR (last ks (CSetBasis [])) /\
  sIsSym s = givesSym (last ks (CSetBasis [])) /\
  (sIsSym s = true -> sRGrid s = map toR (sBasis s)) /\
  sNote s = sNote s0 + length ks.

Lemma runCalls_app : forall c ks1 ks2 (s : store),
  runCalls junk toR toB c (ks1 ++ ks2) s =
  (runCalls junk toR toB c ks1 s >>> runCalls junk toR toB c ks2).
Proof.
  intros c. induction ks1 as [|k ks1 IH]; intros ks2 s; cbn [runCalls app andThen];
    [reflexivity|].
  destruct (runCall junk toR toB c k s); cbn [andThen]; auto.
Qed.

Lemma after_consistent : forall k s0 s s' ks,
  honest toR toB k -> sNote s = sNote s0 + length ks -> after k s s' ->
  consistent s0 s' (ks ++ [k]).
Proof.
  intros k s0 s s' ks Ho N (_ & P1 & P2 & P3 & P4 & P5 & P6).
  unfold consistent. rewrite last_last, app_length. cbn.
  spl; auto; [|lia].
  intro S. rewrite P2 in S. destruct (P4 S) as [_ ->].
  rewrite P3. symmetry. now apply Ho.
Qed.

(* General step: calls that are all acceptable. *)
Lemma calls_ok : forall ks s, wf s ->
  Forall (wellDim n m nb) ks -> Forall (honest toR toB) ks ->
  (sAllocB s = true \/ forallb (fun k => negb (givesSym k)) ks = true \/
   (sHasData s = false /\ exists k ks', ks = k :: ks' /\ givesSym k = true)) ->
  exists s', runCalls junk toR toB ctx ks s = Done s' /\ wf s' /\
    (ks <> [] -> consistent s s' ks).
Proof.
  intros ks. pattern ks. apply rev_ind; clear ks.
  - intros s W _ _ _. exists s. now spl; try apply W.
  - intros k ks IH s W D Ho C.
    apply Forall_app in D. destruct D as [D1 D2].
    apply Forall_app in Ho. destruct Ho as [Ho1 Ho2].
    inversion D2 as [|? ? D3 _]; subst. inversion Ho2 as [|? ? Ho3 _]; subst.
    destruct ks as [|k0 ks].
    + cbn [app runCalls] in *.
      assert (C' : givesSym k = false \/ sAllocB s = true \/ sHasData s = false).
      { destruct C as [C|[C|[C _]]]; auto. cbn in C.
        rewrite Bool.andb_true_r in C. apply negb_true_iff in C. auto. }
      destruct (@call_ok k s W D3 C') as (s' & E & P).
      exists s'. rewrite E. cbn [andThen]. split; [reflexivity|].
      split; [apply P|]. intros _.
      apply (@after_consistent k s s s' []); auto.
    + assert (C0 : sAllocB s = true \/
         forallb (fun k => negb (givesSym k)) (k0 :: ks) = true \/
         (sHasData s = false /\
          exists k ks', k0 :: ks = k :: ks' /\ givesSym k = true)).
      { destruct C as [C|[C|(C & k1 & ks1 & E & G)]]; auto.
        - rewrite forallb_app in C. apply andb_true_iff in C. tauto.
        - right. right. split; auto. injection E as E2 E3. subst k1. eauto. }
      destruct (IH s W D1 Ho1 C0) as (s1 & E1 & W1 & K1).
      specialize (K1 ltac:(discriminate)).
      (* the basis is allocated in s1 unless no call is symmetric *)
      assert (C' : givesSym k = false \/ sAllocB s1 = true \/ sHasData s1 = false).
      { clear IH K1. revert s W C C0 E1. intros s W C C0 E1.
        assert (G : forall ks (s s1 : store), wf s -> Forall (wellDim n m nb) ks ->
                   sAllocB s = true -> runCalls junk toR toB ctx ks s = Done s1 ->
                   sAllocB s1 = true).
        { clear - Hn Hm Hnb toR_len toB_len toB_toR.
          induction ks as [|k ks IH]; intros s s1 W D AB E; cbn [runCalls] in E.
          - injection E as <-. exact AB.
          - inversion D as [|? ? D1 D2]; subst.
            destruct (@call_ok k s W D1 ltac:(auto)) as (s2 & E2 & P).
            rewrite E2 in E. cbn [andThen] in E.
            apply (IH s2 s1); auto; [apply P|].
            destruct P as (_ & _ & _ & _ & _ & P & _). rewrite P, AB. reflexivity. }
        destruct C as [C|[C|(C & k1 & ks1 & E & Gs)]].
        - right. left. apply (G (k0 :: ks) s); auto.
        - left. rewrite forallb_app in C. apply andb_true_iff in C.
          destruct C as [_ C]. cbn in C. rewrite Bool.andb_true_r in C.
          now apply negb_true_iff in C.
        - right. left. injection E as Ea Eb. subst k1.
          inversion D1 as [|? ? D4 D5]; subst.
          destruct (@call_ok k0 s W D4 ltac:(auto)) as (s2 & E2 & P).
          cbn [runCalls] in E1. rewrite E2 in E1. cbn [andThen] in E1.
          apply (G ks s2); auto; [apply P|].
          destruct P as (_ & _ & _ & _ & _ & P & _). rewrite P, Gs.
          apply Bool.orb_true_r. }
      destruct (@call_ok k s1 W1 D3 C') as (s' & E & P).
      exists s'. rewrite runCalls_app, E1. cbn [andThen runCalls]. rewrite E.
      cbn [andThen]. split; [reflexivity|]. split; [apply P|]. intros _.
      apply (@after_consistent k s s1 s'); auto. apply K1.
Qed.

(* C29 for a container whose arrays were allocated beforehand: every
   sequence of correctly dimensioned calls is accepted and leaves consistent
   data. *)
Theorem wfields_any_order_when_allocated : forall ks s, allocated s ->
  Forall (wellDim n m nb) ks -> Forall (honest toR toB) ks ->
  exists s', runCalls junk toR toB ctx ks s = Done s' /\ allocated s' /\
    (ks <> [] -> consistent s s' ks).
Proof.
  intros ks s [W AB] D Ho.
  destruct (@calls_ok ks s W D Ho (or_introl AB)) as (s' & E & W' & K).
  exists s'. split; [exact E|]. split; [|exact K]. split; [exact W'|].
  clear K. revert s W AB E. induction ks as [|k ks IH]; intros s W AB E;
    cbn [runCalls] in E; [now injection E as <-|].
  inversion D as [|? ? D1 D2]; subst. inversion Ho as [|? ? H1 H2]; subst.
  destruct (@call_ok k s W D1 ltac:(auto)) as (s2 & E2 & P).
  rewrite E2 in E. cbn [andThen] in E.
  apply (IH D2 H2 s2); auto; [apply P|].
  destruct P as (_ & _ & _ & _ & _ & P & _). rewrite P, AB. reflexivity.
Qed.

(* A container that has been told the number of monomer types and nothing
   else. *)
Definition fresh (s : store) : Prop :=
  sNMon s = n /\ sAllocR s = false /\ sAllocB s = false /\ sHasData s = false.

Lemma fresh_wf : forall s, fresh s -> wf s.
Proof. intros s (F1 & F2 & F3 & F4). unfold wf. spl; auto; congruence. Qed.

(* C29 for a container on which nothing has been allocated: exactly which
   sequences of correctly dimensioned calls are accepted. *)
Theorem wfields_fresh_accepts_iff : forall ks s, fresh s ->
  Forall (wellDim n m nb) ks -> Forall (honest toR toB) ks ->
  ((exists s', runCalls junk toR toB ctx ks s = Done s') <->
   (forall k ks', ks = k :: ks' ->
      givesSym k = true \/ Forall (fun k => givesSym k = false) ks')).
Proof.
  intros ks s F D Ho. pose proof (fresh_wf F) as W.
  destruct F as (F1 & F2 & F3 & F4). split.
  - intros [s' E] k ks' ->. destruct (givesSym k) eqn:G; [auto|right].
    inversion D as [|? ? D1 D2]; subst. cbn [runCalls] in E.
    destruct (@call_ok k s W D1 ltac:(auto)) as (s1 & E1 & P).
    rewrite E1 in E. cbn [andThen] in E.
    destruct P as (W1 & P1 & _ & _ & _ & P2 & _). rewrite F3, G in P2. cbn in P2.
    clear E1 W F1 F2 F3 F4 G D Ho D1 k s.
    revert s1 W1 P1 P2 E. induction ks' as [|k ks' IH]; intros s W HD AB E; [constructor|].
    inversion D2 as [|? ? D3 D4]; subst. cbn [runCalls] in E.
    destruct (givesSym k) eqn:G.
    + destruct (@call_refused k s W D3 G AB HD) as (s1 & E1).
      rewrite E1 in E. discriminate.
    + constructor; [exact G|].
      destruct (@call_ok k s W D3 ltac:(auto)) as (s1 & E1 & P).
      rewrite E1 in E. cbn [andThen] in E.
      destruct P as (W1 & P1 & _ & _ & _ & P3 & _). rewrite AB, G in P3. cbn in P3.
      apply (IH D4 s1); auto.
  - intros H. destruct ks as [|k ks].
    + exists s. reflexivity.
    + destruct (@calls_ok (k :: ks) s W D Ho) as (s' & E & _); [|eauto].
      destruct (givesSym k) eqn:G.
      * right. right. split; auto. eauto.
      * right. left. destruct (H k ks eq_refl) as [H'|H']; [congruence|].
        cbn. rewrite G. cbn. apply forallb_forall. intros x Hx.
        rewrite Forall_forall in H'. rewrite (H' x Hx). reflexivity.
Qed.

(* ------------------------------------------------------------------ *)
(* Mask *)

Lemma shaped1 : forall l (fs : list (list A)), shaped 1 l fs ->
  exists f, fs = [f] /\ length f = l.
Proof.
  intros l fs [L F]. destruct fs as [|f [|g fs]]; try discriminate.
  inversion F; subst. eauto.
Qed.

Lemma shaped1_intro : forall l (f : list A), length f = l -> shaped 1 l [f].
Proof. intros l f L. split; auto. Qed.

Definition mwf (s : store) : Prop :=
  sNMon s = 1 /\
  (sAllocR s = true -> sMeshSize s = m /\ shaped 1 m (sRGrid s)) /\
  (sAllocB s = true -> sNBasis s = nb /\ shaped 1 nb (sBasis s)) /\
  (sHasData s = true -> sAllocR s = true).

Definition mafter (k : call A) (s s' : store) : Prop :=
  mwf s' /\ sHasData s' = true /\ sIsSym s' = givesSym k /\
  sRGrid s' = gridOf toR k /\
  (givesSym k = true -> sBasis s' = map toB (sRGrid s')) /\
  sNote s' = S (sNote s).

Lemma mEnsureR_ok : forall s, mwf s -> exists s',
  mEnsureR junk ctx s = Done s' /\ mwf s' /\ sAllocR s' = true /\
  sNote s' = sNote s.
Proof.
  intros s W. pose proof W as (W1 & W2 & W3 & W4). unfold mEnsureR.
  destruct (sAllocR s) eqn:AR.
  - exists s. spl; auto.
  - unfold mAllocateRGrid, chk. cbn [cMesh].
    destruct (Nat.ltb_spec 0 m); [|lia]. cbn [andThen]. rewrite AR. cbn [andThen negb].
    eexists. split; [reflexivity|]. unfold mwf. cbn.
    spl; auto; intros; try (now apply W3).
    split; [reflexivity|]. apply shaped1_intro. apply repeat_length.
Qed.

Lemma mEnsureB_ok : forall s, mwf s -> exists s',
  mEnsureB junk ctx s = Done s' /\ mwf s' /\ sAllocB s' = true /\
  sAllocR s' = sAllocR s /\ sNote s' = sNote s /\ sRGrid s' = sRGrid s.
Proof.
  intros s W. pose proof W as (W1 & W2 & W3 & W4). unfold mEnsureB.
  destruct (sAllocB s) eqn:AB.
  - exists s. spl; auto.
  - unfold mAllocateBasis, chk. cbn [cBasis]. rewrite AB. cbn [andThen negb].
    eexists. split; [reflexivity|]. unfold mwf. cbn.
    spl; auto; intros; try (now apply W2).
    split; [reflexivity|]. apply shaped1_intro. apply repeat_length.
Qed.

Lemma mask_call_ok : forall k s, mwf s -> wellDim 1 m nb k ->
  exists s', runMaskCall junk toR toB ctx k s = Done s' /\ mafter k s s'.
Proof.
  intros k s W D.
  destruct (mEnsureR_ok W) as (s1 & E1 & V1 & R1 & N1).
  destruct (mEnsureB_ok V1) as (s2 & E2 & V2 & B2 & R2 & N2 & G2).
  destruct k as [fs|fs sym|f|f sym]; cbn [runMaskCall wellDim givesSym] in *.
  - destruct (shaped1 D) as (f & -> & L). cbn [nth].
    unfold mSetBasis. rewrite E1. cbn [andThen]. rewrite E2. cbn [andThen].
    destruct V2 as (V21 & V22 & V23 & V24). destruct (V23 B2) as [Q1 Q2].
    unfold chk. rewrite Q1, L, Nat.eqb_refl. cbn [andThen].
    unfold convertToR, chk. cbn. rewrite R2, R1, B2. cbn.
    eexists. split; [reflexivity|]. unfold mafter, mwf. cbn.
    destruct (V22 ltac:(congruence)) as [Q3 _].
    spl; auto; intros; auto; try congruence.
    + split; [exact Q3|]. apply shaped1_intro. now apply toR_len.
    + now rewrite toB_toR.
  - destruct (shaped1 D) as (f & -> & L). cbn [nth].
    unfold mSetRGrid. rewrite E1. cbn [andThen].
    pose proof V1 as (V11 & V12 & V13 & V14). destruct (V12 R1) as [Q1 Q2].
    unfold chk. rewrite Q1, L, Nat.eqb_refl. cbn [andThen].
    assert (V3 : mwf (withRGrid [f] s1)).
    { unfold mwf. cbn. spl; auto. }
    destruct sym.
    + destruct (mEnsureB_ok V3) as (s3 & E3 & V4 & B3 & R3 & N3 & G3).
      rewrite E3. cbn [andThen]. unfold convertToB, chk.
      rewrite B3, R3. cbn [withRGrid sAllocR]. rewrite R1. cbn.
      cbn in G3, N3, R3. destruct V4 as (V41 & V42 & V43 & V44).
      destruct (V43 B3) as [Q3 _]. rewrite R3 in V42.
      destruct (V42 R1) as [Q4 _].
      eexists. split; [reflexivity|]. unfold mafter, mwf. cbn. rewrite G3.
      spl; auto; intros; auto; try congruence.
      split; [exact Q3|]. cbn. apply shaped1_intro. now apply toB_len.
    + cbn. eexists. split; [reflexivity|]. unfold mafter, mwf. cbn.
      spl; auto; intros; auto; try congruence.
  - destruct D as (D1 & D2 & D3 & D4).
    unfold mReadBasis, chk. rewrite D1, D2. cbn [cMesh cBasis Nat.eqb].
    destruct (Nat.ltb_spec 0 m); [|lia]. cbn [andThen].
    rewrite E1. cbn [andThen]. rewrite E2. cbn [andThen].
    destruct V2 as (V21 & V22 & V23 & V24). destruct (V23 B2) as [Q1 Q2].
    unfold readDataB. rewrite D3, V21, Q1, (shape_true D4). cbn [andb andThen].
    unfold convertToR, chk. cbn. rewrite R2, R1, B2. cbn.
    eexists. split; [reflexivity|]. unfold mafter, mwf. cbn.
    destruct (V22 ltac:(congruence)) as [Q3 _].
    destruct (shaped1 D4) as (g & -> & L). cbn [map].
    spl; auto; intros; auto; try congruence.
    + split; [exact Q3|]. apply shaped1_intro. now apply toR_len.
    + split; [exact Q1|]. now apply shaped1_intro.
    + now rewrite toB_toR.
  - destruct D as (D1 & D3 & D4).
    unfold mReadRGrid. rewrite E1. cbn [andThen].
    pose proof V1 as (V11 & V12 & V13 & V14). destruct (V12 R1) as [Q1 Q2].
    unfold chk. rewrite D1, Nat.eqb_refl. cbn [andThen].
    unfold readDataR. rewrite D3, V11, Q1, (shape_true D4). cbn [andb andThen].
    assert (V3 : mwf (withRGrid (fData f) s1)).
    { unfold mwf. cbn. spl; auto. }
    destruct sym.
    + destruct (mEnsureB_ok V3) as (s3 & E3 & V4 & B3 & R3 & N3 & G3).
      rewrite E3. cbn [andThen]. unfold convertToB, chk.
      rewrite B3, R3. cbn [withRGrid sAllocR]. rewrite R1. cbn.
      cbn in G3, N3, R3. destruct V4 as (V41 & V42 & V43 & V44).
      destruct (V43 B3) as [Q3 _]. rewrite R3 in V42.
      destruct (V42 R1) as [Q4 _].
      destruct (shaped1 D4) as (g & Eg & L).
      eexists. split; [reflexivity|]. unfold mafter, mwf. cbn. rewrite G3.
      spl; auto; intros; auto; try congruence.
      split; [exact Q3|]. rewrite Eg. apply shaped1_intro. now apply toB_len.
    + cbn. eexists. split; [reflexivity|]. unfold mafter, mwf. cbn.
      spl; auto; intros; auto; try congruence.
Qed.

(* C29 for the mask: any sequence of correctly dimensioned calls on any
   mask, allocated or not, is accepted and leaves consistent data. *)
Theorem mask_any_order : forall ks s, mwf s ->
  Forall (wellDim 1 m nb) ks -> Forall (honest toR toB) ks ->
  exists s', runMaskCalls junk toR toB ctx ks s = Done s' /\ mwf s' /\
    (ks <> [] -> consistent s s' ks).
Proof.
  induction ks as [|k ks IH]; intros s W D Ho.
  - exists s. spl; auto. congruence.
  - inversion D as [|? ? D1 D2]; subst. inversion Ho as [|? ? H1 H2]; subst.
    destruct (@mask_call_ok k s W D1) as (s1 & E1 & P).
    cbn [runMaskCalls]. rewrite E1. cbn [andThen].
    destruct P as (W1 & P1 & P2 & P3 & P4 & P5).
    destruct (IH s1 W1 D2 H2) as (s' & E & W' & K).
    exists s'. split; [exact E|]. split; [exact W'|]. intros _.
    destruct ks as [|k2 ks].
    + cbn [runMaskCalls] in E. injection E as <-.
      unfold consistent. cbn. spl; auto; [|lia].
      intro S. rewrite P2 in S. rewrite (P4 S), P3. symmetry. now apply H1.
    + specialize (K ltac:(discriminate)). unfold consistent in *.
      destruct K as (K1 & K2 & K3 & K4 & K5).
      change (last (k :: k2 :: ks) (CSetBasis [])) with
             (last (k2 :: ks) (CSetBasis (A:=A) [])).
      spl; auto.
      rewrite K5, P5. cbn. lia.
Qed.

(* symmetrize() restores consistency whatever the grid data were. *)
Theorem symmetrize_consistent : forall (s s' : store),
  symmetrize toR toB s = Done s' ->
  sIsSym s' = true /\ sRGrid s' = map toR (sBasis s') /\
  sBasis s' = map toB (sRGrid s).
Proof.
  intros s s' E. unfold symmetrize, chk in E.
  destruct (sHasData s); [|discriminate]. cbn [andThen] in E.
  unfold convertToB, convertToR, chk in E.
  destruct (sAllocR s && sAllocB s)%bool eqn:Q; [|discriminate].
  cbn [andThen] in E. cbn [withBasis sAllocR sAllocB] in E. rewrite Q in E.
  injection E as <-. cbn. auto.
Qed.

End Proofs.

Print Assumptions wfields_any_order_when_allocated.
Print Assumptions wfields_fresh_accepts_iff.
Print Assumptions mask_any_order.

(* ------------------------------------------------------------------ *)
(* A concrete instance: a one-dimensional mesh of 4 points with the
   inversion x -> -x, for which a symmetric field is (f0, f1, f2, f1).  The
   three basis components are taken here to be the average, and two
   independent differences; values are integers. *)
Section Instance.
Open Scope R_scope.
Definition toR4 (b : list R) : list R :=
  [nth 0 b 0 + nth 1 b 0 + nth 2 b 0; nth 0 b 0 - nth 2 b 0;
   nth 0 b 0 - nth 1 b 0 + nth 2 b 0; nth 0 b 0 - nth 2 b 0].
Definition toB4 (r : list R) : list R :=
  [(nth 0 r 0 + nth 1 r 0 + nth 2 r 0 + nth 3 r 0) / 4;
   (nth 0 r 0 - nth 2 r 0) / 2;
   (nth 0 r 0 - nth 1 r 0 + nth 2 r 0 - nth 3 r 0) / 4].

Lemma toR4_len : forall b, length b = 3%nat -> length (toR4 b) = 4%nat.
Proof. reflexivity. Qed.
Lemma toB4_len : forall r, length r = 4%nat -> length (toB4 r) = 3%nat.
Proof. reflexivity. Qed.
Lemma toB4_toR4 : forall b, length b = 3%nat -> toB4 (toR4 b) = b.
Proof.
  intros [|x [|y [|z [|]]]] L; try discriminate.
  unfold toB4, toR4. cbn. repeat f_equal; field.
Qed.

Notation ctx4 := (mkCtx 4 (Some 3%nat)).
Notation run4 := (runCalls 0 toR4 toB4 ctx4).
Notation store0 := (withNMon 2 (newStore R)).

(* grid data for two monomer types, not symmetric *)
Definition asym2 : list (list R) := [[1; 2; 3; 4]; [0; 1; 0; 0]].
(* basis data for two monomer types *)
Definition sym2 : list (list R) := [[1; 2; 3]; [4; 5; 6]].

(* C29 is false of the w container: two correctly dimensioned calls, the
   second of which throws because of the first. *)
Theorem wfields_any_order_refuted : exists s1 s2,
  wellDim 2 4 3 (CSetRGrid asym2 false) /\ wellDim 2 4 3 (CSetBasis sym2) /\
  run4 [CSetBasis sym2] store0 = Done s1 /\
  run4 [CSetRGrid asym2 false; CSetBasis sym2] store0 = Raise s2.
Proof.
  eexists. eexists. split.
  { split; [reflexivity|]. repeat constructor. }
  split.
  { split; [reflexivity|]. repeat constructor. }
  split; reflexivity.
Qed.

Definition calls3 : list (call R) :=
  [CSetRGrid asym2 false; CSetBasis sym2; CSetRGrid (map toR4 sym2) true].

(* The calls satisfy the hypotheses of the theorems above. *)
Example calls_hypotheses :
  Forall (wellDim 2 4 3) calls3 /\ Forall (honest toR4 toB4) calls3.
Proof.
  split.
  - repeat constructor; unfold wellDim, shaped; cbn; repeat constructor.
  - constructor; [discriminate|].
    assert (E : map toB4 (map toR4 sym2) = sym2)
      by (apply (@map_toB_toR R toR4 toB4 3 toB4_toR4); repeat constructor).
    constructor; [|constructor; [|constructor]]; intros _; cbn [gridOf];
      now rewrite E.
Qed.

(* An allocated container accepts them. *)
Example any_order_example : exists s0 s',
  allocateRGrid 0 4 store0 >>> allocateBasis 0 3 = Done s0 /\
  allocated 2 4 3 s0 /\ run4 calls3 s0 = Done s' /\
  sHasData s' = true /\ sIsSym s' = true /\
  sRGrid s' = map toR4 sym2 /\ sNote s' = 3%nat.
Proof.
  eexists. assert (W : forall s0, allocateRGrid 0 4 store0 >>> allocateBasis 0 3 =
                        Done s0 -> allocated 2 4 3 s0 /\ sNote s0 = 0%nat).
  { intros s0 E. injection E as <-. split; [|reflexivity].
    unfold allocated, wf. cbn. spl; auto; intros _;
      (split; [reflexivity|]; split; [reflexivity|]; repeat constructor). }
  specialize (W _ eq_refl). destruct W as [W N].
  destruct calls_hypotheses as [H1 H2].
  destruct (@wfields_any_order_when_allocated R 0 toR4 toB4 2 4 3
              ltac:(lia) ltac:(lia) ltac:(lia) toR4_len toB4_len toB4_toR4
              calls3 _ W H1 H2) as (s' & E & W' & K).
  exists s'. split; [reflexivity|]. split; [exact W|]. split; [exact E|].
  destruct K as (K1 & K2 & K3 & K4 & K5); [discriminate|].
  rewrite N in K5. spl; assumption.
Qed.

(* A call that fails half way can leave a container that reports symmetric
   data while the two representations differ: the first component is copied
   before the second is found to have the wrong length. *)
Theorem failed_setBasis_consistent_refuted : exists s1 s2,
  run4 [CSetBasis sym2] store0 = Done s1 /\
  setBasis 0 toR4 ctx4 [[7; 8; 9]; [1]] s1 = Raise s2 /\
  sHasData s2 = true /\ sIsSym s2 = true /\
  sRGrid s2 <> map toR4 (sBasis s2).
Proof.
  eexists. eexists. split; [cbn -[toR4 toB4]; reflexivity|].
  split; [cbn -[toR4 toB4]; reflexivity|].
  split; [reflexivity|]. split; [reflexivity|].
  cbn. intro E. injection E. lra.
Qed.

(* The isSymmetric argument is trusted: a field that has not the symmetry is
   accepted, and reported as symmetric with two different representations. *)
Theorem dishonest_setRGrid_consistent_refuted : exists s1,
  wellDim 2 4 3 (CSetRGrid asym2 true) /\
  run4 [CSetRGrid asym2 true] store0 = Done s1 /\
  sIsSym s1 = true /\ sRGrid s1 <> map toR4 (sBasis s1).
Proof.
  eexists. split; [split; [reflexivity|]; repeat constructor|].
  split; [cbn -[toR4 toB4]; reflexivity|]. split; [reflexivity|].
  cbn. intro E. injection E. lra.
Qed.

Example symmetrize_example : forall a b c d e f g h : R, exists s1 s2,
  run4 [CSetRGrid [[a; b; c; d]; [e; f; g; h]] true] store0 = Done s1 /\
  symmetrize toR4 toB4 s1 = Done s2.
Proof.
  intros. eexists. eexists. split; [cbn -[toR4 toB4]; reflexivity|].
  cbn -[toR4 toB4]. reflexivity.
Qed.

(* mask: r-grid first, then basis, on an unallocated mask *)
Example mask_example : exists s',
  runMaskCalls 0 toR4 toB4 ctx4
    [CSetRGrid [[1; 2; 3; 4]] false; CSetBasis [[1; 2; 3]]] (newMask R) = Done s' /\
  mwf 4 3 (newMask R).
Proof.
  eexists. split; [reflexivity|]. unfold mwf. cbn. spl; auto; discriminate.
Qed.
End Instance.

Print Assumptions wfields_any_order_refuted.
Print Assumptions failed_setBasis_consistent_refuted.
Print Assumptions dishonest_setRGrid_consistent_refuted.
Print Assumptions symmetrize_consistent.
