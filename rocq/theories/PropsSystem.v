(* C30, C31, C32: data reported as available belong to the current state. *)
From Coq Require Import List Arith Bool Lia.
From Verif Require Import FieldStore System.
Import ListNotations.
Set Implicit Arguments.

Lemma andThen_done : forall S (r : res S) f y,
  r >>> f = Done y -> exists z, r = Done z /\ f z = Done y.
Proof. intros S [z|z|] f y E; cbn in E; try discriminate. eauto. Qed.

Lemma chk_done : forall S b (s y : S), chk b s = Done y -> b = true /\ y = s.
Proof. intros S [] s y E; cbn in E; [injection E as ->; auto|discriminate]. Qed.

Ltac inv_done :=
  repeat match goal with
  | H : _ >>> _ = Done _ |- _ =>
      let z := fresh "z" in let E := fresh "E" in
      apply andThen_done in H; destruct H as (z & E & H)
  | H : chk _ _ = Done _ |- _ =>
      let B := fresh "B" in apply chk_done in H; destruct H as [B ->]
  | H : Done _ = Done _ |- _ => injection H as <-
  | H : Raise _ = Done _ |- _ => discriminate H
  | H : Undef = Done _ |- _ => discriminate H
  end.

(* Every field-setting call that returns normally notifies the observers. *)
Section Notify.
Variable A : Type.
Variable junk : A.
Variables toR toB : list A -> list A.
Notation store := (store A).

Lemma allocateRGrid_note : forall n (s s' : store),
  allocateRGrid junk n s = Done s' -> sNote s' = sNote s.
Proof. intros n s s' E. unfold allocateRGrid in E. inv_done. reflexivity. Qed.
Lemma allocateBasis_note : forall n (s s' : store),
  allocateBasis junk n s = Done s' -> sNote s' = sNote s.
Proof. intros n s s' E. unfold allocateBasis in E. inv_done. reflexivity. Qed.
Lemma mAllocateRGrid_note : forall n (s s' : store),
  mAllocateRGrid junk n s = Done s' -> sNote s' = sNote s.
Proof. intros n s s' E. unfold mAllocateRGrid in E. inv_done. reflexivity. Qed.
Lemma mAllocateBasis_note : forall n (s s' : store),
  mAllocateBasis junk n s = Done s' -> sNote s' = sNote s.
Proof. intros n s s' E. unfold mAllocateBasis in E. inv_done. reflexivity. Qed.
Lemma ensureR_note : forall c (s s' : store),
  ensureR junk c s = Done s' -> sNote s' = sNote s.
Proof.
  intros c s s' E. unfold ensureR in E. destruct (sAllocR s); inv_done; auto.
  eapply allocateRGrid_note; eauto.
Qed.
Lemma mEnsureR_note : forall c (s s' : store),
  mEnsureR junk c s = Done s' -> sNote s' = sNote s.
Proof.
  intros c s s' E. unfold mEnsureR in E. destruct (sAllocR s); inv_done; auto.
  eapply mAllocateRGrid_note; eauto.
Qed.
Lemma ensureB_note : forall c (s s' : store),
  ensureB junk c s = Done s' -> sNote s' = sNote s.
Proof.
  intros c s s' E. unfold ensureB in E. destruct (sAllocB s); inv_done; auto.
  destruct (cBasis c); inv_done. eapply allocateBasis_note; eauto.
Qed.
Lemma mEnsureB_note : forall c (s s' : store),
  mEnsureB junk c s = Done s' -> sNote s' = sNote s.
Proof.
  intros c s s' E. unfold mEnsureB in E. destruct (sAllocB s); inv_done; auto.
  destruct (cBasis c); inv_done. eapply mAllocateBasis_note; eauto.
Qed.
Lemma copyBasis_note : forall fs i (s s' : store),
  copyBasis i fs s = Done s' -> sNote s' = sNote s.
Proof.
  induction fs as [|f fs IH]; intros i s s' E; cbn [copyBasis] in E; inv_done; auto.
  apply IH in E. exact E.
Qed.
Lemma copyRGrid_note : forall fs i (s s' : store),
  copyRGrid i fs s = Done s' -> sNote s' = sNote s.
Proof.
  induction fs as [|f fs IH]; intros i s s' E; cbn [copyRGrid] in E; inv_done; auto.
  apply IH in E. exact E.
Qed.
Lemma convertToR_note : forall (s s' : store),
  convertToR toR s = Done s' -> sNote s' = sNote s.
Proof. intros s s' E. unfold convertToR in E. inv_done. reflexivity. Qed.
Lemma convertToB_note : forall (s s' : store),
  convertToB toB s = Done s' -> sNote s' = sNote s.
Proof. intros s s' E. unfold convertToB in E. inv_done. reflexivity. Qed.
Lemma readDataB_note : forall f (s s' : store),
  readDataB f s = Done s' -> sNote s' = sNote s.
Proof.
  intros f s s' E. unfold readDataB in E.
  destruct (fOk f && shape (sNMon s) (sNBasis s) (fData f)); inv_done. reflexivity.
Qed.
Lemma readDataR_note : forall f (s s' : store),
  readDataR f s = Done s' -> sNote s' = sNote s.
Proof.
  intros f s s' E. unfold readDataR in E.
  destruct (fOk f && shape (sNMon s) (sMeshSize s) (fData f)); inv_done. reflexivity.
Qed.
Lemma finish_note : forall b (s s' : store),
  finish b s = Done s' -> sNote s' = S (sNote s).
Proof. intros b s s' E. unfold finish in E. inv_done. reflexivity. Qed.

Ltac notes :=
  repeat match goal with
  | H : ensureR _ _ _ = Done _ |- _ => apply ensureR_note in H
  | H : ensureB _ _ _ = Done _ |- _ => apply ensureB_note in H
  | H : mEnsureR _ _ _ = Done _ |- _ => apply mEnsureR_note in H
  | H : mEnsureB _ _ _ = Done _ |- _ => apply mEnsureB_note in H
  | H : copyBasis _ _ _ = Done _ |- _ => apply copyBasis_note in H
  | H : copyRGrid _ _ _ = Done _ |- _ => apply copyRGrid_note in H
  | H : convertToR _ _ = Done _ |- _ => apply convertToR_note in H
  | H : convertToB _ _ = Done _ |- _ => apply convertToB_note in H
  | H : readDataB _ _ = Done _ |- _ => apply readDataB_note in H
  | H : readDataR _ _ = Done _ |- _ => apply readDataR_note in H
  | H : finish _ _ = Done _ |- _ => apply finish_note in H
  end; cbn [withRGrid withBasis sNote] in *; congruence.

Lemma setRGrid_note : forall c fs b (s s' : store),
  setRGrid junk toB c fs b s = Done s' -> sNote s' = S (sNote s).
Proof. intros c fs b s s' E. unfold setRGrid in E. inv_done. destruct b; inv_done; notes. Qed.
Lemma mSetRGrid_note : forall c f b (s s' : store),
  mSetRGrid junk toB c f b s = Done s' -> sNote s' = S (sNote s).
Proof. intros c f b s s' E. unfold mSetRGrid in E. inv_done. destruct b; inv_done; notes. Qed.

Lemma runCall_note : forall c k (s s' : store),
  runCall junk toR toB c k s = Done s' -> sNote s' = S (sNote s).
Proof.
  intros c [fs|fs b|f|f b] s s' E; cbn [runCall] in E.
  - unfold setBasis in E. inv_done. notes.
  - eapply setRGrid_note; eauto.
  - unfold readBasis in E. inv_done. notes.
  - unfold readRGrid in E. inv_done. destruct b; inv_done; notes.
Qed.
Lemma runMaskCall_note : forall c k (s s' : store),
  runMaskCall junk toR toB c k s = Done s' -> sNote s' = S (sNote s).
Proof.
  intros c [fs|fs b|f|f b] s s' E; cbn [runMaskCall] in E.
  - unfold mSetBasis in E. inv_done. notes.
  - eapply mSetRGrid_note; eauto.
  - unfold mReadBasis in E. inv_done. notes.
  - unfold mReadRGrid in E. inv_done. destruct b; inv_done; notes.
Qed.
Lemma symmetrize_note : forall (s s' : store),
  symmetrize toR toB s = Done s' -> sNote s' = S (sNote s).
Proof. intros s s' E. unfold symmetrize in E. inv_done. cbn. notes. Qed.
End Notify.

Section SysProps.
Variable A : Type.
Variable junk : A.
Variables toR toB : list A -> list A.
Variables Cell PK PO KS DK EX PR ST TH Phi : Type.
Variable phiOf : view A -> Phi.
Variable ksqOf : Cell -> KS.
Variable dksqOf : Cell -> DK.
Variable expOf : KS -> PK -> EX.
Variable propOf : list (list A) -> Phi -> EX -> PK -> PO -> PR.
Variable cOf : PR -> PK -> PO -> list (list A).
Variable stressOf : PR -> DK -> PK -> PO -> Phi -> ST.
Variable thermoOf : view A -> view A -> view A ->
  list (list A) -> list (list A) -> PK -> PO -> TH.

Notation sys := (sys A Cell PK PO KS DK EX PR ST TH).
Notation op := (op A Cell PK PO).
Notation step := (@step A junk toR toB Cell PK PO KS DK EX PR ST TH Phi
  phiOf ksqOf dksqOf expOf propOf cOf stressOf thermoOf).
Notation run := (@run A junk toR toB Cell PK PO KS DK EX PR ST TH Phi
  phiOf ksqOf dksqOf expOf propOf cOf stressOf thermoOf).
Notation compute := (@compute A junk toB Cell PK PO KS DK EX PR ST TH Phi
  phiOf ksqOf dksqOf expOf propOf cOf stressOf).
Notation computeStress := (@computeStress A Cell PK PO KS DK EX PR ST TH Phi
  phiOf dksqOf stressOf).

(* ------------------------------------------------------------------ *)
(* Specification: what the c fields, the stress and the free energy of given
   w fields, mask, unit cell and parameters are, with no reference to any
   cache. *)
Definition propSpec (w : list (list A)) (m : view A) (c : Cell) (pk : PK) (po : PO) : PR :=
  propOf w (phiOf m) (expOf (ksqOf c) pk) pk po.
Definition cSpec (w : list (list A)) (m : view A) (c : Cell) (pk : PK) (po : PO)
  : list (list A) := cOf (propSpec w m c pk po) pk po.
Definition stressSpec (w : list (list A)) (m : view A) (c : Cell) (pk : PK) (po : PO) : ST :=
  stressOf (propSpec w m c pk po) (dksqOf c) pk po (phiOf m).

(* The c fields held by y are those of its w fields, mask and cell, for the
   given parameters. *)
Definition cIsOf (y : sys) (pk : PK) (po : PO) : Prop :=
  exists c, yCell y = Some c /\ sHasData (yW y) = true /\
    cR (yC y) = cSpec (sRGrid (yW y)) (viewOf (yM y)) c pk po /\
    (cSym (yC y) = true -> cB (yC y) = map toB (cR (yC y))).

Definition isParam (o : op) : bool :=
  match o with OSetKuhn _ | OSetLength _ | OSetOther _ => true | _ => false end.
Definition isClear (o : op) : bool :=
  match o with OWClear | OHClear => true | _ => false end.

(* ------------------------------------------------------------------ *)
Definition cleared (y : sys) : Prop := cHas (yC y) = false /\ yTh y = None.
Definition core (y : sys) := (yK y, yCell y, yPK y, yPO y).

Lemma clearCFields_cleared : forall y : sys, cleared (clearCFields y).
Proof. intro y. split; reflexivity. Qed.
Lemma clearCFields_core : forall y : sys, core (clearCFields y) = core y.
Proof. reflexivity. Qed.

Lemma onW_cleared : forall f (y y' : sys), onW f y = Done y' -> cleared y -> cleared y'.
Proof.
  intros f y y' E C. unfold onW in E. destruct (f (yW y)); inv_done.
  unfold notified. destruct (sNote (yW y) =? sNote s); [exact C|].
  apply clearCFields_cleared.
Qed.
Lemma onH_cleared : forall f (y y' : sys), onH f y = Done y' -> cleared y -> cleared y'.
Proof.
  intros f y y' E C. unfold onH in E. destruct (f (yH y)); inv_done.
  unfold notified. destruct (sNote (yH y) =? sNote s); [exact C|].
  apply clearCFields_cleared.
Qed.
Lemma onM_cleared : forall f (y y' : sys), onM f y = Done y' -> cleared y -> cleared y'.
Proof.
  intros f y y' E C. unfold onM in E. destruct (f (yM y)); inv_done.
  unfold notified. destruct (sNote (yM y) =? sNote s); [exact C|].
  apply clearCFields_cleared.
Qed.
Lemma onW_core : forall f (y y' : sys), onW f y = Done y' -> core y' = core y.
Proof.
  intros f y y' E. unfold onW in E. destruct (f (yW y)); inv_done.
  unfold notified. destruct (sNote (yW y) =? sNote s); reflexivity.
Qed.
Lemma onH_core : forall f (y y' : sys), onH f y = Done y' -> core y' = core y.
Proof.
  intros f y y' E. unfold onH in E. destruct (f (yH y)); inv_done.
  unfold notified. destruct (sNote (yH y) =? sNote s); reflexivity.
Qed.
Lemma onM_core : forall f (y y' : sys), onM f y = Done y' -> core y' = core y.
Proof.
  intros f y y' E. unfold onM in E. destruct (f (yM y)); inv_done.
  unfold notified. destruct (sNote (yM y) =? sNote s); reflexivity.
Qed.

(* A container operation that notifies leaves the system cleared. *)
Lemma onW_notify : forall f (y y' : sys),
  (forall s s', f s = Done s' -> sNote s' = S (sNote s)) ->
  onW f y = Done y' -> cleared y'.
Proof.
  intros f y y' F E. unfold onW in E. destruct (f (yW y)) eqn:Q; inv_done.
  apply F in Q. unfold notified. rewrite Q.
  destruct (Nat.eqb_spec (sNote (yW y)) (S (sNote (yW y)))); [lia|].
  apply clearCFields_cleared.
Qed.
Lemma onH_notify : forall f (y y' : sys),
  (forall s s', f s = Done s' -> sNote s' = S (sNote s)) ->
  onH f y = Done y' -> cleared y'.
Proof.
  intros f y y' F E. unfold onH in E. destruct (f (yH y)) eqn:Q; inv_done.
  apply F in Q. unfold notified. rewrite Q.
  destruct (Nat.eqb_spec (sNote (yH y)) (S (sNote (yH y)))); [lia|].
  apply clearCFields_cleared.
Qed.
Lemma onM_notify : forall f (y y' : sys),
  (forall s s', f s = Done s' -> sNote s' = S (sNote s)) ->
  onM f y = Done y' -> cleared y'.
Proof.
  intros f y y' F E. unfold onM in E. destruct (f (yM y)) eqn:Q; inv_done.
  apply F in Q. unfold notified. rewrite Q.
  destruct (Nat.eqb_spec (sNote (yM y)) (S (sNote (yM y)))); [lia|].
  apply clearCFields_cleared.
Qed.

Lemma allocateFieldsBasis_frame : forall nb (y y' : sys),
  allocateFieldsBasis junk nb y = Done y' ->
  core y' = core y /\ (cleared y -> cleared y').
Proof.
  intros nb y y' E. unfold allocateFieldsBasis in E. inv_done.
  pose proof (onW_core _ _ E3) as K1.
  unfold cAllocateBasis in E1. inv_done.
  match goal with H : match yEnv ?t with _ => _ end = _ |- _ =>
    set (y1 := t) in *; assert (K2 : core y1 = core z2) by reflexivity end.
  assert (C1 : cleared y -> cleared y1).
  { intro C. pose proof (@onW_cleared _ _ _ E3 C) as [C1 C2].
    split; [exact C1|exact C2]. }
  clearbody y1.
  assert (K3 : core z1 = core y1 /\ (cleared y1 -> cleared z1)).
  { destruct (yEnv y1) as [[gm gh]|]; inv_done; [|auto].
    match goal with H : (if gm then _ else _) = Done ?t |- _ =>
      assert (Q : core t = core y1 /\ (cleared y1 -> cleared t)) by
       (destruct gm; inv_done; [|auto];
        split; [eapply onM_core; eauto|eapply onM_cleared; eauto]) end.
    destruct Q as [Q1 Q2].
    destruct gh; inv_done; [|auto].
    split; [rewrite <- Q1; eapply onH_core; eauto|].
    intro C. eapply onH_cleared; eauto. }
  destruct K3 as [K3 K4]. split.
  - transitivity (core z1); [reflexivity|]. congruence.
  - intro C. apply K4. apply C1. exact C.
Qed.

Lemma makeBasis_frame : forall (y y' : sys),
  makeBasisIfNeeded junk y = Done y' ->
  core y' = core y /\ (cleared y -> cleared y').
Proof.
  intros y y' E. unfold makeBasisIfNeeded in E.
  destruct (yGroup y) as [nb|]; [|inv_done; auto].
  destruct (yBasis y); [inv_done; auto|].
  apply allocateFieldsBasis_frame in E. exact E.
Qed.

Lemma envUpdate_frame : forall g (y y' : sys),
  envUpdate junk toB g y = Done y' ->
  core y' = core y /\ yW y' = yW y /\ (cleared y -> cleared y').
Proof.
  intros g y y' E. unfold envUpdate in E.
  destruct (yEnv y); [|inv_done; auto].
  destruct (yUpd y); [|inv_done; auto].
  inv_done.
  assert (Q : core z = core y /\ yW z = yW y /\ (cleared y -> cleared z)).
  { destruct (gMask g) as [[f b]|]; inv_done; [|auto].
    split; [eapply onM_core; eauto|]. split; [|eapply onM_cleared; eauto].
    unfold onM in E0. destruct (mSetRGrid _ _ _ _ _ _); inv_done.
    unfold notified. destruct (_ =? _); reflexivity. }
  destruct Q as (Q1 & Q2 & Q3).
  assert (P : core z0 = core z /\ yW z0 = yW z /\ (cleared z -> cleared z0)).
  { destruct (gExt g) as [[f b]|]; inv_done; [|auto].
    split; [eapply onH_core; eauto|]. split; [|eapply onH_cleared; eauto].
    unfold onH in E1. destruct (setRGrid _ _ _ _ _ _); inv_done.
    unfold notified. destruct (_ =? _); reflexivity. }
  destruct P as (P1 & P2 & P3).
  split; [|split].
  - transitivity (core z0); [reflexivity|congruence].
  - cbn. congruence.
  - intro C. destruct (P3 (Q3 C)) as [C1 C2]. split; assumption.
Qed.

(* ------------------------------------------------------------------ *)
(* The caches of quantities that depend on the unit cell are current. *)
Definition cachesOk (y : sys) : Prop :=
  (forall k, kKsq (yK y) = Some k -> exists c, yCell y = Some c /\ k = ksqOf c) /\
  (forall d, kDksq (yK y) = Some d -> exists c, yCell y = Some c /\ d = dksqOf c) /\
  (forall e, kExp (yK y) = Some e ->
     exists c, yCell y = Some c /\ e = expOf (ksqOf c) (yPK y)).

Lemma ok_ksq : forall y k, cachesOk y -> kKsq (yK y) = Some k ->
  exists c, yCell y = Some c /\ k = ksqOf c.
Proof. intros y k (C & _) E. auto. Qed.
Lemma ok_dksq : forall y d, cachesOk y -> kDksq (yK y) = Some d ->
  exists c, yCell y = Some c /\ d = dksqOf c.
Proof. intros y k (_ & C & _) E. auto. Qed.
Lemma ok_exp : forall y e, cachesOk y -> kExp (yK y) = Some e ->
  exists c, yCell y = Some c /\ e = expOf (ksqOf c) (yPK y).
Proof. intros y k (_ & _ & C) E. auto. Qed.

Lemma cachesOk_core : forall y y' : sys,
  core y' = core y -> cachesOk y -> cachesOk y'.
Proof.
  intros y y' E. unfold core in E. injection E as E1 E2 E3 _.
  unfold cachesOk. now rewrite E1, E2, E3.
Qed.

Lemma assignCell_facts : forall c (y : sys),
  cleared (assignCell c y) /\ cachesOk (assignCell c y) /\
  yPK (assignCell c y) = yPK y /\ yPO (assignCell c y) = yPO y.
Proof.
  intros c y. unfold assignCell, clearUnitCellData, envReset, cleared, cachesOk.
  cbn. destruct (yEnv y) eqn:Q; cbn; rewrite ?Q; cbn;
    (split; [split; reflexivity|]; split; [|split; reflexivity];
     repeat split; intros; discriminate).
Qed.

Lemma setUnitCell_facts : forall c (y y' : sys),
  setUnitCell junk c y = Done y' -> core y' = core (assignCell c y) /\ cleared y'.
Proof.
  intros c y y' E. unfold setUnitCell in E. inv_done.
  apply makeBasis_frame in E0. destruct E0 as [E0 E2].
  assert (Q : z = z0).
  { destruct (yGroup z); inv_done; reflexivity. }
  subst. split; [exact E0|]. apply E2. apply assignCell_facts.
Qed.

(* Everything about a calculation of concentrations. *)
Lemma mixCompute_spec : forall (y y' : sys), cachesOk y ->
  mixCompute phiOf ksqOf expOf propOf cOf y = Done y' ->
  exists c, yCell y' = Some c /\ yCell y' = yCell y /\
    kProp (yK y') =
      Some (propSpec (sRGrid (yW y')) (viewOf (yM y')) c (yPK y') (yPO y')) /\
    cR (yC y') =
      cSpec (sRGrid (yW y')) (viewOf (yM y')) c (yPK y') (yPO y') /\
    kStress (yK y') = None /\
    cHas (yC y') = cHas (yC y) /\ cSym (yC y') = cSym (yC y) /\
    cAllocB (yC y') = cAllocB (yC y) /\
    yW y' = yW y /\ yH y' = yH y /\ yM y' = yM y /\ yPK y' = yPK y /\
    yPO y' = yPO y /\ yEnv y' = yEnv y /\ yTh y' = yTh y /\ cachesOk y'.
Proof.
  intros y y' C E. unfold mixCompute in E. inv_done.
  assert (N : exists c, yCell z = Some c /\
            kExp (yK z) = Some (expOf (ksqOf c) (yPK z)) /\
            cachesOk z /\ yCell z = yCell y /\ yC z = yC y /\
            yW z = yW y /\ yH z = yH y /\ yM z = yM y /\ yPK z = yPK y /\
            yPO z = yPO y /\ yEnv z = yEnv y /\ yTh z = yTh y).
  { unfold needExp in E0. destruct (kExp (yK y)) as [e|] eqn:Q.
    - inv_done. destruct (ok_exp C Q) as (c & Hc & ->). exists c.
      rewrite Q. repeat match goal with |- _ /\ _ => split end; auto.
    - inv_done. unfold needKsq in E1. destruct (kKsq (yK y)) as [k|] eqn:Q2.
      + inv_done. rewrite Q2 in E0. inv_done.
        destruct (ok_ksq C Q2) as (c & Hc & ->). exists c.
        cbn. rewrite Hc.
        repeat match goal with |- _ /\ _ => split end; auto.
        unfold cachesOk. cbn. rewrite Hc. split; [|split].
        * intros k J. rewrite ?Q2 in J. injection J as <-. eauto.
        * intros d J. destruct (ok_dksq C J) as (c' & E' & ->). rewrite Hc in E'.
          injection E' as <-. eauto.
        * intros e J. injection J as <-. eauto.
      + destruct (yCell y) as [c|] eqn:Qc; inv_done.
        cbn in E0. inv_done. exists c. cbn. rewrite Qc.
        repeat match goal with |- _ /\ _ => split end; auto.
        unfold cachesOk. cbn. rewrite Qc. split; [|split].
        * intros k J. injection J as <-. eauto.
        * intros d J. destruct (ok_dksq C J) as (c' & E' & ->). rewrite Qc in E'.
          injection E' as <-. eauto.
        * intros e J. injection J as <-. eauto. }
  destruct N as (c & N1 & N2 & N3 & N4 & N5 & N6 & N7 & N8 & N9 & N10 & N11 & N12).
  rewrite N2 in E. inv_done. exists c. cbn.
  rewrite N5. repeat match goal with |- _ /\ _ => split end; auto.
  destruct N3 as (M1 & M2 & M3). rewrite N2 in M3. split; [exact M1|split; [exact M2|exact M3]].
Qed.

(* What computeStress can change. *)
Lemma computeStress_frame : forall (y y' : sys), cachesOk y ->
  computeStress y = Done y' ->
  yW y' = yW y /\ yH y' = yH y /\ yM y' = yM y /\ yCell y' = yCell y /\
  yPK y' = yPK y /\ yPO y' = yPO y /\ yC y' = yC y /\ yTh y' = yTh y /\
  kProp (yK y') = kProp (yK y) /\ cachesOk y' /\
  exists st, kStress (yK y') = Some st /\
    (kStress (yK y) = Some st \/
     (kStress (yK y) = None /\ exists p c, kProp (yK y) = Some p /\
      yCell y = Some c /\
      st = stressOf p (dksqOf c) (yPK y) (yPO y) (phiOf (viewOf (yM y))))).
Proof.
  intros y y' C E. unfold computeStress in E. inv_done.
  assert (N : yW z = yW y /\ yH z = yH y /\ yM z = yM y /\ yCell z = yCell y /\
    yPK z = yPK y /\ yPO z = yPO y /\ yC z = yC y /\ yTh z = yTh y /\
    kProp (yK z) = kProp (yK y) /\ cachesOk z /\
    exists st, kStress (yK z) = Some st /\
    (kStress (yK y) = Some st \/
     (kStress (yK y) = None /\ exists p c, kProp (yK y) = Some p /\
      yCell y = Some c /\
      st = stressOf p (dksqOf c) (yPK y) (yPO y) (phiOf (viewOf (yM y)))))).
  { destruct (kStress (yK y)) as [st|] eqn:Q.
    - inv_done. repeat match goal with |- _ /\ _ => split end; auto. eauto.
    - inv_done.
      assert (D : exists c, yCell y = Some c /\ kDksq (yK z0) = Some (dksqOf c) /\
         yW z0 = yW y /\ yH z0 = yH y /\ yM z0 = yM y /\ yCell z0 = yCell y /\
         yPK z0 = yPK y /\ yPO z0 = yPO y /\ yC z0 = yC y /\ yTh z0 = yTh y /\
         kProp (yK z0) = kProp (yK y) /\ cachesOk z0).
      { unfold needDksq in E1. destruct (kDksq (yK y)) as [d|] eqn:Qd.
        - inv_done. destruct (ok_dksq C Qd) as (c & Hc & ->). exists c.
          rewrite Qd. repeat match goal with |- _ /\ _ => split end; auto.
        - destruct (yCell y) as [c|] eqn:Qc; inv_done. exists c. cbn. rewrite ?Qc.
          repeat match goal with |- _ /\ _ => split end; auto.
          unfold cachesOk. cbn. rewrite Qc. split; [|split].
          + intros k J. destruct (ok_ksq C J) as (c' & E' & ->). rewrite Qc in E'.
            injection E' as <-. eauto.
          + intros d J. injection J as <-. eauto.
          + intros e J. destruct (ok_exp C J) as (c' & E' & ->). rewrite Qc in E'.
            injection E' as <-. eauto. }
      destruct D as (c & D1 & D2 & D3 & D4 & D5 & D6 & D7 & D8 & D9 & D10 & D11 & D12).
      rewrite D2 in E0. destruct (kProp (yK z0)) as [p|] eqn:Qp; inv_done.
      cbn. repeat match goal with |- _ /\ _ => split end; auto.
      + destruct D12 as (M1 & M2 & M3). rewrite D2 in M2.
        split; [exact M1|split; [exact M2|exact M3]].
      + eexists. split; [reflexivity|]. right. split; [reflexivity|].
        exists p, c. rewrite D5, D7, D8. auto. }
  destruct N as (N1 & N2 & N3 & N4 & N5 & N6 & N7 & N8 & N9 & N10 & N11).
  destruct (yEnv z); [|inv_done; repeat match goal with |- _ /\ _ => split end; auto].
  destruct (yES z); [inv_done; repeat match goal with |- _ /\ _ => split end; auto|].
  destruct (yIter z); inv_done. cbn.
  repeat match goal with |- _ /\ _ => split end; auto.
Qed.

(* A normal return of compute. *)
Lemma compute_spec : forall b g (y y' : sys), cachesOk y ->
  compute b g y = Done y' ->
  cHas (yC y') = true /\ cIsOf y' (yPK y') (yPO y') /\
  cSym (yC y') = sIsSym (yW y') /\ yTh y' = None /\
  yW y' = yW y /\ yPK y' = yPK y /\ yPO y' = yPO y /\ yCell y' = yCell y /\
  cachesOk y' /\
  exists c, yCell y' = Some c /\
    kProp (yK y') =
      Some (propSpec (sRGrid (yW y')) (viewOf (yM y')) c (yPK y') (yPO y')) /\
    (forall st, kStress (yK y') = Some st ->
       st = stressSpec (sRGrid (yW y')) (viewOf (yM y')) c (yPK y') (yPO y')) /\
    (b = true -> kStress (yK y') <> None).
Proof.
  intros b g y y' C E. unfold compute in E. inv_done.
  rename z4 into ze, z2 into z0, z3 into z, E5 into E2, E3 into E1, E4 into E0.
  destruct (envUpdate_frame _ _ E2) as (F1 & F2 & F3).
  rewrite clearCFields_core in F1.
  specialize (F3 (clearCFields_cleared y)). destruct F3 as [F3 F4].
  pose proof (cachesOk_core F1 C) as C1.
  unfold core in F1. injection F1 as F5 F6 F7 F8.
  destruct (mixCompute_spec C1 E1) as (c & N1 & N2 & N3 & N4 & N5 & N6 & N7 & N8 &
    N9 & N10 & N11 & N12 & N13 & N14 & N15 & N16).
  cbn in F2.
  assert (HW : sHasData (yW z0) = true) by (rewrite N9, F2; assumption).
  set (y2 := setTh None _) in E0.
  assert (Z : yW z = yW z0 /\ yM z = yM z0 /\ yCell z = yCell z0 /\
     yPK z = yPK z0 /\ yPO z = yPO z0 /\ yK z = yK z0 /\ yTh z = None /\
     cR (yC z) = cR (yC z0) /\ cHas (yC z) = true /\
     cSym (yC z) = sIsSym (yW z0) /\
     (cSym (yC z) = true -> cB (yC z) = map toB (cR (yC z)))).
  { subst y2. cbn in E0. destruct (sIsSym (yW z0)); inv_done; cbn.
    - repeat match goal with |- _ /\ _ => split end; auto.
    - assert (Q : cSym (yC z0) = false).
      { rewrite N7. assert (X : forall v : sys, envUpdate junk toB g (clearCFields y) = Done v ->
          cSym (yC v) = false).
        { clear. intros v E. unfold envUpdate in E.
          destruct (yEnv (clearCFields y)); [|inv_done; reflexivity].
          destruct (yUpd (clearCFields y)); [|inv_done; reflexivity].
          inv_done. cbn.
          assert (P : cSym (yC z) = false).
          { destruct (gMask g) as [[f b]|]; inv_done; [|reflexivity].
            unfold onM in E0. destruct (mSetRGrid _ _ _ _ _ _); inv_done.
            unfold notified. destruct (_ =? _); reflexivity. }
          destruct (gExt g) as [[f b]|]; inv_done; [|assumption].
          unfold onH in E1. destruct (setRGrid _ _ _ _ _ _); inv_done.
          unfold notified. destruct (_ =? _); [exact P|reflexivity]. }
        apply X. assumption. }
      rewrite Q. repeat match goal with |- _ /\ _ => split end; auto. discriminate. }
  destruct Z as (Z1 & Z2 & Z3 & Z4 & Z5 & Z6 & Z7 & Z8 & Z9 & Z10 & Z11).
  assert (CZ : cachesOk z).
  { eapply cachesOk_core; [|exact N16]. unfold core. congruence. }
  destruct b.
  - destruct (computeStress_frame CZ E) as (S1 & S2 & S3 & S4 & S5 & S6 & S7 & S8 &
      S9 & S10 & st & S11 & S12).
    unfold cIsOf. rewrite S1, S3, S4, S5, S6, S7, S8, S9, Z1, Z2, Z3, Z4, Z5, Z6, Z7, Z9, Z10.
    repeat match goal with |- _ /\ _ => split end; auto; try congruence.
    + exists c. repeat match goal with |- _ /\ _ => split end; auto.
      * congruence.
      * rewrite <- Z10. exact Z11.
    + exists c. split; [exact N1|]. split; [exact N3|]. split.
      * intros st' Q. rewrite S11 in Q. injection Q as <-.
        destruct S12 as [S12|(S12 & p & c' & P1 & P2 & P3)].
        { rewrite Z6, N5 in S12. discriminate. }
        rewrite Z6, N3 in P1. injection P1 as <-. rewrite Z3, N1 in P2.
        injection P2 as <-. rewrite P3, Z4, Z5, Z2. reflexivity.
      * intros _. rewrite S11. discriminate.
  - inv_done. unfold cIsOf. rewrite Z1, Z2, Z3, Z4, Z5, Z6, Z7, Z9, Z10.
    repeat match goal with |- _ /\ _ => split end; auto; try congruence.
    + exists c. repeat match goal with |- _ /\ _ => split end; auto.
      * congruence.
      * rewrite <- Z10. exact Z11.
    + exists c. split; [exact N1|]. split; [exact N3|]. split; [|discriminate].
      intros st Q. rewrite N5 in Q. discriminate.
Qed.

Lemma thermo_frame : forall (y y' : sys),
  thermoCompute thermoOf y = Done y' ->
  (y' = setTh (yTh y') y) /\
  (yTh y <> None /\ y' = y \/
   yTh y = None /\ cHas (yC y) = true /\ sHasData (yW y) = true /\
   yTh y' = Some (thermoOf (viewOf (yW y)) (viewOf (yH y)) (viewOf (yM y))
                    (cR (yC y)) (cB (yC y)) (yPK y) (yPO y))).
Proof.
  intros y y' E. unfold thermoCompute in E.
  destruct (yTh y) eqn:Q.
  - inv_done. split; [|left; split; congruence]. rewrite Q. destruct y.
    cbn in *. now subst.
  - inv_done. split; [reflexivity|]. right. repeat split; auto.
Qed.

(* What one operation can do to the concentrations: discard them, replace
   them (compute), or leave them and everything they were computed from. *)
Definition sameInputs (y y' : sys) : Prop :=
  viewOf (yW y') = viewOf (yW y) /\ viewOf (yH y') = viewOf (yH y) /\
  viewOf (yM y') = viewOf (yM y) /\ yCell y' = yCell y.

Lemma step_caches : forall o (y y' : sys),
  step o y = Done y' -> cachesOk y -> cachesOk y'.
Proof.
  intros o y y' E C. destruct o; cbn [System.step] in E.
  - unfold wCall in E. inv_done. apply onW_core in E.
    apply (cachesOk_core E). destruct (isRead k); inv_done; [|exact C].
    unfold headerW in E0. apply makeBasis_frame in E0. destruct E0 as [E0 _].
    apply (cachesOk_core E0). apply assignCell_facts.
  - unfold hCall in E. inv_done. apply onH_core in E.
    apply (cachesOk_core E). destruct (isRead k); inv_done; [|exact C].
    apply makeBasis_frame in E0. destruct E0 as [E0 _].
    apply (cachesOk_core E0). exact C.
  - unfold mCall in E. inv_done. apply onM_core in E.
    apply (cachesOk_core E). destruct (isRead k); inv_done; [|exact C].
    apply makeBasis_frame in E0. destruct E0 as [E0 _].
    apply (cachesOk_core E0). exact C.
  - apply onW_core in E. apply (cachesOk_core E C).
  - apply onH_core in E. apply (cachesOk_core E C).
  - apply onW_core in E. apply (cachesOk_core E C).
  - apply onH_core in E. apply (cachesOk_core E C).
  - apply setUnitCell_facts in E. destruct E as [E _].
    apply (cachesOk_core E). apply assignCell_facts.
  - inv_done. destruct C as (C1 & C2 & C3). repeat split; auto. cbn. discriminate.
  - inv_done. destruct C as (C1 & C2 & C3). repeat split; auto. cbn. discriminate.
  - inv_done. exact C.
  - now apply compute_spec in E.
  - apply computeStress_frame in E; [|exact C]. apply E.
  - apply thermo_frame in E. destruct E as [-> _]. exact C.
  - unfold iterBegin in E. inv_done. apply envUpdate_frame in E.
    destruct E as [E _]. apply (cachesOk_core E). exact C.
  - unfold iterEnd in E. inv_done. destruct error; inv_done; [exact C|].
    apply thermo_frame in E0. destruct E0 as [E0 _].
    assert (C' : cachesOk z) by (rewrite E0; exact C).
    destruct flexible; inv_done; [exact C'|].
    destruct (kStress (yK z)); inv_done; [exact C'|].
    apply computeStress_frame in E; [|exact C']. apply E.
  - inv_done. exact C.
  - inv_done. unfold envReset. destruct (yEnv y); exact C.
Qed.

Lemma step_tracks : forall o (y y' : sys), cachesOk y ->
  step o y = Done y' -> isClear o = false -> cHas (yC y') = true ->
  (exists b g, o = OCompute b g) \/
  (cHas (yC y) = true /\ sameInputs y y' /\ yC y' = yC y /\
   kProp (yK y') = kProp (yK y) /\
   (isParam o = false -> yPK y' = yPK y /\ yPO y' = yPO y)).
Proof.
  intros o y y' C E K H.
  assert (X : forall P : Prop, cleared y' -> P).
  { intros P [X _]. rewrite X in H. discriminate. }
  destruct o; cbn [System.step isClear isParam] in *.
  - unfold wCall in E. inv_done. apply X. eapply onW_notify; [|exact E].
    intros s s'. apply runCall_note.
  - unfold hCall in E. inv_done. apply X. eapply onH_notify; [|exact E].
    intros s s'. apply runCall_note.
  - unfold mCall in E. inv_done. apply X. eapply onM_notify; [|exact E].
    intros s s'. apply runMaskCall_note.
  - apply X. eapply onW_notify; [|exact E]. intros s s'. apply symmetrize_note.
  - apply X. eapply onH_notify; [|exact E]. intros s s'. apply symmetrize_note.
  - discriminate.
  - discriminate.
  - apply setUnitCell_facts in E. apply X. apply E.
  - inv_done. right. cbn in *. unfold sameInputs. repeat split; auto; discriminate.
  - inv_done. right. cbn in *. unfold sameInputs. repeat split; auto; discriminate.
  - inv_done. right. cbn in *. unfold sameInputs. repeat split; auto; discriminate.
  - left. eauto.
  - right. apply computeStress_frame in E; [|exact C].
    destruct E as (S1 & S2 & S3 & S4 & S5 & S6 & S7 & S8 & S9 & _).
    unfold sameInputs. rewrite S1, S2, S3, S4, S5, S6, S7, S9.
    rewrite S7 in H. repeat split; auto.
  - right. apply thermo_frame in E. destruct E as [E _]. rewrite E in *.
    unfold sameInputs. cbn in *. repeat split; auto.
  - unfold iterBegin in E. inv_done. apply envUpdate_frame in E.
    destruct E as (_ & _ & E). apply X. apply E. apply clearCFields_cleared.
  - right. unfold iterEnd in E. inv_done. destruct error; inv_done.
    { unfold sameInputs. repeat split; auto. }
    apply thermo_frame in E0. destruct E0 as [E0 _].
    assert (C' : cachesOk z) by (rewrite E0; exact C).
    assert (Z : sameInputs y z /\ yC z = yC y /\ kProp (yK z) = kProp (yK y) /\
                yPK z = yPK y /\ yPO z = yPO y).
    { rewrite E0. unfold sameInputs. cbn. repeat split; auto. }
    destruct Z as ((Z1 & Z2 & Z3 & Z4) & Z5 & Z6 & Z7 & Z8).
    destruct flexible; inv_done.
    { rewrite Z5 in H. unfold sameInputs. repeat split; auto. }
    destruct (kStress (yK z)); inv_done.
    { rewrite Z5 in H. unfold sameInputs. repeat split; auto. }
    apply computeStress_frame in E; [|exact C'].
    destruct E as (S1 & S2 & S3 & S4 & S5 & S6 & S7 & S8 & S9 & _).
    unfold sameInputs. rewrite S1, S2, S3, S4, S5, S6, S7, S9.
    repeat split; auto.
  - inv_done. discriminate.
  - inv_done. right. unfold envReset in *. unfold sameInputs.
    destruct (yEnv y); cbn in *; repeat split; auto.
Qed.

Lemma run_app : forall os1 os2 (y : sys),
  run (os1 ++ os2) y = (run os1 y >>> run os2).
Proof.
  induction os1 as [|o os1 IH]; intros os2 y; cbn [System.run app andThen]; [reflexivity|].
  destruct (step o y); cbn [andThen]; auto.
Qed.

Lemma run_caches : forall os (y y' : sys), cachesOk y -> run os y = Done y' -> cachesOk y'.
Proof.
  induction os as [|o os IH]; intros y y' C E; cbn [System.run] in E; inv_done; auto.
  eapply IH; [|exact E]. eapply step_caches; eauto.
Qed.

(* A state that holds no calculated data, such as the one after the
   parameter file was read. *)
Definition initial (y : sys) : Prop :=
  cHas (yC y) = false /\ yTh y = None /\ yK y = mkCache None None None None None.

Lemma initial_caches : forall y, initial y -> cachesOk y.
Proof. intros y (_ & _ & E). unfold cachesOk. rewrite E. cbn. repeat split; discriminate. Qed.

Lemma view_grid : forall s s' : store A, viewOf s = viewOf s' -> sHasData s = true ->
  sHasData s' = true /\ sRGrid s' = sRGrid s.
Proof.
  intros s s' E H. unfold viewOf in E. rewrite H in E.
  destruct (sHasData s'); [|discriminate]. injection E as E1 E2. auto.
Qed.

(* C30.  In any sequence of operations that return normally, other than
   clear() on a field container: if the system reports concentrations, they
   were produced by a call of compute after which neither the w fields, nor
   the external fields, nor the mask, nor the unit cell have changed; and
   they are those of the present w fields, mask and unit cell, for the model
   parameters at the time of that call. *)
Theorem c_fields_current : forall os (y0 y : sys), initial y0 ->
  Forall (fun o => isClear o = false) os -> run os y0 = Done y ->
  cHas (yC y) = true ->
  exists os1 b g os2 y1 y2,
    os = os1 ++ OCompute b g :: os2 /\ run os1 y0 = Done y1 /\
    compute b g y1 = Done y2 /\ run os2 y2 = Done y /\
    sameInputs y2 y /\ yC y = yC y2 /\ cIsOf y (yPK y2) (yPO y2).
Proof.
  intros os y0 y I. revert y. pattern os. apply rev_ind; clear os.
  - intros y _ E H. cbn in E. inv_done. destruct I as (I & _). congruence.
  - intros o os IH y K E H.
    apply Forall_app in K. destruct K as [K1 K2]. inversion K2 as [|? ? K3 _]; subst.
    rewrite run_app in E. inv_done. cbn [System.run] in E. inv_done.
    pose proof (@run_caches _ _ _ (initial_caches I) E0) as C.
    destruct (@step_tracks _ _ _ C E1 K3 H) as [(b & g & ->)|(T1 & T2 & T3 & T4 & T5)].
    + exists os, b, g, [], z, z0. cbn [System.step] in E1.
      split; [reflexivity|]. split; [exact E0|]. split; [exact E1|].
      split; [reflexivity|]. split; [unfold sameInputs; auto|].
      split; [reflexivity|]. now apply compute_spec in E1.
    + destruct (IH z K1 E0 T1) as (os1 & b & g & os2 & y1 & y2 & P1 & P2 & P3 & P4 &
        P5 & P6 & P7).
      exists os1, b, g, (os2 ++ [o]), y1, y2. subst os.
      split; [now rewrite <- app_assoc|]. split; [exact P2|]. split; [exact P3|].
      split.
      { rewrite run_app, P4. cbn [andThen System.run]. rewrite E1. reflexivity. }
      destruct P5 as (V1 & V2 & V3 & V4). destruct T2 as (W1 & W2 & W3 & W4).
      split; [unfold sameInputs; repeat split; congruence|].
      split; [congruence|].
      destruct P7 as (c & Q1 & Q2 & Q3 & Q4).
      destruct (@view_grid (yW z) (yW z0) (eq_sym W1) Q2) as [G1 G2].
      exists c. rewrite W4, G1, G2, W3, T3. auto.
Qed.

(* Everything stored is current when no parameter is modified. *)
Definition allCurrent (y : sys) : Prop :=
  cachesOk y /\
  (cHas (yC y) = true -> cIsOf y (yPK y) (yPO y) /\
     exists c, yCell y = Some c /\
      kProp (yK y) =
        Some (propSpec (sRGrid (yW y)) (viewOf (yM y)) c (yPK y) (yPO y)) /\
      (forall st, kStress (yK y) = Some st ->
       st = stressSpec (sRGrid (yW y)) (viewOf (yM y)) c (yPK y) (yPO y))) /\
  (forall t, yTh y = Some t -> cHas (yC y) = true /\
     t = thermoOf (viewOf (yW y)) (viewOf (yH y)) (viewOf (yM y))
           (cR (yC y)) (cB (yC y)) (yPK y) (yPO y)).

(* In the operations that keep c, the thermodynamic data are kept or
   computed from the state, and the stress is kept or computed. *)
Lemma step_keeps : forall o (y y' : sys), cachesOk y -> step o y = Done y' ->
  isClear o = false -> isParam o = false -> cHas (yC y') = true ->
  (forall b g, o <> OCompute b g) ->
  (yTh y' = yTh y \/
   yTh y' = Some (thermoOf (viewOf (yW y')) (viewOf (yH y')) (viewOf (yM y'))
                    (cR (yC y')) (cB (yC y')) (yPK y') (yPO y'))) /\
  (kStress (yK y') = kStress (yK y) \/
   kStress (yK y) = None /\ exists st p c, kStress (yK y') = Some st /\
      kProp (yK y) = Some p /\ yCell y = Some c /\
      st = stressOf p (dksqOf c) (yPK y') (yPO y') (phiOf (viewOf (yM y')))).
Proof.
  intros o y y' C E K1 K2 H NC.
  assert (X : forall P : Prop, cleared y' -> P).
  { intros P [X _]. rewrite X in H. discriminate. }
  assert (STR : forall y y' : sys, cachesOk y -> computeStress y = Done y' ->
    yTh y' = yTh y /\
    (kStress (yK y') = kStress (yK y) \/
     kStress (yK y) = None /\ exists st p c, kStress (yK y') = Some st /\
      kProp (yK y) = Some p /\ yCell y = Some c /\
      st = stressOf p (dksqOf c) (yPK y') (yPO y') (phiOf (viewOf (yM y'))))).
  { clear. intros y y' C E. apply computeStress_frame in E; [|exact C].
    destruct E as (S1 & S2 & S3 & S4 & S5 & S6 & S7 & S8 & S9 & S10 & st & S11 & S12).
    split; [exact S8|]. destruct S12 as [S12|(S12 & p & c & S13 & S14 & S15)].
    - left. congruence.
    - right. split; [exact S12|]. exists st, p, c. rewrite S5, S6, S3. auto. }
  assert (TH1 : forall y y' : sys, thermoCompute thermoOf y = Done y' ->
    yK y' = yK y /\
    (yTh y' = yTh y \/
     yTh y' = Some (thermoOf (viewOf (yW y')) (viewOf (yH y')) (viewOf (yM y'))
                    (cR (yC y')) (cB (yC y')) (yPK y') (yPO y')))).
  { clear. intros y y' E. apply thermo_frame in E. destruct E as [E1 E2].
    split; [rewrite E1; reflexivity|].
    destruct E2 as [[_ ->]|(_ & _ & _ & E2)]; [auto|right].
    rewrite E2. rewrite E1. reflexivity. }
  destruct o; cbn [System.step isClear isParam] in *; try discriminate.
  - unfold wCall in E. inv_done. apply X. eapply onW_notify; [|exact E].
    intros s s'. apply runCall_note.
  - unfold hCall in E. inv_done. apply X. eapply onH_notify; [|exact E].
    intros s s'. apply runCall_note.
  - unfold mCall in E. inv_done. apply X. eapply onM_notify; [|exact E].
    intros s s'. apply runMaskCall_note.
  - apply X. eapply onW_notify; [|exact E]. intros s s'. apply symmetrize_note.
  - apply X. eapply onH_notify; [|exact E]. intros s s'. apply symmetrize_note.
  - apply setUnitCell_facts in E. apply X. apply E.
  - now destruct (NC needStress g).
  - apply STR in E; [|exact C]. destruct E; auto.
  - apply TH1 in E. destruct E as [-> E]. auto.
  - unfold iterBegin in E. inv_done. apply envUpdate_frame in E.
    destruct E as (_ & _ & E). apply X. apply E. apply clearCFields_cleared.
  - unfold iterEnd in E. inv_done. destruct error; inv_done; [auto|].
    pose proof (thermo_frame _ E0) as [F _].
    pose proof (TH1 _ _ E0) as [F1 F2].
    assert (C' : cachesOk z) by (rewrite F; exact C).
    destruct flexible; inv_done; [rewrite F1; auto|].
    destruct (kStress (yK z)) eqn:Q; inv_done; [rewrite F1; auto|].
    pose proof (computeStress_frame C' E) as
      (S1 & S2 & S3 & S4 & S5 & S6 & S7 & S8 & S9 & _).
    apply STR in E; [|exact C']. destruct E as [G1 G2].
    split.
    + rewrite G1, S1, S2, S3, S5, S6, S7. exact F2.
    + rewrite F1 in G2. replace (yCell z) with (yCell y) in G2
        by (rewrite F; reflexivity). exact G2.
  - inv_done. discriminate.
  - inv_done. unfold envReset. destruct (yEnv y); cbn; auto.
Qed.

Lemma step_no_thermo : forall o (y y' : sys), cachesOk y -> step o y = Done y' ->
  isClear o = false -> cHas (yC y') = false ->
  (cHas (yC y) = false -> yTh y = None) -> yTh y' = None.
Proof.
  intros o y y' C E K H I.
  destruct o; cbn [System.step isClear] in *; try discriminate.
  - unfold wCall in E. inv_done. eapply onW_notify; [|exact E].
    intros s s'. apply runCall_note.
  - unfold hCall in E. inv_done. eapply onH_notify; [|exact E].
    intros s s'. apply runCall_note.
  - unfold mCall in E. inv_done. eapply onM_notify; [|exact E].
    intros s s'. apply runMaskCall_note.
  - eapply onW_notify; [|exact E]. intros s s'. apply symmetrize_note.
  - eapply onH_notify; [|exact E]. intros s s'. apply symmetrize_note.
  - apply setUnitCell_facts in E. apply E.
  - inv_done. auto.
  - inv_done. auto.
  - inv_done. auto.
  - apply compute_spec in E; [|exact C]. destruct E as (E & _). congruence.
  - apply computeStress_frame in E; [|exact C].
    destruct E as (S1 & S2 & S3 & S4 & S5 & S6 & S7 & S8 & S9 & _).
    rewrite S7 in H. rewrite S8. auto.
  - apply thermo_frame in E. destruct E as [E1 E2]. rewrite E1 in H. cbn in H.
    specialize (I H). destruct E2 as [[E2 _]|(_ & E2 & _)]; congruence.
  - unfold iterBegin in E. inv_done. apply envUpdate_frame in E.
    destruct E as (_ & _ & E). apply E. apply clearCFields_cleared.
  - unfold iterEnd in E. inv_done. destruct error; inv_done; [auto|].
    apply thermo_frame in E0. destruct E0 as [E0 _].
    assert (C' : cachesOk z) by (rewrite E0; exact C).
    assert (Q : cHas (yC z) = true) by (rewrite E0; assumption).
    destruct flexible; inv_done; [congruence|].
    destruct (kStress (yK z)); inv_done; [congruence|].
    apply computeStress_frame in E; [|exact C'].
    destruct E as (_ & _ & _ & _ & _ & _ & S7 & _). congruence.
  - inv_done. reflexivity.
  - inv_done. unfold envReset in *. destruct (yEnv y); cbn in *; auto.
Qed.

Lemma step_allCurrent : forall o (y y' : sys), allCurrent y -> step o y = Done y' ->
  isClear o = false -> isParam o = false -> allCurrent y'.
Proof.
  intros o y y' (C & CC & CT) E K1 K2.
  split; [eapply step_caches; eauto|].
  destruct (cHas (yC y')) eqn:H.
  - assert (D : (exists b g, o = OCompute b g) \/ (forall b g, o <> OCompute b g)).
    { destruct o; try (right; discriminate). left. eauto. }
    destruct D as [(b & g & ->)|NC].
    { cbn [System.step] in E. apply compute_spec in E; [|exact C].
      destruct E as (_ & P1 & _ & P2 & _ & _ & _ & _ & _ & c & P3 & P4 & P5 & _).
      split.
      - intros _. split; [exact P1|]. exists c. auto.
      - intros t Q. congruence. }
    destruct (@step_tracks _ _ _ C E K1 H) as [(b & g & X)|(T1 & T2 & T3 & T4 & T5)];
      [now apply NC in X|].
    destruct (T5 K2) as [Q1 Q2]. destruct T2 as (V1 & V2 & V3 & V4).
    destruct (CC T1) as [(c & R1 & R2 & R3 & R4) (c' & R5 & R6 & R7)].
    rewrite R1 in R5. injection R5 as <-.
    destruct (@view_grid (yW y) (yW y') (eq_sym V1) R2) as [G1 G2].
    destruct (@step_keeps _ _ _ C E K1 K2 H NC) as [KT KS'].
    split.
    + intros _. split.
      * exists c. rewrite V4, G1, G2, V3, T3, Q1, Q2. auto.
      * exists c. rewrite V4, G2, V3, Q1, Q2, T4. split; [exact R1|].
        split; [exact R6|]. intros st Q.
        destruct KS' as [KS'|(_ & st' & p & c' & S1 & S2 & S3 & S4)].
        { apply R7. congruence. }
        rewrite S1 in Q. injection Q as <-. rewrite R6 in S2. injection S2 as <-.
        rewrite R1 in S3. injection S3 as <-. rewrite S4, Q1, Q2, V3. reflexivity.
    + intros t Q. split; [reflexivity|].
      destruct KT as [KT|KT].
      * rewrite KT in Q. destruct (CT t Q) as [_ ->].
        rewrite V1, V2, V3, T3, Q1, Q2. reflexivity.
      * congruence.
  - split; [discriminate|]. intros t Q. exfalso.
    assert (Z : yTh y' = None).
    { apply (@step_no_thermo _ _ _ C E K1 H). intro N.
      destruct (yTh y) as [t'|] eqn:QT; [|reflexivity].
      destruct (CT t' eq_refl) as [N' _]. congruence. }
    congruence.
Qed.

Lemma initial_allCurrent : forall y, initial y -> allCurrent y.
Proof.
  intros y I. split; [now apply initial_caches|].
  destruct I as (I1 & I2 & I3). split; intros; congruence.
Qed.

Lemma run_allCurrent : forall os (y y' : sys), allCurrent y ->
  Forall (fun o => isClear o = false /\ isParam o = false) os ->
  run os y = Done y' -> allCurrent y'.
Proof.
  induction os as [|o os IH]; intros y y' I F E; cbn [System.run] in E; inv_done; auto.
  inversion F as [|? ? [K1 K2] F']; subst.
  eapply IH; [|exact F'|exact E]. eapply step_allCurrent; eauto.
Qed.

(* C31, C32.  After any history (including parameter modifications and
   clears), a call of compute makes everything current, and it stays so under
   all operations other than clear() and parameter modifications: reported
   concentrations and free energy are those of the present w fields, external
   fields, mask, unit cell and parameters, and computeStress gives the stress
   of the present state as long as concentrations are reported. *)
Theorem current_since_compute : forall os1 b g os2 (y0 y1 y2 y : sys),
  initial y0 -> run os1 y0 = Done y1 -> compute b g y1 = Done y2 ->
  Forall (fun o => isClear o = false /\ isParam o = false) os2 ->
  run os2 y2 = Done y ->
  (cHas (yC y) = true -> cIsOf y (yPK y) (yPO y)) /\
  (forall t, yTh y = Some t -> cHas (yC y) = true /\
     t = thermoOf (viewOf (yW y)) (viewOf (yH y)) (viewOf (yM y))
           (cR (yC y)) (cB (yC y)) (yPK y) (yPO y)) /\
  (forall y', cHas (yC y) = true -> computeStress y = Done y' ->
     exists c, yCell y' = Some c /\ sameInputs y y' /\ yC y' = yC y /\
       yPK y' = yPK y /\ yPO y' = yPO y /\
       kStress (yK y') =
       Some (stressSpec (sRGrid (yW y)) (viewOf (yM y)) c (yPK y) (yPO y))).
Proof.
  intros os1 b g os2 y0 y1 y2 y I E1 EC F E2.
  pose proof (@run_caches _ _ _ (initial_caches I) E1) as K1.
  assert (A2 : allCurrent y2).
  { apply compute_spec in EC; [|exact K1].
    destruct EC as (_ & P1 & _ & P2 & _ & _ & _ & _ & P6 & c & P3 & P4 & P5 & _).
    split; [exact P6|]. split.
    - intros _. split; [exact P1|]. exists c. auto.
    - intros t Q. congruence. }
  destruct (@run_allCurrent _ _ _ A2 F E2) as (K & C & T).
  split; [intro H; now apply C|]. split; [exact T|].
  intros y' H S. destruct (C H) as [_ (c & P1 & P2 & P3)].
  destruct (computeStress_frame K S) as (S1 & S2 & S3 & S4 & S5 & S6 & S7 & S8 & S9 &
    S10 & st & S11 & S12).
  exists c. rewrite S4. split; [exact P1|].
  split; [unfold sameInputs; rewrite S1, S2, S3, S4; auto|].
  split; [exact S7|]. split; [exact S5|]. split; [exact S6|].
  rewrite S11. f_equal.
  destruct S12 as [S12|(_ & p & c' & Q1 & Q2 & ->)]; [now apply P3|].
  rewrite P2 in Q1. injection Q1 as <-. rewrite P1 in Q2. now injection Q2 as <-.
Qed.

(* C31.  When no parameter was ever modified, a stored free energy is
   current. *)
Theorem thermo_current_without_parameter_changes : forall os (y0 y : sys) t,
  initial y0 -> Forall (fun o => isClear o = false /\ isParam o = false) os ->
  run os y0 = Done y -> yTh y = Some t ->
  cHas (yC y) = true /\ cIsOf y (yPK y) (yPO y) /\
  t = thermoOf (viewOf (yW y)) (viewOf (yH y)) (viewOf (yM y))
        (cR (yC y)) (cB (yC y)) (yPK y) (yPO y).
Proof.
  intros os y0 y t I F E T.
  destruct (@run_allCurrent _ _ _ (initial_allCurrent I) F E) as (_ & C & TH1).
  destruct (TH1 t T) as [H ->]. split; [exact H|]. split; [|reflexivity].
  now apply C.
Qed.

(* C32.  A call of compute that asks for the stress leaves the stress of the
   state it was made in. *)
Theorem compute_stress_fresh : forall os b g (y0 y y' : sys),
  initial y0 -> run os y0 = Done y -> compute b g y = Done y' ->
  exists c, yCell y' = Some c /\ yW y' = yW y /\
    (b = true -> kStress (yK y') =
      Some (stressSpec (sRGrid (yW y')) (viewOf (yM y')) c (yPK y') (yPO y'))).
Proof.
  intros os b g y0 y y' I E C.
  pose proof (@run_caches _ _ _ (initial_caches I) E) as K.
  destruct (@compute_spec _ _ _ _ K C) as (_ & _ & _ & _ & H & _ & _ & _ & _ & c & P1 & _ & P2 & P3).
  exists c. split; [exact P1|]. split; [exact H|].
  intro B. destruct (kStress (yK y')) as [st|] eqn:Q; [|now destruct (P3 B)].
  now rewrite (P2 st eq_refl).
Qed.
End SysProps.

(* ------------------------------------------------------------------ *)
(* A small system on which the theorems are exercised: two monomer types,
   two grid points, natural numbers for values. *)
Definition xPhi (v : view nat) : nat := match v with None => 1 | Some _ => 2 end.
Definition xProp (w : list (list nat)) (phi e pk po : nat) : nat :=
  list_sum (concat w) + phi + 3 * e.
Definition xC (p pk po : nat) : list (list nat) := [[p; p + po]; [po; p + pk]].
Definition xStress (p d pk po phi : nat) : nat := p * d + po.
Definition xThermo (w h m : view nat) (c cb : list (list nat)) (pk po : nat) : nat :=
  list_sum (concat c) + 7 * po + match h with None => 0 | Some _ => 1 end.
Definition xExp (k pk : nat) : nat := k + 2 * pk.
Notation xid := (fun x : list nat => x).
Notation xSys := (sys nat nat nat nat nat nat nat nat nat nat).
Definition xInit (env : option (bool * bool)) (iter : bool) : xSys :=
  @initSys nat 99 nat nat nat nat nat nat nat nat nat 2 2 (Some 2) 1 5 env iter false.
Definition xRun : list (op nat nat nat nat) -> xSys -> res xSys :=
  run 99 xid xid xPhi (fun c : nat => c) (fun c : nat => c) xExp xProp xC xStress xThermo.
Definition xCatch : list (op nat nat nat nat) -> xSys -> option xSys :=
  runCatch 99 xid xid xPhi (fun c : nat => c) (fun c : nat => c) xExp xProp xC xStress xThermo.
Definition xIsOf (y : xSys) (pk po : nat) : Prop :=
  cIsOf xid xPhi (fun c : nat => c) xExp xProp xC y pk po.
Definition xSpec : list (list nat) -> view nat -> nat -> nat -> nat -> nat :=
  stressSpec xPhi (fun c : nat => c) (fun c : nat => c) xExp xProp xStress.
Definition g0 : gen nat := mkGen None None.
Definition wA : call nat := CSetRGrid [[1; 2]; [3; 4]] false.
Definition wB : call nat := CSetRGrid [[5; 6]; [7; 8]] false.

Definition xOps : list (op nat nat nat nat) :=
  [OThermo; OW 4 (CReadBasis (mkFile 2 true [[1; 1]; [2; 2]] true));
   OCompute false g0; OStress; OThermo].
Definition xOps0 : list (op nat nat nat nat) :=
  [OSetCell 3; OW 3 wA; OCompute false g0; OSetOther 6; OSetKuhn 2; OWClear; OW 3 wB].

(* A sequence that meets the hypotheses of the theorems above. *)
Example system_example : exists y1 y2 y t,
  initial (xInit None true) /\
  xRun xOps0 (xInit None true) = Done y1 /\
  compute 99 xid xPhi (fun c : nat => c) (fun c : nat => c) xExp xProp xC xStress
    true g0 y1 = Done y2 /\
  Forall (fun o => isClear o = false /\ isParam o = false) xOps /\
  xRun xOps y2 = Done y /\ cHas (yC y) = true /\
  cSym (yC y) = true /\ yTh y = Some t /\ yCell y = Some 4.
Proof.
  eexists. eexists. eexists. eexists.
  split; [repeat split; reflexivity|].
  split; [vm_compute; reflexivity|].
  split; [vm_compute; reflexivity|].
  split; [repeat constructor|].
  split; [vm_compute; reflexivity|].
  repeat match goal with |- _ /\ _ => split end; reflexivity.
Qed.

(* C30: WFields::clear does not notify: the concentrations of the discarded
   w fields are still reported. *)
Theorem c_fields_after_clear_refuted : exists y,
  xRun [OSetCell 3; OW 3 wA; OCompute false g0; OWClear] (xInit None true) = Done y /\
  cHas (yC y) = true /\ sHasData (yW y) = false /\ ~ xIsOf y (yPK y) (yPO y).
Proof.
  eexists. split; [vm_compute; reflexivity|]. split; [reflexivity|]. split; [reflexivity|].
  intros (c & _ & E & _). discriminate E.
Qed.

(* C30: a call that throws half way has changed a w field but did not
   notify: a caller that catches the exception is told that the
   concentrations are available, and they are those of other w fields. *)
Theorem c_fields_after_exception_refuted : exists y,
  xCatch [OSetCell 3; OW 3 wA; OCompute false g0; OW 3 (CSetRGrid [[9; 9]; [1]] false)]
    (xInit None true) = Some y /\
  cHas (yC y) = true /\ sHasData (yW y) = true /\ ~ xIsOf y (yPK y) (yPO y).
Proof.
  eexists. split; [vm_compute; reflexivity|]. split; [reflexivity|]. split; [reflexivity|].
  intros (c & E1 & _ & E2 & _). injection E1 as <-. vm_compute in E2. discriminate E2.
Qed.

(* C31: a parameter set after the calculation: concentrations and free energy
   are those of the old parameters, and are still reported as available; a
   further request for the free energy does not recompute it. *)
Theorem thermo_after_parameter_change_refuted : exists y t,
  xRun [OSetCell 3; OW 3 wA; OCompute false g0; OThermo; OSetOther 6; OThermo]
    (xInit None true) = Done y /\
  cHas (yC y) = true /\ yTh y = Some t /\ ~ xIsOf y (yPK y) (yPO y) /\
  t <> xThermo (viewOf (yW y)) (viewOf (yH y)) (viewOf (yM y))
         (cR (yC y)) (cB (yC y)) (yPK y) (yPO y).
Proof.
  eexists. eexists. split; [vm_compute; reflexivity|]. split; [reflexivity|]. split; [reflexivity|].
  split.
  - intros (c & E1 & _ & E2 & _). injection E1 as <-. vm_compute in E2. discriminate E2.
  - vm_compute. discriminate.
Qed.

(* C31: with the Kuhn length, too. *)
Theorem c_fields_after_setKuhn_refuted : exists y,
  xRun [OSetCell 3; OW 3 wA; OCompute false g0; OSetKuhn 2] (xInit None true) = Done y /\
  cHas (yC y) = true /\ ~ xIsOf y (yPK y) (yPO y).
Proof.
  eexists. split; [vm_compute; reflexivity|]. split; [reflexivity|].
  intros (c & E1 & _ & E2 & _). injection E1 as <-. vm_compute in E2. discriminate E2.
Qed.

(* C31: h().clear() does not notify either: the free energy that includes the
   discarded external fields is still stored. *)
Theorem thermo_after_clear_refuted : exists y t,
  xRun [OSetCell 3; OW 3 wA; OH wB; OCompute false g0; OThermo; OHClear]
    (xInit None true) = Done y /\
  yTh y = Some t /\ sHasData (yH y) = false /\
  t <> xThermo (viewOf (yW y)) (viewOf (yH y)) (viewOf (yM y))
         (cR (yC y)) (cB (yC y)) (yPK y) (yPO y).
Proof.
  eexists. eexists. split; [vm_compute; reflexivity|]. split; [reflexivity|]. split; [reflexivity|].
  discriminate.
Qed.

(* C32: computeStress after a change of the w fields returns normally with
   the stress of the old w fields. *)
Theorem stress_after_new_w_refuted : exists y st,
  xRun [OSetCell 3; OW 3 wA; OCompute true g0; OW 3 wB; OStress] (xInit None true)
    = Done y /\
  cHas (yC y) = false /\ kStress (yK y) = Some st /\
  st <> xSpec (sRGrid (yW y)) (viewOf (yM y)) 3 (yPK y) (yPO y).
Proof.
  eexists. eexists. split; [vm_compute; reflexivity|]. split; [reflexivity|]. split; [reflexivity|].
  discriminate.
Qed.

(* C32: after a change of the unit cell the stress computed without a new
   call of compute mixes the wavevectors of the new cell with the
   propagators of the old one: it is the stress of neither. *)
Theorem stress_after_new_cell_refuted : exists y st,
  xRun [OSetCell 3; OW 3 wA; OCompute true g0; OSetCell 4; OStress] (xInit None true)
    = Done y /\
  kStress (yK y) = Some st /\
  st <> xSpec (sRGrid (yW y)) (viewOf (yM y)) 4 (yPK y) (yPO y) /\
  st <> xSpec (sRGrid (yW y)) (viewOf (yM y)) 3 (yPK y) (yPO y).
Proof.
  eexists. eexists. split; [vm_compute; reflexivity|]. split; [reflexivity|].
  split; vm_compute; discriminate.
Qed.

(* C32: with an Environment and no iterator the stress dereferences a null
   pointer; and before any calculation it reads uninitialized memory. *)
Theorem stress_undefined_refuted :
  xRun [OSetCell 3; OW 3 wA; OCompute true g0] (xInit (Some (true, true)) false) = Undef /\
  xRun [OSetCell 3; OW 3 wA; OStress] (xInit None true) = Undef.
Proof. split; reflexivity. Qed.

Print Assumptions c_fields_current.
Print Assumptions thermo_current_without_parameter_changes.
Print Assumptions current_since_compute.
Print Assumptions compute_stress_fresh.
Print Assumptions c_fields_after_clear_refuted.
Print Assumptions c_fields_after_exception_refuted.
Print Assumptions thermo_after_parameter_change_refuted.
Print Assumptions c_fields_after_setKuhn_refuted.
Print Assumptions thermo_after_clear_refuted.
Print Assumptions stress_after_new_w_refuted.
Print Assumptions stress_after_new_cell_refuted.
Print Assumptions stress_undefined_refuted.
