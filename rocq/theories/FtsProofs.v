(** Invariants of the simulators of Fts.v. *)
From Coq Require Import Reals List Arith Bool Lia Lra.
From Verif Require Import Base RSum Fts.
Import ListNotations.
Local Open Scope R_scope.

(** Everything a move relies on at its start is marked available, and no state is
    still saved. *)
Record ready (s : sim) : Prop := {
  rd_wc : fWc (mK s) = true;
  rd_cc : nCc (mNeed s) = true -> fCc (mK s) = true;
  rd_dc : nDc (mNeed s) = true -> fDc (mK s) = true;
  rd_h : nH (mNeed s) = true -> fH (mK s) = true;
  rd_sv : svHas (mSv s) = false
}.
(** Hamiltonian and derivatives of given parameters and fields, computed afresh. *)
Definition trueH (mde : par -> (nat -> nat -> R) -> (nat -> nat -> R) * list (R * R * R)) (s : sim) : ham :=
  hamOf (mPar s) (mEig s) (mPert s) (snd (mde (mPar s) (yW (mSys s)))) (wcOf (pM (mPar s)) (mEig s) (yW (mSys s))).
Definition trueDc (mde : par -> (nat -> nat -> R) -> (nat -> nat -> R) * list (R * R * R)) (s : sim) : nat -> nat -> R :=
  dcOf (mPar s) (mEig s) (mPert s) (wcOf (pM (mPar s)) (mEig s) (yW (mSys s)))
       (ccOf (pM (mPar s)) (mEig s) (fst (mde (mPar s) (yW (mSys s))))).
(** What is marked available belongs to the current fields and parameters (the
    components cc_ are not included, see C46_cc_refuted). *)
Record current (mde : par -> (nat -> nat -> R) -> (nat -> nat -> R) * list (R * R * R)) (s : sim) : Prop := {
  cu_c : yHasC (mSys s) = true -> yC (mSys s) = fst (mde (mPar s) (yW (mSys s))) /\ ySp (mSys s) = snd (mde (mPar s) (yW (mSys s)));
  cu_wc : fWc (mK s) = true -> kWc (mK s) = wcOf (pM (mPar s)) (mEig s) (yW (mSys s));
  cu_dc : fDc (mK s) = true -> kDc (mK s) = trueDc mde s;
  cu_h : fH (mK s) = true -> kH (mK s) = trueH mde s
}.
(** Members of the perturbation read by others. *)
Definition pertView (e : option ecp) :=
  match e with None => None | Some q => Some (eLambda q, eEps q, eWc0 q, eEc q, eUn q) end.
(** The simulators seen from outside agree, except possibly for cc_. *)
Record sameState (s s' : sim) : Prop := {
  sm_w : yW (mSys s') = yW (mSys s);
  sm_wc : kWc (mK s') = kWc (mK s);
  sm_h : kH (mK s') = kH (mK s);
  sm_dc : fDc (mK s') = true -> kDc (mK s') = kDc (mK s) /\ fDc (mK s) = true;
  sm_c : yHasC (mSys s') = true -> yC (mSys s') = yC (mSys s) /\ ySp (mSys s') = ySp (mSys s);
  sm_pert : pertView (mPert s') = pertView (mPert s)
}.
Definition usesDc (c : mcChoice) : bool := match c with Plain _ _ => false | ForceBias _ _ _ => true end.

Ltac kill := repeat match goal with
  | H : true = true -> _ |- _ => specialize (H eq_refl)
  | H : ?x = true -> _, H2 : ?x = true |- _ => specialize (H H2)
  | H : false = true |- _ => discriminate H
  | H : true = false |- _ => discriminate H
  end.

Ltac spl := repeat match goal with |- _ /\ _ => split end; auto; try congruence.
Ltac opn := repeat match goal with
  | |- _ /\ _ => split
  | |- ready _ => constructor
  | |- sameState _ _ => constructor
  | |- current _ _ => constructor
  | |- _ -> _ => intro
  end.
Ltac fin := cbn in *; kill; try discriminate; try reflexivity; try congruence;
  try match goal with H : Accepted <> Accepted |- _ => elim H; reflexivity end;
  try match goal with H : _ \/ _ \/ _ |- _ => destruct H as [H|[H|H]]; congruence end;
  try match goal with H : _ \/ (forall _ _, _ <> _) |- _ => destruct H as [H|H]; [congruence|elim (H _ _ eq_refl)] end;
  try (match goal with e : option ecp |- pertView _ = _ => destruct e; reflexivity end);
  try match goal with H : current _ _ |- _ => let a := fresh in let b := fresh in let c := fresh in let d := fresh in destruct H as [a b c d]; cbn in a, b, c, d; kill end; try congruence;
  try (match goal with H : ?x = ?y |- ?x = _ => transitivity y; [exact H|] end;
       match goal with e : option ecp |- _ => destruct e; reflexivity end);
  try (match goal with e : option ecp |- _ => destruct e; reflexivity end).

Lemma doMove_ok mde comp c s : ready s -> nH (mNeed s) = true -> (usesDc c = true -> nDc (mNeed s) = true) ->
  exists s' r, doMove mde comp c s = Ok (s', r) /\ ready s' /\ mPar s' = mPar s /\ mEig s' = mEig s /\ mNeed s' = mNeed s /\
    (r <> Accepted -> sameState s s') /\
    (r <> Accepted -> fCc (mK s') = true -> nCc (mNeed s) = true \/ r = FailedMove \/ nDc (mNeed s) = false -> kCc (mK s') = kCc (mK s)) /\
    (current mde s -> current mde s').
Proof.
  intros [R1 R2 R3 R4 R5] HN HD.
  destruct s as [p g [W C sp hc] [wc cc dc h f1 f2 f3 f4] [sw swc scc sdc sh shas] [nc nd nh] e].
  cbn [mK fWc fCc fDc fH mNeed nCc nDc nH mSv svHas] in *. subst f1 nh shas. kill. subst f4.
  destruct c as [newW acc|mob rnd acc]; cbn [usesDc] in HD; kill.
  - unfold doMove, mcMove, hamiltonian, saveState.
    cbn [mK fWc fCc fDc fH kH mNeed nCc nDc nH mSv svHas check bind negb implb].
    destruct nc, nd; kill; subst; cbn [check bind negb implb]; set (W' := newW _); clearbody W'; unfold compress;
      cbn [mPar mSys yW setW withSys withSv withPert clearData withK];
      destruct (comp p W') as [err w'] eqn:CO; cbn [fst snd]; destruct err; cbn;
      (match goal with |- context [acc ?x] => destruct (acc x) end || idtac); cbn;
      (eexists; eexists; split; [reflexivity|]; opn; fin).
  - rewrite HD in *. clear nd HD. kill. subst f3.
    unfold doMove, fbMove, hamiltonian, saveState.
    cbn [mK fWc fCc fDc fH kH mNeed nCc nDc nH mSv svHas check bind negb implb].
    destruct nc; kill; subst; cbn [check bind negb implb]; unfold compress;
      cbn [mPar mEig mSys yW setW withSys withSv withPert clearData withK mK kDc mNeed];
      match goal with |- context [comp p ?w] => set (W' := w); clearbody W' end;
      destruct (comp p W') as [err w'] eqn:CO; cbn [fst snd]; destruct err; cbn;
      (match goal with |- context [acc ?x] => destruct (acc x) end || idtac); cbn;
      (eexists; eexists; split; [reflexivity|]; opn; fin).
Qed.

(* Explicit results of the operations used by the steps. *)
Definition svd (s : sim) : sim :=
  withPert (withSv s (mkSaved (yW (mSys s)) (kWc (mK s)) (if nCc (mNeed s) then kCc (mK s) else svCc (mSv s))
                              (if nDc (mNeed s) then kDc (mK s) else svDc (mSv s)) (if nH (mNeed s) then kH (mK s) else svH (mSv s)) true))
           (match mPert s with None => None
            | Some q => Some (mkEcp (eLambda q) (eEps q) (eWc0 q) (eEc q) (eUn q) (eEc q) (eUn q)) end).
Lemma saveState_ready s : ready s -> saveState s = Ok (svd s).
Proof.
  intros [R1 R2 R3 R4 R5]. unfold saveState. rewrite R1, R5. cbn [check negb bind].
  destruct (nCc (mNeed s)) eqn:A; cbn [implb]; [rewrite (R2 eq_refl)|]; cbn [check bind];
  destruct (nDc (mNeed s)) eqn:B; cbn [implb]; [rewrite (R3 eq_refl)| |rewrite (R3 eq_refl)|]; cbn [check bind];
  (destruct (nH (mNeed s)) eqn:D; cbn [implb]; [rewrite (R4 eq_refl)|]; cbn [check bind]; unfold svd; rewrite A, B, D; reflexivity).
Qed.
Definition rst (s : sim) : sim :=
  mkSim (mPar s) (mEig s) (mkSys (svW (mSv s)) (yC (mSys s)) (ySp (mSys s)) false)
    (mkComps (svWc (mSv s)) (if nCc (mNeed s) then svCc (mSv s) else kCc (mK s)) (if nDc (mNeed s) then svDc (mSv s) else kDc (mK s))
             (if nH (mNeed s) then svH (mSv s) else kH (mK s))
             true (if nCc (mNeed s) then true else fCc (mK s)) (if nDc (mNeed s) then true else fDc (mK s)) (if nH (mNeed s) then true else fH (mK s)))
    (mkSaved (svW (mSv s)) (svWc (mSv s)) (svCc (mSv s)) (svDc (mSv s)) (svH (mSv s)) false) (mNeed s)
    (match mPert s with None => None
     | Some q => Some (mkEcp (eLambda q) (eEps q) (eWc0 q) (eSEc q) (eSUn q) (eSEc q) (eSUn q)) end).
Lemma restoreState_saved s : svHas (mSv s) = true -> restoreState s = Ok (rst s).
Proof. intros H. unfold restoreState. rewrite H. reflexivity. Qed.
Definition stCc (s : sim) : sim :=
  withK s (mkComps (wcOf (pM (mPar s)) (mEig s) (yW (mSys s))) (ccOf (pM (mPar s)) (mEig s) (yC (mSys s))) (kDc (mK s)) (kH (mK s))
                   true true false false).
Definition stDc (s : sim) : sim :=
  withK s (mkComps (wcOf (pM (mPar s)) (mEig s) (yW (mSys s))) (ccOf (pM (mPar s)) (mEig s) (yC (mSys s)))
                   (dcOf (mPar s) (mEig s) (mPert s) (wcOf (pM (mPar s)) (mEig s) (yW (mSys s))) (ccOf (pM (mPar s)) (mEig s) (yC (mSys s))))
                   (kH (mK s)) true true true false).
Lemma refreshCc s : yHasC (mSys s) = true -> computeCc (computeWc (clearData s)) = Ok (stCc s).
Proof. intros H. unfold computeCc. cbn [computeWc clearData withK mSys]. rewrite H. reflexivity. Qed.
Lemma refreshDc s : computeDc (stCc s) = Ok (stDc s).
Proof. reflexivity. Qed.
(** Parameters of the perturbation and the values it saved. *)
Definition pertSaved (e : option ecp) :=
  match e with None => None | Some q => Some (eLambda q, eEps q, eWc0 q, eSEc q, eSUn q) end.
Definition pertPar (e : option ecp) :=
  match e with None => None | Some q => Some (eLambda q, eEps q, eWc0 q) end.
Lemma pertView_par e e' : pertView e = pertView e' -> pertPar e = pertPar e'.
Proof. destruct e, e'; cbn; intros H; congruence. Qed.
Lemma trueDc_ext mde s s' : mPar s' = mPar s -> mEig s' = mEig s -> yW (mSys s') = yW (mSys s) -> pertPar (mPert s') = pertPar (mPert s) ->
  trueDc mde s' = trueDc mde s.
Proof.
  intros A B D E. unfold trueDc. rewrite A, B, D. destruct (mPert s') as [q'|], (mPert s) as [q|]; cbn in E; try discriminate; auto.
  unfold dcOf. inversion E as [[E1 E2 E3]]. rewrite E1, E2, E3. reflexivity.
Qed.
Lemma trueH_ext mde s s' : mPar s' = mPar s -> mEig s' = mEig s -> yW (mSys s') = yW (mSys s) -> pertPar (mPert s') = pertPar (mPert s) ->
  trueH mde s' = trueH mde s.
Proof.
  intros A B D E. unfold trueH. rewrite A, B, D. destruct (mPert s') as [q'|], (mPert s) as [q|]; cbn in E; try discriminate; auto.
  unfold hamOf, ecH. inversion E as [[E1 E2 E3]]. rewrite E1, E2, E3. reflexivity.
Qed.
(** Restoring after any changes that leave the saved values alone. *)
Lemma rst_same s t : ready s -> nDc (mNeed s) = true -> mNeed t = mNeed s -> mSv t = mSv (svd s) ->
  pertSaved (mPert t) = pertSaved (mPert (svd s)) -> kH (mK t) = kH (mK s) ->
  sameState s (rst t) /\ ready (rst t) /\ (nCc (mNeed s) = true -> kCc (mK (rst t)) = kCc (mK s)).
Proof.
  intros [R1 R2 R3 R4 R5] HD N V P H.
  assert (PV : pertView (mPert (rst t)) = pertView (mPert s)).
  { unfold rst, svd in *. cbn [mPert withPert withSv] in *. destruct (mPert t), (mPert s); cbn in *; try discriminate; congruence. }
  repeat split; try exact PV; unfold rst; cbn [mSys yW mK kWc kCc kDc kH fWc fDc fH fCc svHas mSv yHasC mNeed]; rewrite ?N, ?V, ?HD;
    unfold svd; cbn [mSv withPert withSv svW svWc svDc svCc svH svHas mPert]; rewrite ?HD; auto; try (intros; discriminate).
  - destruct (nH (mNeed s)); auto.
  - intros ->. reflexivity.
  - intros ->. reflexivity.
  - intros ->. reflexivity.
Qed.
Lemma rst_current mde s t : ready s -> sameState s (rst t) -> mPar t = mPar s -> mEig t = mEig s ->
  (fH (mK (rst t)) = true -> fH (mK s) = true) -> current mde s -> current mde (rst t).
Proof.
  intros [R1 _ _ _ _] [S1 S2 S3 S4 S5 S6] P G F [C1 C2 C3 C4].
  apply pertView_par in S6.
  assert (P' : mPar (rst t) = mPar s) by exact P. assert (G' : mEig (rst t) = mEig s) by exact G.
  constructor.
  - intros H. cbn in H. discriminate.
  - intros _. rewrite S1, S2, P', G'. auto.
  - intros H. destruct (S4 H) as [S7 S8]. rewrite S7, (trueDc_ext mde s (rst t)) by auto. auto.
  - intros H. rewrite S3, (trueH_ext mde s (rst t)) by auto. auto.
Qed.

Lemma predCorr_ok mde comp mob rnd s : ready s -> nDc (mNeed s) = true -> nH (mNeed s) = false ->
  exists s' b, predCorrStep mde comp mob rnd s = Ok (s', b) /\ ready s' /\ mPar s' = mPar s /\ mEig s' = mEig s /\ mNeed s' = mNeed s /\
    (b = false -> sameState s s') /\ (b = false -> nCc (mNeed s) = true -> kCc (mK s') = kCc (mK s)) /\
    (current mde s -> current mde s').
Proof.
  intros R HD HN. unfold predCorrStep. rewrite (saveState_ready s R). cbn [bind].
  set (s2 := setW _ (svd s)). unfold compress at 1.
  assert (Q2 : mPar s2 = mPar s /\ mEig s2 = mEig s /\ mNeed s2 = mNeed s /\ mSv s2 = mSv (svd s) /\ mPert s2 = mPert (svd s) /\ mK s2 = mK s)
    by (repeat split; reflexivity).
  clearbody s2. destruct Q2 as (q1 & q2 & q3 & q4 & q5 & q6).
  destruct (comp (mPar s2) (yW (mSys s2))) as [err w'] eqn:CO. cbn [fst snd].
  set (s3 := compute mde (setW w' s2)).
  assert (Q3 : mPar s3 = mPar s /\ mEig s3 = mEig s /\ mNeed s3 = mNeed s /\ mSv s3 = mSv (svd s) /\ mPert s3 = mPert (svd s) /\ mK s3 = mK s /\ yHasC (mSys s3) = true)
    by (repeat split; auto; reflexivity).
  clearbody s3. clear q1 q2 q3 q4 q5 q6. destruct Q3 as (q1 & q2 & q3 & q4 & q5 & q6 & q7).
  destruct err; cbn [bind].
  - rewrite restoreState_saved by (rewrite q4; reflexivity). cbn [bind].
    destruct (rst_same s s3) as (A1 & A2 & A3); auto; try congruence.
    refine (ex_intro _ (rst s3) (ex_intro _ false (conj eq_refl (conj A2 (conj q1 (conj q2 (conj q3 (conj (fun _ => A1) (conj (fun _ => A3) _))))))))).
    apply (rst_current mde s s3); auto; unfold rst; cbn [fH mK]; rewrite q3, HN; congruence.
  - rewrite q7. cbn [check bind]. rewrite (refreshCc s3 q7). cbn [bind]. rewrite refreshDc. cbn [bind].
    set (s5 := stDc s3).
    set (s6 := setW _ s5).
    assert (Q6 : mPar s6 = mPar s /\ mEig s6 = mEig s /\ mNeed s6 = mNeed s /\ mSv s6 = mSv (svd s) /\ mPert s6 = mPert (svd s) /\ kH (mK s6) = kH (mK s) /\ fH (mK s6) = false)
      by (repeat split; auto; cbn; rewrite q6; reflexivity).
    clearbody s6. clear s5 q1 q2 q3 q4 q5 q6 q7. destruct Q6 as (q1 & q2 & q3 & q4 & q5 & q6 & q7). unfold compress.
    destruct (comp (mPar s6) (yW (mSys s6))) as [err2 w2] eqn:CO2. cbn [fst snd].
    set (s7 := compute mde (setW w2 s6)).
    assert (Q7 : mPar s7 = mPar s /\ mEig s7 = mEig s /\ mNeed s7 = mNeed s /\ mSv s7 = mSv (svd s) /\ mPert s7 = mPert (svd s) /\ kH (mK s7) = kH (mK s) /\ fH (mK s7) = false
       /\ yHasC (mSys s7) = true /\ yC (mSys s7) = fst (mde (mPar s7) (yW (mSys s7))) /\ ySp (mSys s7) = snd (mde (mPar s7) (yW (mSys s7))))
      by (repeat split; auto; reflexivity).
    clearbody s7. clear q1 q2 q3 q4 q5 q6 q7. destruct Q7 as (q1 & q2 & q3 & q4 & q5 & q6 & q7 & q8 & q9 & q10).
    destruct err2; cbn [bind].
    + rewrite restoreState_saved by (rewrite q4; reflexivity). cbn [bind].
      destruct (rst_same s s7) as (A1 & A2 & A3); auto; try congruence.
      refine (ex_intro _ (rst s7) (ex_intro _ false (conj eq_refl (conj A2 (conj q1 (conj q2 (conj q3 (conj (fun _ => A1) (conj (fun _ => A3) _))))))))).
    apply (rst_current mde s s7); auto; unfold rst; cbn [fH mK]; rewrite q3, HN; congruence.
    + rewrite q8. cbn [check bind].
      assert (q8' : yHasC (mSys (clearState s7)) = true) by exact q8.
      rewrite (refreshCc _ q8'). cbn [bind]. rewrite refreshDc. cbn [bind].
      eexists _, true. split; [reflexivity|].
      split; [constructor; cbn; try reflexivity; rewrite q3, HN; discriminate|].
      repeat split; auto; try discriminate; cbn; auto; try discriminate.
      intros _. unfold trueDc. cbn. rewrite q9. reflexivity.
Qed.

Lemma doStep_ok mde comp c s : ready s -> nDc (mNeed s) = true -> nH (mNeed s) = false ->
  exists s' b, doStep mde comp c s = Ok (s', b) /\ ready s' /\ mPar s' = mPar s /\ mEig s' = mEig s /\ mNeed s' = mNeed s /\
    (b = false -> sameState s s') /\
    (b = false -> fCc (mK s') = true -> nCc (mNeed s) = true \/ (forall mob rnd, c <> PredCorr mob rnd) -> kCc (mK s') = kCc (mK s)) /\
    (current mde s -> current mde s').
Proof.
  intros R HD HN.
  destruct c as [mob rnd|mob eo en|mob rnd].
  3:{ destruct (predCorr_ok mde comp mob rnd s) as (s' & b & E & A1 & A2 & A3 & A4 & A5 & A6 & A7); auto.
    refine (ex_intro _ s' (ex_intro _ b (conj E (conj A1 (conj A2 (conj A3 (conj A4 (conj A5 (conj _ A7))))))))).
    intros Hb _ [Hc|Hc]; auto. elim (Hc mob rnd eq_refl).
 }
  all: destruct R as [R1 R2 R3 R4 R5].
  all: destruct s as [p g [W C sp hc] [wc cc dc h f1 f2 f3 f4] [sw swc scc sdc sh shas] [nc nd nh] e].
  all: cbn [mK fWc fCc fDc fH mNeed nCc nDc nH mSv svHas] in *; subst f1 nh nd shas; kill; subst f3.
  - unfold doStep, explicitStep, saveState.
    cbn [mK fWc fCc fDc fH kH mNeed nCc nDc nH mSv svHas check bind negb implb].
    destruct nc; kill; subst; cbn [check bind negb implb]; unfold compress;
      cbn [mPar mEig mSys yW setW withSys withSv withPert clearData withK mK kDc mNeed];
      match goal with |- context [comp p ?w] => set (W' := w); clearbody W' end;
      destruct (comp p W') as [err w'] eqn:CO; cbn [fst snd]; destruct err; cbn;
      (eexists; eexists; split; [reflexivity|]; opn; fin).
  - unfold doStep, lmStep, saveState.
    cbn [mK fWc fCc fDc fH kH mNeed nCc nDc nH mSv svHas check bind negb implb].
    destruct nc; kill; subst; cbn [check bind negb implb]; unfold compress;
      cbn [mPar mEig mSys yW setW withSys withSv withPert clearData withK mK kDc mNeed];
      match goal with |- context [comp p ?w] => set (W' := w); clearbody W' end;
      destruct (comp p W') as [err w'] eqn:CO; cbn [fst snd]; destruct err; cbn;
      (eexists; eexists; split; [reflexivity|]; opn; fin).
Qed.

Lemma moveSetups_ok mde n s : ready s -> current mde s ->
  exists s', moveSetups mde n s = Ok s' /\ ready s' /\ current mde s' /\ mPar s' = mPar s /\ mEig s' = mEig s /\ mNeed s' = mNeed s /\
    yW (mSys s') = yW (mSys s).
Proof.
  revert s. induction n as [|n IH]; intros s R C.
  { exists s. cbn. spl. }
  cbn [moveSetups].
  assert (X : exists s1, moveSetup mde s = Ok s1 /\ ready s1 /\ current mde s1 /\ mPar s1 = mPar s /\ mEig s1 = mEig s /\ mNeed s1 = mNeed s /\
    yW (mSys s1) = yW (mSys s)).
  { clear IH. destruct R as [R1 R2 R3 R4 R5].
    destruct s as [p g [W C0 sp hc] [wc cc dc h f1 f2 f3 f4] [sw swc scc sdc sh shas] [nc nd nh] e].
    destruct C as [C1 C2 C3 C4]. cbn in *. subst. kill. unfold moveSetup. cbn.
    destruct nc, nd; cbn; (eexists; split; [reflexivity|]; opn; fin).
    all: cbn; tauto. }
  destruct X as (s1 & -> & R1 & C1 & P1 & G1 & N1 & W1). cbn [bind].
  destruct (IH s1 R1 C1) as (s2 & -> & R2 & C2 & P2 & G2 & N2 & W2).
  exists s2. spl.
Qed.

Lemma mcSetup_ok eigOf mde comp nMoves s g : eigOf (mPar s) (mEig s) = Ok g -> svHas (mSv s) = false ->
  (fDc (mK s) = true -> nDc (mNeed s) = true) ->
  exists s', mcSetup eigOf mde comp nMoves s = Ok s' /\ ready s' /\ current mde s' /\ mPar s' = mPar s /\ mEig s' = g /\ mNeed s' = mNeed s /\
    yW (mSys s') = snd (comp (mPar s) (yW (mSys s))).
Proof.
  intros E SV FD. unfold mcSetup. rewrite E. cbn [bind].
  assert (X : exists s1, (s3 <- (if nCc (mNeed s) || nDc (mNeed s)
         then computeCc (computeWc (snd (compress mde comp (compute mde (mkSim (mPar s) g (mSys s) (mK s) (mSv s) (mNeed s) (mPert s))))))
         else Ok (computeWc (snd (compress mde comp (compute mde (mkSim (mPar s) g (mSys s) (mK s) (mSv s) (mNeed s) (mPert s))))))) ;;
      s4 <- (if nDc (mNeed s) then computeDc s3 else Ok s3) ;; computeHamiltonian s4) = Ok s1 /\
      ready s1 /\ current mde s1 /\ mPar s1 = mPar s /\ mEig s1 = g /\ mNeed s1 = mNeed s /\ yW (mSys s1) = snd (comp (mPar s) (yW (mSys s)))).
  { destruct s as [p g0 [W C0 sp hc] [wc cc dc h f1 f2 f3 f4] [sw swc scc sdc sh shas] [nc nd nh] e].
    cbn [mPar mEig mSys mK mSv mNeed mPert nCc nDc fDc svHas yW] in *. unfold compress. cbn [mPar mSys compute withSys yW].
    destruct (comp p W) as [err w']. cbn [fst snd].
    destruct nc, nd; cbn; (eexists; split; [reflexivity|]; opn; fin).
    all: try (destruct f3; [specialize (FD eq_refl)|]; discriminate).
    all: cbn; tauto. }
  destruct X as (s1 & X & R1 & C1 & P1 & G1 & N1 & W1).
  destruct (nCc (mNeed s) || nDc (mNeed s)).
  - destruct (computeCc _) as [s3|?|?|] eqn:E3; try discriminate X. cbn [bind] in *.
    destruct (if nDc (mNeed s) then computeDc s3 else Ok s3) as [s4|?|?|] eqn:E4; try discriminate X. cbn [bind] in *.
    rewrite X. cbn [bind]. destruct (moveSetups_ok mde nMoves s1 R1 C1) as (s2 & -> & R2 & C2 & P2 & G2 & N2 & W2).
    exists s2. spl.
  - cbn [bind] in *.
    destruct (if nDc (mNeed s) then computeDc _ else Ok _) as [s4|?|?|] eqn:E4; try discriminate X. cbn [bind] in *.
    rewrite X. cbn [bind]. destruct (moveSetups_ok mde nMoves s1 R1 C1) as (s2 & -> & R2 & C2 & P2 & G2 & N2 & W2).
    exists s2. spl.
Qed.

Lemma bdSetup_ok eigOf mde comp s g : eigOf (mPar s) (mEig s) = Ok g -> svHas (mSv s) = false ->
  exists s', bdSetup eigOf mde comp s = Ok s' /\ ready s' /\ current mde s' /\ mPar s' = mPar s /\ mEig s' = g /\ mNeed s' = mNeed s /\
    yW (mSys s') = snd (comp (mPar s) (yW (mSys s))).
Proof.
  intros E SV. unfold bdSetup. rewrite E. cbn [bind].
  destruct s as [p g0 [W C0 sp hc] [wc cc dc h f1 f2 f3 f4] [sw swc scc sdc sh shas] [nc nd nh] e].
  cbn [mPar mEig mSys mK mSv mNeed mPert nCc nDc fDc svHas yW] in *. unfold compress. cbn [mPar mSys compute withSys yW].
  destruct (comp p W) as [err w']. cbn [fst snd].
  cbn; (eexists; split; [reflexivity|]; opn; fin).
Qed.

(** Moves of a list that may be made. *)
Definition allowed (s : sim) (l : list mcChoice) : Prop := forall c, In c l -> usesDc c = true -> nDc (mNeed s) = true.

Lemma mcLoop_ok eigOf mde comp l : forall i s, ready s -> current mde s -> nH (mNeed s) = true -> allowed s l ->
  exists s' n, mcLoop eigOf mde comp None l i s = Ok (s', n) /\ ready s' /\ current mde s' /\
    mPar s' = mPar s /\ mEig s' = mEig s /\ mNeed s' = mNeed s.
Proof.
  induction l as [|c l IH]; intros i s R C HN HA.
  { exists s, i. cbn. spl. }
  destruct (doMove_ok mde comp c s R HN (HA c (or_introl eq_refl))) as (s1 & r & E & R1 & P1 & G1 & N1 & _ & _ & C1).
  assert (A1 : allowed s1 l) by (intros d Hd; rewrite N1; apply HA; right; exact Hd).
  cbn [mcLoop]. rewrite E. cbn [bind fst snd].
  destruct r; cbn [rampStep bind].
  - destruct (IH (S i) s1 R1 (C1 C)) as (s2 & n & E2 & R2 & C2 & P2 & G2 & N2); [congruence|auto|].
    exists s2, n. rewrite E2. spl.
  - destruct (IH (S i) s1 R1 (C1 C)) as (s2 & n & E2 & R2 & C2 & P2 & G2 & N2); [congruence|auto|].
    exists s2, n. rewrite E2. spl.
  - destruct (IH i s1 R1 (C1 C)) as (s2 & n & E2 & R2 & C2 & P2 & G2 & N2); [congruence|auto|].
    exists s2, n. rewrite E2. spl.
Qed.
Lemma bdLoop_ok eigOf mde comp l : forall i s, ready s -> current mde s -> nDc (mNeed s) = true -> nH (mNeed s) = false ->
  exists s' n, bdLoop eigOf mde comp None l i s = Ok (s', n) /\ ready s' /\ current mde s' /\
    mPar s' = mPar s /\ mEig s' = mEig s /\ mNeed s' = mNeed s.
Proof.
  induction l as [|c l IH]; intros i s R C HD HN.
  { exists s, i. cbn. spl. }
  destruct (doStep_ok mde comp c s R HD HN) as (s1 & b & E & R1 & P1 & G1 & N1 & _ & _ & C1).
  cbn [bdLoop]. rewrite E. cbn [bind fst snd].
  destruct b; cbn [rampStep bind].
  - destruct (IH (S i) s1 R1 (C1 C)) as (s2 & n & E2 & R2 & C2 & P2 & G2 & N2); [congruence|congruence|].
    exists s2, n. rewrite E2. spl.
  - destruct (IH i s1 R1 (C1 C)) as (s2 & n & E2 & R2 & C2 & P2 & G2 & N2); [congruence|congruence|].
    exists s2, n. rewrite E2. spl.
Qed.

Definition stH (s : sim) : sim :=
  withPert (withK s (mkComps (kWc (mK s)) (kCc (mK s)) (kDc (mK s)) (hamOf (mPar s) (mEig s) (mPert s) (ySp (mSys s)) (kWc (mK s)))
                             (fWc (mK s)) (fCc (mK s)) (fDc (mK s)) true))
           (pertAfter (mPar s) (mPert s) (hamOf (mPar s) (mEig s) (mPert s) (ySp (mSys s)) (kWc (mK s))) (kWc (mK s))).
Lemma computeHam_ok s : yHasC (mSys s) = true -> fWc (mK s) = true -> computeHamiltonian s = Ok (stH s).
Proof. intros A B. unfold computeHamiltonian, stH. rewrite A, B. reflexivity. Qed.

(** The state of a simulator with given fields, everything computed; s gives the
    parameters and the saved state. *)
Definition trial (mde : par -> (nat -> nat -> R) -> (nat -> nat -> R) * list (R * R * R)) (s : sim) (w : nat -> nat -> R) : sim :=
  stH (stDc (compute mde (setW w s))).
(** A converged force-bias move. *)
Lemma fbMove_eq mde comp mob rnd acc s : ready s -> nDc (mNeed s) = true -> nH (mNeed s) = true ->
  let vNode := pVol (mPar s) / INR (pMesh (mPar s)) in
  let dwc := fbDwc mob vNode (kDc (mK s)) rnd in
  let W := displace (pM (mPar s)) (mEig s) (yW (mSys s)) dwc in
  fst (comp (mPar s) W) = false ->
  let t := trial mde (clearData (setW W (clearData (svd s)))) (snd (comp (mPar s) W)) in
  fbMove mde comp mob rnd acc s =
  if acc (exp (fbBias (pM (mPar s)) (pMesh (mPar s)) mob vNode (kDc (mK s)) (kDc (mK t)) dwc - (hTot (kH (mK t)) - hTot (kH (mK s)))))
  then Ok (clearState t, Accepted) else Ok (rst t, Rejected).
Proof.
  intros R HD HN vNode dwc W F t. unfold fbMove.
  pose proof (rd_wc s R) as R1. pose proof (rd_dc s R HD) as R3. pose proof (rd_h s R HN) as R4.
  unfold hamiltonian at 1. rewrite R1, R3, R4. cbn [check bind]. rewrite (saveState_ready s R). cbn [bind].
  change (kDc (mK (clearData (svd s)))) with (kDc (mK s)). change (mEig (clearData (svd s))) with (mEig s).
  change (yW (mSys (clearData (svd s)))) with (yW (mSys s)).
  fold vNode. fold dwc. fold W. unfold compress at 1. cbn [mPar clearData setW withSys withK svd withPert withSv mSys yW].
  rewrite F. cbn [bind].
  change (compute mde (setW (snd (comp (mPar s) W)) _)) with (compute mde (setW (snd (comp (mPar s) W)) (clearData (setW W (clearData (svd s)))))).
  set (s4 := compute mde (setW (snd (comp (mPar s) W)) (clearData (setW W (clearData (svd s)))))).
  assert (H4 : computeCc (computeWc s4) = Ok (stCc s4)) by reflexivity.
  rewrite H4. cbn [bind]. rewrite refreshDc. cbn [bind].
  rewrite (computeHam_ok (stDc s4)) by reflexivity. cbn [bind]. change (stH (stDc s4)) with t.
  unfold hamiltonian. assert (FH : fH (mK t) = true) by reflexivity. rewrite FH. cbn [check bind].
  destruct (acc _); [reflexivity|]. rewrite (restoreState_saved t) by reflexivity. reflexivity.
Qed.

Lemma hamOf_pert p g e e' sp wc : pertPar e = pertPar e' -> hamOf p g e sp wc = hamOf p g e' sp wc.
Proof.
  destruct e as [q|], e' as [q'|]; cbn [pertPar]; intros E; try discriminate; auto.
  inversion E as [[E1 E2 E3]]. unfold hamOf, ecH. rewrite E1, E2, E3. reflexivity.
Qed.
Lemma dcOf_pert p g e e' wc cc : pertPar e = pertPar e' -> dcOf p g e wc cc = dcOf p g e' wc cc.
Proof.
  destruct e as [q|], e' as [q'|]; cbn [pertPar]; intros E; try discriminate; auto.
  inversion E as [[E1 E2 E3]]. unfold dcOf. rewrite E1, E2, E3. reflexivity.
Qed.
Lemma svd_pertPar s : pertPar (mPert (svd s)) = pertPar (mPert s).
Proof. cbn. destruct (mPert s); reflexivity. Qed.

(** Outcome of a move that is not a force-bias move. *)
Lemma mcMove_fields mde comp newW acc s : ready s -> nH (mNeed s) = true ->
  let W := newW (clearData (svd s)) in
  let w' := snd (comp (mPar s) W) in
  exists s' r, mcMove mde comp newW acc s = Ok (s', r) /\
    r = (if fst (comp (mPar s) W) then FailedMove
         else if acc (exp (- (hTot (hamOf (mPar s) (mEig s) (mPert s) (snd (mde (mPar s) w')) (wcOf (pM (mPar s)) (mEig s) w')) - hTot (kH (mK s)))))
              then Accepted else Rejected) /\
    (r = Accepted -> yW (mSys s') = w' /\
       kH (mK s') = hamOf (mPar s) (mEig s) (mPert s) (snd (mde (mPar s) w')) (wcOf (pM (mPar s)) (mEig s) w') /\
       pertPar (mPert s') = pertPar (mPert s)).
Proof.
  intros R HN W w'. unfold mcMove, hamiltonian at 1. rewrite (rd_h s R HN). cbn [check bind].
  rewrite (saveState_ready s R). cbn [bind]. fold W. unfold compress at 1.
  change (mPar (setW W (clearData (svd s)))) with (mPar s). change (yW (mSys (setW W (clearData (svd s))))) with W.
  fold w'. set (s4 := compute mde (setW w' (setW W (clearData (svd s))))).
  assert (Y4 : yHasC (mSys s4) = true) by reflexivity. rewrite Y4. cbn [check bind].
  assert (V4 : svHas (mSv s4) = true) by reflexivity.
  assert (P4 : pertPar (mPert s4) = pertPar (mPert s)) by apply svd_pertPar.
  assert (Q4 : mPar s4 = mPar s /\ mEig s4 = mEig s /\ yW (mSys s4) = w' /\ ySp (mSys s4) = snd (mde (mPar s) w')) by (repeat split; reflexivity).
  clearbody s4. destruct Q4 as (q1 & q2 & q3 & q4).
  destruct (fst (comp (mPar s) W)).
  { rewrite (restoreState_saved s4 V4). cbn [bind]. eexists _, _. split; [reflexivity|]. split; [reflexivity|]. discriminate. }
  assert (X : exists s7, (s6 <- (if nCc (mNeed s) || nDc (mNeed s) then check (yHasC (mSys (computeWc s4))) ;; computeCc (computeWc s4) else Ok (computeWc s4)) ;;
              (if nDc (mNeed s) then computeDc s6 else Ok s6)) = Ok s7 /\ mSys s7 = mSys s4 /\ mPar s7 = mPar s4 /\ mEig s7 = mEig s4 /\ mPert s7 = mPert s4 /\
              mSv s7 = mSv s4 /\ fWc (mK s7) = true /\ kWc (mK s7) = wcOf (pM (mPar s4)) (mEig s4) (yW (mSys s4))).
  { unfold computeCc, computeDc, computeCc. cbn [computeWc withK mSys mK]. rewrite Y4. cbn [check bind].
    destruct (nCc (mNeed s)), (nDc (mNeed s)); cbn; try (eexists; split; [reflexivity|]; cbn; repeat split; reflexivity). }
  destruct X as (s7 & X & x1 & x2 & x3 & x4 & x5 & x6 & x7).
  destruct (if nCc (mNeed s) || nDc (mNeed s) then check (yHasC (mSys (computeWc s4))) ;; computeCc (computeWc s4) else Ok (computeWc s4)) as [s6|?|?|]; try discriminate X.
  cbn [bind] in *. rewrite X. cbn [bind].
  rewrite (computeHam_ok s7) by congruence. cbn [bind]. unfold hamiltonian.
  assert (F : fH (mK (stH s7)) = true) by reflexivity. rewrite F. cbn [check bind].
  assert (K : kH (mK (stH s7)) = hamOf (mPar s) (mEig s) (mPert s) (snd (mde (mPar s) w')) (wcOf (pM (mPar s)) (mEig s) w')).
  { cbn [stH withPert withK mK kH]. rewrite x7, x1, x2, x3, x4, q1, q2, q3, q4. apply hamOf_pert. exact P4. }
  rewrite K. destruct (acc _).
  - eexists _, _. split; [reflexivity|]. split; [reflexivity|]. intros _. split; [cbn; rewrite x1; exact q3|]. split; [exact K|].
    cbn. rewrite x4. rewrite <- P4. destruct (mPert s4); reflexivity.
  - rewrite (restoreState_saved (stH s7)) by (cbn; rewrite x5; exact V4). cbn [bind].
    eexists _, _. split; [reflexivity|]. split; [reflexivity|]. discriminate.
Qed.

(** Fields after a step of Brownian dynamics. *)
Definition bdW (c : bdChoice) (mde : par -> (nat -> nat -> R) -> (nat -> nat -> R) * list (R * R * R))
    (comp : par -> (nat -> nat -> R) -> bool * (nat -> nat -> R)) (s : sim) : nat -> nat -> R :=
  let p := mPar s in let g := mEig s in let w := yW (mSys s) in let d := kDc (mK s) in
  let noise mob (rnd : nat -> nat -> R) j k := sqrt (2 * mob * INR (pMesh p) / pVol p) * rnd j k in
  match c with
  | Explicit mob rnd => displace (pM p) g w (fun j k => (-1) * mob * d j k + noise mob rnd j k)
  | LM mob eo en => displace (pM p) g w (fun j k => (-1) * mob * d j k + en j k + eo j k)
  | PredCorr mob rnd =>
    let w1 := snd (comp p (displace (pM p) g w (fun j k => (-1) * mob * d j k + noise mob rnd j k))) in
    let d1 := dcOf p g (mPert s) (wcOf (pM p) g w1) (ccOf (pM p) g (fst (mde p w1))) in
    displace (pM p) g (fun i k => w i k + (wcOf (pM p) g w1 (pM p - 1)%nat k - kWc (mK s) (pM p - 1)%nat k))
      (fun j k => (1/2) * ((-1) * mob) * (d j k + d1 j k) + noise mob rnd j k)
  end.
Lemma doStep_fields mde comp c s s' : ready s -> doStep mde comp c s = Ok (s', true) ->
  yW (mSys s') = snd (comp (mPar s) (bdW c mde comp s)).
Proof.
  intros R E. destruct c as [mob rnd|mob eo en|mob rnd]; cbn [doStep bdW] in *.
  - unfold explicitStep in E. rewrite (saveState_ready s R) in E. cbn [bind] in E. unfold compress in E at 1.
    cbn [mPar mEig mSys yW setW withSys withSv withPert clearData withK mK kDc mNeed svd] in E.
    match type of E with context [comp (mPar s) ?w] => set (W := w) in * end.
    destruct (comp (mPar s) W) as [err w'] eqn:CO. cbn [fst snd] in *. destruct err.
    + cbn in E. discriminate E.
    + cbn in E. inversion E. subst s'. reflexivity.
  - unfold lmStep in E. rewrite (saveState_ready s R) in E. cbn [bind] in E. unfold compress in E at 1.
    cbn [mPar mEig mSys yW setW withSys withSv withPert clearData withK mK kDc mNeed svd] in E.
    match type of E with context [comp (mPar s) ?w] => set (W := w) in * end.
    destruct (comp (mPar s) W) as [err w'] eqn:CO. cbn [fst snd] in *. destruct err.
    + cbn in E. discriminate E.
    + cbn in E. inversion E. subst s'. reflexivity.
  - unfold predCorrStep in E. rewrite (saveState_ready s R) in E. cbn [bind] in E. unfold compress in E at 1.
    change (mPar (setW _ (svd s))) with (mPar s) in E. change (kDc (mK (svd s))) with (kDc (mK s)) in E.
    change (mEig (svd s)) with (mEig s) in E. change (yW (mSys (svd s))) with (yW (mSys s)) in E. change (kWc (mK (svd s))) with (kWc (mK s)) in E.
    cbn [yW setW withSys mSys] in E.
    match type of E with context [comp (mPar s) ?w] => set (W := w) in * end.
    destruct (comp (mPar s) W) as [err w1] eqn:CO. cbn [fst snd] in *.
    set (s3 := compute mde _) in E.
    assert (Q3 : mPar s3 = mPar s /\ mEig s3 = mEig s /\ mPert s3 = mPert (svd s) /\ yHasC (mSys s3) = true /\ svHas (mSv s3) = true /\
       yW (mSys s3) = w1 /\ yC (mSys s3) = fst (mde (mPar s) w1)) by (repeat split; reflexivity).
    clearbody s3. destruct Q3 as (q1 & q2 & q3 & q4 & q5 & q6 & q7). destruct err.
    { rewrite (restoreState_saved s3 q5) in E. discriminate E. }
    rewrite q4 in E. cbn [check bind] in E. rewrite (refreshCc s3 q4) in E. cbn [bind] in E. rewrite refreshDc in E. cbn [bind] in E.
    unfold compress in E at 1. change (mPar (setW _ (stDc s3))) with (mPar s3) in E. change (mEig (stDc s3)) with (mEig s3) in E.
    cbn [yW setW withSys mSys] in E. rewrite q1, q2 in E.
    cbn [stDc withK mK kWc kDc] in E. rewrite q1, q2, q6, q7 in E.
    rewrite (dcOf_pert _ _ (mPert s3) (mPert s)) in E by (rewrite q3; apply svd_pertPar).
    match type of E with context [comp (mPar s) ?w] => set (W2 := w) in * end.
    match goal with |- context [comp (mPar s) ?w] => change w with W2 end.
    destruct (comp (mPar s) W2) as [err2 w2]. cbn [fst snd] in *.
    set (s7 := compute mde _) in E.
    assert (Q7 : yHasC (mSys s7) = true /\ svHas (mSv s7) = true /\ yW (mSys s7) = w2) by (repeat split; auto).
    clearbody s7. destruct Q7 as (r1 & r2 & r3). destruct err2.
    { rewrite (restoreState_saved s7 r2) in E. discriminate E. }
    rewrite r1 in E. cbn [check bind] in E. rewrite (refreshCc (clearState s7) r1) in E. cbn [bind] in E. rewrite refreshDc in E. cbn [bind] in E.
    inversion E. subst s'. cbn. exact r3.
Qed.

Lemma trial_facts mde s u w : mPar u = mPar s -> mEig u = mEig s -> pertPar (mPert u) = pertPar (mPert s) ->
  kDc (mK (trial mde u w)) = trueDc mde (setW w s) /\ kH (mK (trial mde u w)) = trueH mde (setW w s) /\
  yW (mSys (trial mde u w)) = w.
Proof.
  intros A B P. split; [|split].
  - unfold trueDc. cbn [trial stH stDc compute setW withPert withK withSys mK kDc mSys yW yC mPar mEig mPert]. rewrite A, B.
    apply dcOf_pert. exact P.
  - unfold trueH. cbn [trial stH stDc compute setW withPert withK withSys mK kH kWc mSys yW yC ySp mPar mEig mPert]. rewrite A, B.
    apply hamOf_pert. exact P.
  - reflexivity.
Qed.
Lemma fbMove_spec mde comp mob rnd acc s : ready s -> current mde s -> nDc (mNeed s) = true -> nH (mNeed s) = true ->
  forall x W w',
  x = fbDwc mob (pVol (mPar s) / INR (pMesh (mPar s))) (trueDc mde s) rnd ->
  W = displace (pM (mPar s)) (mEig s) (yW (mSys s)) x ->
  comp (mPar s) W = (false, w') ->
  exists t, kDc (mK t) = trueDc mde (setW w' s) /\ kH (mK t) = trueH mde (setW w' s) /\ yW (mSys t) = w' /\
  fbMove mde comp mob rnd acc s =
  if acc (exp (fbBias (pM (mPar s)) (pMesh (mPar s)) mob (pVol (mPar s) / INR (pMesh (mPar s))) (trueDc mde s) (trueDc mde (setW w' s)) x
               - (hTot (trueH mde (setW w' s)) - hTot (trueH mde s))))
  then Ok (clearState t, Accepted) else Ok (rst t, Rejected).
Proof.
  intros R C HD HN x W w' Hx HW HC.
  assert (D : kDc (mK s) = trueDc mde s) by (apply (cu_dc _ _ C), (rd_dc _ R HD)).
  assert (HH : kH (mK s) = trueH mde s) by (apply (cu_h _ _ C), (rd_h _ R HN)).
  pose proof (fbMove_eq mde comp mob rnd acc s R HD HN) as E. cbn zeta in E. rewrite D in E. rewrite <- Hx, <- HW in E.
  rewrite HC in E. specialize (E eq_refl). cbn [snd] in E.
  set (u := clearData (setW W (clearData (svd s)))) in E.
  destruct (trial_facts mde s u w') as (T1 & T2 & T3); [reflexivity|reflexivity|apply svd_pertPar|].
  clearbody u. exists (trial mde u w'). rewrite T1, T2, HH in E. spl.
Qed.

Lemma fbMove_fail mde comp mob rnd acc s : ready s -> nDc (mNeed s) = true -> nH (mNeed s) = true ->
  fst (comp (mPar s) (displace (pM (mPar s)) (mEig s) (yW (mSys s)) (fbDwc mob (pVol (mPar s) / INR (pMesh (mPar s))) (kDc (mK s)) rnd))) = true ->
  exists s', fbMove mde comp mob rnd acc s = Ok (s', FailedMove).
Proof.
  intros R HD HN F. unfold fbMove.
  pose proof (rd_wc s R) as R1. pose proof (rd_dc s R HD) as R3. pose proof (rd_h s R HN) as R4.
  unfold hamiltonian at 1. rewrite R1, R3, R4. cbn [check bind]. rewrite (saveState_ready s R). cbn [bind].
  change (kDc (mK (clearData (svd s)))) with (kDc (mK s)). change (mEig (clearData (svd s))) with (mEig s).
  change (yW (mSys (clearData (svd s)))) with (yW (mSys s)).
  unfold compress at 1. cbn [mPar clearData setW withSys withK svd withPert withSv mSys yW].
  rewrite F. rewrite restoreState_saved by reflexivity. cbn [bind]. eexists. reflexivity.
Qed.
