(** C79: the analyzers report the derivatives of the free energy *)
From Coq Require Import Reals List Arith Bool Lia Lra.
From Coquelicot Require Import Coquelicot.
From Coq Require Import List.
From Verif Require Import Base RSum Fts FtsProofs FtsEig PropsFts PropsFtsMoves Deriv.
Import ListNotations.
Local Open Scope R_scope.

Notation solver := (par -> (nat -> nat -> R) -> (nat -> nat -> R) * list (R * R * R)) (only parsing).

(** ** Specification *)

(** Energy of fields w for given parameters; sp: data of the species, which depend
    on the fields only *)
Definition energy (p : par) (g : eig) (e : option ecp) (sp : list (R * R * R)) (w : nat -> nat -> R) : R :=
  hTot (hamOf p g e sp (wcOf (pM p) g w)).
Definition withChi (p : par) (chi : nat -> nat -> R) : par := mkPar (pM p) (pMesh p) chi (pVMono p) (pVol p) (pOther p).
Definition withV (p : par) (v : R) : par := mkPar (pM p) (pMesh p) (pChi p) v (pVol p) (pOther p).
Definition withLambda (q : ecp) (l : R) : ecp := mkEcp l (eEps q) (eWc0 q) (eEc q) (eUn q) (eSEc q) (eSUn q).
(** Logarithm of the integral of exp(- n W^2 / (N chi)) over the exchange field at
    each of the N points of the grid (n monomers) *)
Definition logNorm (N : nat) (n chi : R) : R := INR N / 2 * ln (PI * INR N * chi / n).
(** A chi matrix with given off-diagonal element *)
Definition chi2 (a b x : R) : nat -> nat -> R := fun i j => if (i =? j)%nat then (if (i =? 0)%nat then a else b) else x.

(** The members of the perturbation belong to the Hamiltonian that is marked
    available *)
Definition pertOk (mde : solver) (s : sim) : Prop :=
  forall q, mPert s = Some q -> fH (mK s) = true ->
    eEc q = ecH (mPar s) q (wcOf (pM (mPar s)) (mEig s) (yW (mSys s))) /\ eUn q = hIdeal (trueH mde s) + hField (trueH mde s).

(** ** State *)
Definition agrees (s s' : sim) : Prop :=
  mPar s' = mPar s /\ mEig s' = mEig s /\ yW (mSys s') = yW (mSys s) /\ pertPar (mPert s') = pertPar (mPert s).
Lemma agrees_true : forall mde s s', agrees s s' -> trueH mde s' = trueH mde s /\ trueDc mde s' = trueDc mde s.
Proof. intros mde s s' (A & B & C & D). split; [apply trueH_ext|apply trueDc_ext]; auto. Qed.
Lemma compute_step : forall mde s, current mde s -> agrees s (compute mde s) /\ current mde (compute mde s) /\ yHasC (mSys (compute mde s)) = true /\
  mK (compute mde s) = mK s /\ mPert (compute mde s) = mPert s.
Proof.
  intros mde s [C1 C2 C3 C4]. assert (A : agrees s (compute mde s)) by (repeat split). split; [exact A|]. split; [|repeat split].
  destruct (agrees_true mde _ _ A) as [T1 T2]. constructor; rewrite ?T1, ?T2; auto.
Qed.
Lemma wc_step : forall mde s, current mde s -> agrees s (computeWc s) /\ current mde (computeWc s) /\ mSys (computeWc s) = mSys s /\
  fWc (mK (computeWc s)) = true /\ fH (mK (computeWc s)) = fH (mK s) /\ mPert (computeWc s) = mPert s.
Proof.
  intros mde s [C1 C2 C3 C4]. assert (A : agrees s (computeWc s)) by (repeat split). split; [exact A|]. split; [|repeat split].
  destruct (agrees_true mde _ _ A) as [T1 T2]. constructor; rewrite ?T1, ?T2; auto.
Qed.
Lemma ham_step : forall mde s, current mde s -> yHasC (mSys s) = true -> fWc (mK s) = true ->
  exists s', computeHamiltonian s = Ok s' /\ agrees s s' /\ current mde s' /\ yHasC (mSys s') = true /\ fWc (mK s') = true /\ fH (mK s') = true /\ pertOk mde s'.
Proof.
  intros mde s [C1 C2 C3 C4] HC HW. destruct (C1 HC) as [_ ES]. specialize (C2 HW).
  unfold computeHamiltonian. rewrite HC, HW. cbn [check bind]. eexists. split; [reflexivity|]. rewrite ES, C2.
  match goal with |- agrees s ?t /\ _ => assert (A : agrees s t) by (repeat split; destruct (mPert s); reflexivity) end.
  split; [exact A|]. destruct (agrees_true mde _ _ A) as [T1 T2]. split; [constructor; rewrite ?T1, ?T2; cbn; auto|].
  split; [exact HC|]. split; [reflexivity|]. split; [reflexivity|]. intros q H _. rewrite T1. cbn in H. unfold trueH.
  destruct (mPert s); [|discriminate]. injection H as <-. split; reflexivity.
Qed.
Lemma pertOk_agrees : forall mde s s', agrees s s' -> mPert s' = mPert s -> fH (mK s') = fH (mK s) -> pertOk mde s -> pertOk mde s'.
Proof.
  intros mde s s' A P F H q Q Fq. destruct (agrees_true mde _ _ A) as [T1 _]. rewrite T1. destruct A as (A1 & A2 & A3 & _). rewrite A1, A2, A3. apply H; congruence.
Qed.
Lemma agrees_trans : forall a b c, agrees a b -> agrees b c -> agrees a c.
Proof. unfold agrees. intuition congruence. Qed.

(** The analyzers leave fields and parameters alone, and what is then available is
    current. *)
Lemma refresh_ok : forall mde s, current mde s -> exists s', refresh mde s = Ok s' /\ agrees s s' /\ current mde s' /\
  yHasC (mSys s') = true /\ fWc (mK s') = true /\ fH (mK s') = true /\ kH (mK s') = trueH mde s /\ (pertOk mde s -> pertOk mde s').
Proof.
  intros mde s C. unfold refresh.
  set (s1 := if yHasC (mSys s) then s else compute mde s).
  assert (H1 : agrees s s1 /\ current mde s1 /\ yHasC (mSys s1) = true /\ mK s1 = mK s /\ mPert s1 = mPert s).
  { unfold s1. destruct (yHasC (mSys s)) eqn:E; [|apply compute_step; auto]. split; [repeat split|]. auto. }
  destruct H1 as (A1 & C1 & Y1 & K1 & P1). clearbody s1.
  set (s2 := if fWc (mK s1) then s1 else computeWc s1).
  assert (H2 : agrees s1 s2 /\ current mde s2 /\ mSys s2 = mSys s1 /\ fWc (mK s2) = true /\ fH (mK s2) = fH (mK s1) /\ mPert s2 = mPert s1).
  { unfold s2. destruct (fWc (mK s1)) eqn:E; [|apply wc_step; auto]. split; [repeat split|]. auto. }
  destruct H2 as (A2 & C2 & Y2 & W2 & F2 & P2). clearbody s2. assert (A := agrees_trans _ _ _ A1 A2).
  destruct (fH (mK s2)) eqn:E.
  - exists s2. split; [reflexivity|]. split; [auto|]. split; [auto|]. split; [congruence|]. split; [auto|]. split; [auto|].
    split; [rewrite (cu_h _ _ C2 E); apply (agrees_true mde _ _ A)|]. apply pertOk_agrees; auto; congruence.
  - destruct (ham_step mde s2 C2) as (s' & E' & A3 & C3 & Y3 & W3 & F3 & P3); [congruence|auto|].
    exists s'. assert (A' := agrees_trans _ _ _ A A3). split; [auto|]. split; [auto|]. split; [auto|]. split; [auto|]. split; [auto|]. split; [auto|].
    split; [rewrite (cu_h _ _ C3 F3); apply (agrees_true mde _ _ A')|auto].
Qed.

(** Moves keep the members of the perturbation up to date. *)
Lemma pertOk_view : forall mde s s', agrees s s' -> pertView (mPert s') = pertView (mPert s) -> fH (mK s) = true -> pertOk mde s -> pertOk mde s'.
Proof.
  intros mde s s' A V F H q Q Fq. destruct (agrees_true mde _ _ A) as [T1 _]. rewrite T1. destruct A as (A1 & A2 & A3 & _). rewrite A1, A2, A3.
  rewrite Q in V. destruct (mPert s) as [q0|] eqn:E; [|discriminate]. destruct (H q0 E F) as [H1 H2]. cbn in V. injection V as V1 V2 V3 V4 V5.
  unfold ecH in *. rewrite V2, V3, V4, V5. auto.
Qed.
Lemma accepted_pert : forall mde comp c s s', ready s -> nH (mNeed s) = true -> (usesDc c = true -> nDc (mNeed s) = true) ->
  doMove mde comp c s = Ok (s', Accepted) -> pertOk mde s'.
Proof.
  intros mde comp c s s' [R1 R2 R3 R4 R5] HN HD.
  destruct s as [p g [W C sp hc] [wc cc dc h f1 f2 f3 f4] [sw swc scc sdc sh shas] [nc nd nh] e].
  cbn [mK fWc fCc fDc fH mNeed nCc nDc nH mSv svHas] in *. subst f1 nh shas. kill. subst f4.
  destruct c as [newW acc|mob rnd acc]; cbn [usesDc] in HD; kill.
  - unfold doMove, mcMove, hamiltonian, saveState.
    cbn [mK fWc fCc fDc fH kH mNeed nCc nDc nH mSv svHas check bind negb implb].
    destruct nc, nd; kill; subst; cbn [check bind negb implb]; set (W' := newW _); clearbody W'; unfold compress;
      cbn [mPar mSys yW setW withSys withSv withPert clearData withK];
      destruct (comp p W') as [err w'] eqn:CO; cbn [fst snd]; destruct err; cbn;
      (match goal with |- context [acc ?x] => destruct (acc x) end || idtac); cbn; intros E; try discriminate; injection E as <-;
      intros q Q _; cbn in Q; (destruct e as [e|]; [|discriminate]); injection Q as <-; split; reflexivity.
  - rewrite HD in *. clear nd HD. kill. subst f3.
    unfold doMove, fbMove, hamiltonian, saveState.
    cbn [mK fWc fCc fDc fH kH mNeed nCc nDc nH mSv svHas check bind negb implb].
    destruct nc; kill; subst; cbn [check bind negb implb]; unfold compress;
      cbn [mPar mEig mSys yW setW withSys withSv withPert clearData withK mK kDc mNeed];
      match goal with |- context [comp p ?w] => set (W' := w); clearbody W' end;
      destruct (comp p W') as [err w'] eqn:CO; cbn [fst snd]; destruct err; cbn;
      (match goal with |- context [acc ?x] => destruct (acc x) end || idtac); cbn; intros E; try discriminate; injection E as <-;
      intros q Q _; cbn in Q; (destruct e as [e|]; [|discriminate]); injection Q as <-; split; reflexivity.
Qed.
Lemma doMove_pert : forall mde comp c s s' r, ready s -> nH (mNeed s) = true -> (usesDc c = true -> nDc (mNeed s) = true) ->
  doMove mde comp c s = Ok (s', r) -> pertOk mde s -> pertOk mde s'.
Proof.
  intros mde comp c s s' r R HN HD E P. destruct (doMove_ok mde comp c s R HN HD) as (s1 & r1 & E1 & R1 & Q1 & Q2 & Q3 & S1 & _ & C1).
  rewrite E in E1. injection E1 as <- <-. assert (D : r = Accepted \/ r <> Accepted) by (destruct r; auto; right; discriminate).
  destruct D as [D|NA]; [subst r; exact (accepted_pert mde comp c s s' R HN HD E)|]. destruct (S1 NA) as [V1 V2 V3 V4 V5 V6].
  apply (pertOk_view mde s); auto; [|apply R; auto]. repeat split; auto. apply pertView_par. auto.
Qed.
Lemma mcLoop_pert : forall eigOf mde comp l i s s' n, ready s -> current mde s -> nH (mNeed s) = true -> allowed s l -> pertOk mde s ->
  mcLoop eigOf mde comp None l i s = Ok (s', n) -> pertOk mde s'.
Proof.
  intros eigOf mde comp. induction l as [|c l IH]; intros i s s' n R C HN HA P E; cbn [mcLoop] in E; [injection E as <- _; auto|].
  assert (HD : usesDc c = true -> nDc (mNeed s) = true) by (intros; apply (HA c); [left; auto|auto]).
  destruct (doMove_ok mde comp c s R HN HD) as (s1 & r1 & E1 & R1 & Q1 & Q2 & Q3 & _ & _ & C1). rewrite E1 in E. cbn [bind fst snd] in E.
  pose proof (doMove_pert mde comp c s s1 r1 R HN HD E1 P) as P1.
  assert (HA1 : allowed s1 l) by (intros c' I' U; rewrite Q3; apply (HA c'); [right; auto|auto]).
  destruct r1; cbn [rampStep bind] in E; eapply IH; eauto; try congruence.
Qed.

Lemma moveSetups_pert : forall mde n s s', moveSetups mde n s = Ok s' -> pertOk mde s -> pertOk mde s'.
Proof.
  intros mde. induction n as [|n IH]; intros s s' E P; cbn [moveSetups] in E; [injection E as <-; auto|].
  destruct (moveSetup mde s) as [s1|?|?|] eqn:E1; try discriminate. cbn [bind] in E. apply (IH s1 s' E). clear E IH.
  destruct s as [p g [W C sp hc] [wc cc dc h f1 f2 f3 f4] sv [nc nd nh] e]. unfold moveSetup, computeDc in E1. cbn in E1.
  assert (Q : mPar s1 = p /\ mEig s1 = g /\ yW (mSys s1) = W /\ mPert s1 = e /\ fH (mK s1) = f4).
  { destruct nc, nd; cbn in E1; injection E1 as <-; repeat split. }
  destruct Q as (Q1 & Q2 & Q3 & Q4 & Q5). revert P. apply pertOk_agrees; cbn; auto. repeat split; cbn; congruence.
Qed.
Lemma mcSetup_pert : forall eigOf mde comp n s s', mcSetup eigOf mde comp n s = Ok s' -> pertOk mde s'.
Proof.
  intros eigOf mde comp n s s' E. unfold mcSetup in E. destruct (eigOf (mPar s) (mEig s)) as [g| | |]; try discriminate. cbn [bind] in E.
  match type of E with bind ?a _ = _ => destruct a as [s3| | |] eqn:E3; try discriminate end. cbn [bind] in E.
  match type of E with bind ?a _ = _ => destruct a as [s4| | |] eqn:E4; try discriminate end. cbn [bind] in E.
  destruct (computeHamiltonian s4) as [s5| | |] eqn:E5; try discriminate. cbn [bind] in E. apply (moveSetups_pert _ _ _ _ E). clear E.
  destruct s as [p g0 [W C sp hc] [wc cc dc h f1 f2 f3 f4] sv [nc nd nh] e]. unfold compress, computeCc, computeDc, computeHamiltonian in *. cbn in *.
  destruct nc, nd; cbn in *; injection E3 as <-; cbn in E4; injection E4 as <-; cbn in E5; injection E5 as <-;
    (intros q Q _; cbn in Q; destruct e; [|discriminate]; injection Q as <-; split; reflexivity).
Qed.

(** ** Derivatives *)
Section TwoMonomers.
Variables (p : par) (sp : list (R * R * R)) (w : nat -> nat -> R).
Hypothesis HM : pM p = 2%nat.
Hypothesis HN : (0 < pMesh p)%nat.
Hypothesis HV : 0 < pVMono p.
Hypothesis HVol : 0 < pVol p.
Let N := pMesh p.
Let n := pVol p / pVMono p.

(** The matrix of a mixture of two monomer types *)
Lemma eig2 : forall a b x g, eigSpec 2 (chi2 a b x) g ->
  exists s, (s = 1 \/ s = -1) /\ gVec g 0%nat 0%nat = s /\ gVec g 0%nat 1%nat = - s /\ gVec g 1%nat 0%nat = 1 /\ gVec g 1%nat 1%nat = 1 /\
    gVal g 0%nat = (a + b) / 2 - x /\ gSc g 0%nat = s * (a - b) / 4 /\ gSc g 1%nat = (a + b + 2 * x) / 4 /\ gVal g 0%nat < 0.
Proof.
  intros a b x g E. pose proof (es_sum _ _ _ E 0%nat ltac:(lia)) as E1. pose proof (es_orth _ _ _ E 0%nat 0%nat ltac:(lia) ltac:(lia)) as E2.
  pose proof (es_press _ _ _ E 0%nat ltac:(lia)) as P0. pose proof (es_press _ _ _ E 1%nat ltac:(lia)) as P1.
  pose proof (es_eig _ _ _ E 0%nat 0%nat ltac:(lia) ltac:(lia)) as E3.
  pose proof (es_sc _ _ _ E 0%nat ltac:(lia)) as S0. pose proof (es_sc _ _ _ E 1%nat ltac:(lia)) as S1. pose proof (es_neg _ _ _ E 0%nat ltac:(lia)) as NG.
  unfold chi2, delta in *. cbn in *. set (u := gVec g 0%nat 0%nat) in *. set (v := gVec g 0%nat 1%nat) in *.
  assert (V : v = - u) by lra. rewrite V in *. assert (U : (u - 1) * (u + 1) = 0) by lra.
  assert (UU : u = 1 \/ u = -1) by (apply Rmult_integral in U; destruct U; [left|right]; lra).
  assert (U0 : u <> 0) by (destruct UU; lra).
  exists u. split; [exact UU|]. split; [auto|]. split; [auto|]. split; [auto|]. split; [auto|]. split.
  - apply (Rmult_eq_reg_r u); [|auto]. rewrite <- E3. field.
  - split; [rewrite S0; field|]. split; [rewrite S1, P0, P1; field|exact NG].
Qed.
(** Mean square of the difference of the fields *)
Definition ms (d : R) : R := rsum N (fun i => ((w 0%nat i - w 1%nat i) / 2 - d) ^ 2) / INR N.
Lemma energy2 : forall a b x g, eigSpec 2 (chi2 a b x) g ->
  energy (withChi p (chi2 a b x)) g None sp w = n * (ms ((a - b) / 4) / (x - (a + b) / 2) + (a + b + 2 * x) / 8)
     - n * (fold_left (fun acc s => let '(phi, mu, size) := s in if rlt (1 / 100000000) phi then acc + phi * (- mu + 1) / size else acc) sp 0
            + rsum N (fun i => (w 0%nat i + w 1%nat i) / 2 / INR N)) /\
  hField (hamOf (withChi p (chi2 a b x)) g None sp (wcOf 2 g w)) = n * (ms ((a - b) / 4) / (x - (a + b) / 2) + (a + b + 2 * x) / 8).
Proof.
  intros a b x g E. destruct (eig2 a b x g E) as (s & HS & V0 & V1 & P0 & P1 & L & S0 & S1 & NG).
  assert (HNr : 0 < INR N) by (apply lt_0_INR; auto).
  assert (F : fieldH (withChi p (chi2 a b x)) g (wcOf 2 g w) = ms ((a - b) / 4) / (x - (a + b) / 2) + (a + b + 2 * x) / 8).
  { unfold fieldH, withChi. cbn [pM pMesh]. rewrite HM. cbn [Nat.sub rsum]. rewrite S1. fold N. unfold ms.
    rewrite (rsum_ext N _ (fun i => / (x - (a + b) / 2) * ((w 0%nat i - w 1%nat i) / 2 - (a - b) / 4) ^ 2)).
    - rewrite rsum_scal. rewrite L in NG. field. lra.
    - intros i _. unfold wcOf. cbn [rsum INR]. rewrite V0, V1, L, S0. rewrite L in NG.
      destruct HS as [-> | ->]; cbn [pow]; field; lra. }
  unfold energy, hamOf. cbn [hTot hField]. change (pM (withChi p (chi2 a b x))) with (pM p). rewrite HM, F. cbn [withChi pVol pVMono]. fold n. split; [|reflexivity].
  unfold lnQ. cbn [withChi pM pMesh]. rewrite HM. cbn [Nat.sub]. fold N.
  rewrite (rsum_ext N (fun i => wcOf 2 g w 1%nat i / INR N) (fun i => (w 0%nat i + w 1%nat i) / 2 / INR N)).
  - ring.
  - intros i _. unfold wcOf. cbn [rsum INR]. rewrite P0, P1. field. lra.
Qed.
End TwoMonomers.

Lemma par_chi : forall p c, pChi p = c -> withChi p c = p.
Proof. intros [] c <-. reflexivity. Qed.
Lemma near_pos : forall x, 0 < x -> locally x (fun y => 0 < y).
Proof. intros x H. exists (mkposreal x H). intros y B. unfold ball in B. cbn in B. unfold AbsRing_ball, abs, minus, plus, opp in B. cbn in B. apply Rabs_def2 in B. lra. Qed.
Lemma derive_inv : forall c K x, x <> 0 -> is_derive (fun y => c / y + K) x (- c / x ^ 2).
Proof. intros. auto_derive; [auto|]. field. auto. Qed.

(** ** Theorems *)

(** ChiDerivative is the derivative with respect to chi of the Hamiltonian of the
    current fields and the logarithm of the normalisation, for a chi matrix without
    diagonal elements and without perturbation. *)
Theorem C79_chi_partial : forall mde s g x, current mde s -> pM (mPar s) = 2%nat -> (0 < pMesh (mPar s))%nat -> 0 < pVMono (mPar s) -> 0 < pVol (mPar s) ->
  mPert s = None -> 0 < x -> pChi (mPar s) = chi2 0 0 x -> (forall y, 0 < y -> eigSpec 2 (chi2 0 0 y) (g y)) -> mEig s = g x ->
  let p := mPar s in let w := yW (mSys s) in
  exists s' d, chiDerivative mde s = Ok (s', d) /\ yW (mSys s') = w /\ current mde s' /\
    is_derive (fun y => energy (withChi p (chi2 0 0 y)) (g y) None (snd (mde p w)) w + logNorm (pMesh p) (pVol p / pVMono p) y) x d.
Proof.
  intros mde s g x C HM HN HV HVol HP Hx HC HG HE p w. destruct (refresh_ok mde s C) as (s' & E & (A1 & A2 & A3 & A4) & C' & _ & _ & _ & KH & _).
  unfold chiDerivative. rewrite HM. cbn [Nat.eqb check bind]. rewrite E. cbn [bind Nat.sub]. eexists. eexists. split; [reflexivity|]. split; [exact A3|]. split; [exact C'|].
  destruct (energy2 p (snd (mde p w)) w HM HN 0 0 x (g x) (HG x Hx)) as [_ F].
  destruct (eig2 p HM HN 0 0 x (g x) (HG x Hx)) as (_ & _ & _ & _ & _ & _ & _ & _ & S1 & _).
  rewrite KH, A2, HE, S1. unfold trueH. rewrite HP, HE. fold p w. change (pM p = 2%nat) in HM. change (pChi p = chi2 0 0 x) in HC. rewrite HM. rewrite <- (par_chi p _ HC) at 1. rewrite F.
  rewrite HC. change (chi2 0 0 x 0%nat 1%nat) with x.
  set (m := ms p w ((0 - 0) / 4)) in *. set (n := pVol p / pVMono p) in *.
  assert (Hn : 0 < n) by (apply Rdiv_lt_0_compat; auto). assert (HNr : 0 < INR (pMesh p)) by (apply lt_0_INR; auto).
  set (Q := - n * (fold_left (fun acc s => let '(phi, mu, size) := s in if rlt (1 / 100000000) phi then acc + phi * (- mu + 1) / size else acc) (snd (mde p w)) 0
            + rsum (pMesh p) (fun i => (w 0%nat i + w 1%nat i) / 2 / INR (pMesh p)))).
  apply (is_derive_ext_loc (fun y => n * (m / y + y / 4) + Q + INR (pMesh p) / 2 * ln (PI * INR (pMesh p) * y / n))).
  - apply (filter_imp (fun y => 0 < y)); [|exact (near_pos x Hx)]. intros y Hy.
    destruct (energy2 p (snd (mde p w)) w HM HN 0 0 y (g y) (HG y Hy)) as [F1 _]. rewrite F1. unfold logNorm, Q. fold m n.
    replace (y - (0 + 0) / 2) with y by field. replace ((0 + 0 + 2 * y) / 8) with (y / 4) by field. match goal with |- @eq _ ?p ?q => change (@eq R p q) end. ring.
  - assert (HPI : 0 < PI) by apply PI_RGT_0. assert (LP : 0 < PI * INR (pMesh p) * x / n) by (apply Rdiv_lt_0_compat; auto; apply Rmult_lt_0_compat; [apply Rmult_lt_0_compat|]; auto).
    auto_derive; [repeat split; try lra; exact LP|]. field. repeat split; lra.
Qed.

(** ConcentrationDerivative is the derivative with respect to the monomer
    concentration c = 1 / vMonomer, with or without perturbation. *)
Theorem C79_concentration : forall mde s chi, current mde s -> pM (mPar s) = 2%nat -> (0 < pMesh (mPar s))%nat -> 0 < pVMono (mPar s) -> 0 < pVol (mPar s) -> 0 < chi ->
  let p := mPar s in let w := yW (mSys s) in
  exists s' d, concDerivative mde s = Ok (s', d) /\ yW (mSys s') = w /\ current mde s' /\
    is_derive (fun c => energy (withV p (1 / c)) (mEig s) (mPert s) (snd (mde p w)) w + logNorm (pMesh p) (pVol p * c) chi) (1 / pVMono p) d.
Proof.
  intros mde s chi C HM HN HV HVol Hc p w. destruct (refresh_ok mde s C) as (s' & E & (A1 & A2 & A3 & A4) & C' & _ & _ & FH & KH & _).
  unfold concDerivative. rewrite HM. cbn [Nat.eqb check bind]. rewrite E. cbn [bind]. unfold hamiltonian. rewrite FH. cbn [check bind]. eexists. eexists. split; [reflexivity|]. split; [exact A3|]. split; [exact C'|].
  rewrite KH. fold p. assert (HNr : 0 < INR (pMesh p)) by (apply lt_0_INR; auto). fold p in HV, HVol.
  assert (V1 : 0 < 1 / pVMono p) by (apply Rdiv_lt_0_compat; lra).
  apply (is_derive_ext_loc (fun c => hTot (trueH mde s) * pVMono p * c + INR (pMesh p) / 2 * ln (PI * INR (pMesh p) * chi / (pVol p * c)))).
  - apply (filter_imp (fun y => 0 < y)); [|exact (near_pos _ V1)]. intros c Hc'. unfold logNorm. f_equal. unfold energy, trueH, hamOf. fold p w.
    destruct (mPert s) as [q|]; cbn [hTot withV pVol pVMono pM pMesh]; unfold fieldH, lnQ, ecH; cbn [withV pVol pVMono pM pMesh]; field; lra.
  - assert (HPI : 0 < PI) by apply PI_RGT_0. assert (VP : 0 < pVol p * (1 / pVMono p)) by (apply Rmult_lt_0_compat; auto).
    assert (LP : 0 < PI * INR (pMesh p) * chi / (pVol p * (1 / pVMono p))) by (apply Rdiv_lt_0_compat; auto; apply Rmult_lt_0_compat; [apply Rmult_lt_0_compat|]; auto).
    auto_derive; [repeat split; try lra; exact LP|]. field. repeat split; lra.
Qed.

(** PerturbationDerivative is the derivative with respect to lambda. *)
Theorem C79_perturbation : forall mde s q, current mde s -> pertOk mde s -> mPert s = Some q ->
  let p := mPar s in let w := yW (mSys s) in
  exists s' d, pertDerivative mde s = Ok (s', d) /\ yW (mSys s') = w /\ current mde s' /\ pertOk mde s' /\
    forall l, is_derive (fun l => energy p (mEig s) (Some (withLambda q l)) (snd (mde p w)) w) l d.
Proof.
  intros mde s q C P HP p w. destruct (refresh_ok mde s C) as (s' & E & A & C' & _ & _ & FH & KH & PO). specialize (PO P). pose proof (agrees_true mde _ _ A) as [T1 _]. destruct A as (A1 & A2 & A3 & A4).
  unfold pertDerivative. rewrite HP. cbn [check bind]. rewrite E. cbn [bind]. rewrite HP in A4. destruct (mPert s') as [q'|] eqn:HQ; [|discriminate].
  eexists. eexists. split; [reflexivity|]. split; [exact A3|]. split; [exact C'|]. split; [exact PO|]. intros l.
  destruct (PO q' HQ FH) as [E1 E2]. rewrite E1, E2, T1, A1, A2, A3. cbn in A4. injection A4 as B1 B2 B3.
  replace (ecH (mPar s) q' (wcOf (pM (mPar s)) (mEig s) (yW (mSys s)))) with (ecH p q (wcOf (pM p) (mEig s) w)) by (unfold ecH; rewrite B2, B3; reflexivity).
  unfold trueH, energy. rewrite HP. fold p w. set (wc := wcOf (pM p) (mEig s) w). set (sp := snd (mde p w)).
  set (h := hIdeal (hamOf p (mEig s) (Some q) sp wc) + hField (hamOf p (mEig s) (Some q) sp wc)).
  apply (is_derive_ext (fun l => h + (1 - l) * (ecH p q wc - h))).
  - intros t. unfold h, hamOf. cbn [hTot hIdeal hField withLambda eLambda]. change (ecH p (withLambda q t) wc) with (ecH p q wc). reflexivity.
  - auto_derive; [auto|]. ring.
Qed.

(** HamiltonianAnalyzer reports the terms for the current fields; they add up. *)
Theorem C79_hamiltonian : forall mde s, current mde s -> exists s' i f t,
  hamAnalyzer mde s = Ok (s', (i, f, t)) /\ yW (mSys s') = yW (mSys s) /\ current mde s' /\
  t = energy (mPar s) (mEig s) (mPert s) (snd (mde (mPar s) (yW (mSys s)))) (yW (mSys s)) /\ i + f = energy (mPar s) (mEig s) None (snd (mde (mPar s) (yW (mSys s)))) (yW (mSys s)).
Proof.
  intros mde s C. destruct (refresh_ok mde s C) as (s' & E & (A1 & A2 & A3 & A4) & C' & HC & HW & FH & KH & _).
  unfold hamAnalyzer. rewrite E. cbn [bind]. rewrite HC, HW, FH. cbn [check bind]. rewrite KH. exists s'. do 3 eexists. split; [reflexivity|]. split; [auto|]. split; [auto|].
  split; [reflexivity|]. unfold trueH, energy, hamOf. destruct (mPert s); reflexivity.
Qed.

(** Between moves of a Monte Carlo simulation, whatever the random numbers, the
    conditions of these theorems on the state hold. *)
Theorem C79_simulation : forall eigOf mde comp nMoves l s g,
  eigOf (mPar s) (mEig s) = Ok g -> svHas (mSv s) = false -> (fDc (mK s) = true -> nDc (mNeed s) = true) -> nH (mNeed s) = true -> allowed s l ->
  exists s' n, mcSimulate eigOf mde comp None nMoves l s = Ok (s', n) /\ mPar s' = mPar s /\ mEig s' = g /\ current mde s' /\ pertOk mde s'.
Proof.
  intros eigOf mde comp nMoves l s g E SV FD HN HA.
  destruct (mcSetup_ok eigOf mde comp nMoves s g E SV FD) as (s1 & E1 & R1 & C1 & P1 & G1 & N1 & _).
  assert (A1 : allowed s1 l) by (intros c Hc; rewrite N1; apply HA; auto).
  destruct (mcLoop_ok eigOf mde comp l 0 s1 R1 C1) as (s2 & n & E2 & R2 & C2 & P2 & G2 & N2); [congruence|auto|].
  exists s2, n. unfold mcSimulate. rewrite E1. cbn [bind rampStep]. rewrite E2. split; [reflexivity|]. split; [congruence|]. split; [congruence|]. split; [auto|].
  apply (mcLoop_pert eigOf mde comp l 0 s1 s2 n); auto; [congruence|]. apply (mcSetup_pert _ _ _ _ _ _ E1).
Qed.

(** ** Cases *)
Definition gB (a b x : R) : eig :=
  mkEig (fun j => if (j =? 0)%nat then (a + b) / 2 - x else 0)
        (fun j i => if (j =? 0)%nat then (if (i =? 0)%nat then 1 else -1) else 1)
        (fun j => if (j =? 0)%nat then (a - b) / 4 else (a + b + 2 * x) / 4).
Lemma gB_spec : forall a b x, (a + b) / 2 < x -> eigSpec 2 (chi2 a b x) (gB a b x).
Proof.
  intros a b x Hx. constructor.
  - intros i j Hi Hj. destruct i as [|[|i]]; try lia; destruct j as [|[|j]]; try lia; unfold delta; cbn; lra.
  - intros i j Hi Hj. destruct i as [|[|i]]; try lia; destruct j as [|[|j]]; try lia; unfold delta; cbn; lra.
  - intros i _. reflexivity.
  - intros j Hj. destruct j; [|lia]. cbn. lra.
  - intros j Hj. destruct j; [|lia]. cbn. lra.
  - intros j i Hj Hi. destruct j; [|lia]. destruct i as [|[|i]]; try lia; unfold chi2; cbn; lra.
  - reflexivity.
  - intros j Hj. destruct j as [|[|j]]; try lia; unfold chi2; cbn; field.
Qed.
Definition fresh (p : par) (g : eig) (w : nat -> nat -> R) (e : option ecp) : sim :=
  mkSim p g (mkSys w w [] false) (mkComps w w w (mkHam 0 0 0 0) false false false false) (mkSaved w w w w (mkHam 0 0 0 0) false) (mkNeed false true true) e.
Lemma fresh_ok : forall mde p g w e, current mde (fresh p g w e) /\ pertOk mde (fresh p g w e).
Proof. intros. split; [constructor; cbn; discriminate|]. intros q _ F. discriminate. Qed.
(** Fields 1 and -1 at one point, 3 and 2 at the other *)
Definition wB (a i : nat) : R := if (i =? 0)%nat then (if (a =? 0)%nat then 1 else -1) else (if (a =? 0)%nat then 3 else 2).
Example C79_case : exists s' d, chiDerivative mdeA (fresh (mkPar 2 2 (chi2 0 0 3) 1 2 []) (gB 0 0 3) wB None) = Ok (s', d) /\
  is_derive (fun y => energy (withChi (mkPar 2 2 (chi2 0 0 3) 1 2 []) (chi2 0 0 y)) (gB 0 0 y) None (snd (mdeA (mkPar 2 2 (chi2 0 0 3) 1 2 []) wB)) wB + logNorm 2 (2 / 1) y) 3 d.
Proof.
  destruct (C79_chi_partial mdeA (fresh (mkPar 2 2 (chi2 0 0 3) 1 2 []) (gB 0 0 3) wB None) (gB 0 0) 3) as (s' & d & E & _ & _ & D); try apply fresh_ok; try reflexivity; cbn; try lra; try lia.
  - intros y Hy. apply gB_spec. lra.
  - exists s', d. split; [exact E|exact D].
Qed.

(** Disagreement: with diagonal elements of chi the reported value is not the
    derivative. *)
Theorem C79_chi_diagonal_refuted : exists mde s a b x g, current mde s /\ pM (mPar s) = 2%nat /\ (0 < pMesh (mPar s))%nat /\ 0 < pVMono (mPar s) /\ 0 < pVol (mPar s) /\
  mPert s = None /\ (a + b) / 2 < x /\ pChi (mPar s) = chi2 a b x /\ (forall y, (a + b) / 2 < y -> eigSpec 2 (chi2 a b y) (g y)) /\ mEig s = g x /\
  forall s' d, chiDerivative mde s = Ok (s', d) ->
  ~ is_derive (fun y => energy (withChi (mPar s) (chi2 a b y)) (g y) None (snd (mde (mPar s) (yW (mSys s)))) (yW (mSys s))
      + logNorm (pMesh (mPar s)) (pVol (mPar s) / pVMono (mPar s)) (- gVal (g y) 0%nat)) x d.
Proof.
  set (p := mkPar 2 1 (chi2 1 1 2) 1 1 []). set (w := fun a i : nat => wB a 0).
  exists mdeA, (fresh p (gB 1 1 2) w None), 1, 1, 2, (gB 1 1). split; [apply fresh_ok|]. split; [reflexivity|]. split; [cbn; lia|]. split; [cbn; lra|]. split; [cbn; lra|].
  split; [reflexivity|]. split; [lra|]. split; [reflexivity|]. split; [intros; apply gB_spec; auto|]. split; [reflexivity|].
  intros s' d E D. destruct (refresh_ok mdeA _ (proj1 (fresh_ok mdeA p (gB 1 1 2) w None))) as (s1 & E1 & (A1 & A2 & A3 & _) & _ & _ & _ & _ & KH & _).
  unfold chiDerivative in E. rewrite E1 in E. cbn [mPar fresh pM Nat.eqb check bind p] in E. injection E as <- E. rewrite KH, A2 in E.
  destruct (energy2 p (snd (mdeA p w)) w eq_refl ltac:(cbn; lia) 1 1 2 (gB 1 1 2) (gB_spec 1 1 2 ltac:(lra))) as [_ F].
  unfold trueH in E. cbn [fresh mPert mPar mEig mSys yW] in E. change (pM p) with 2%nat in E. change (withChi p (chi2 1 1 2)) with p in F. rewrite F in E.
  assert (M0 : ms p w ((1 - 1) / 4) = 1) by (unfold ms, w, wB, p; cbn; field). rewrite M0 in E.
  assert (Ed : d = 0) by (rewrite <- E; unfold p, chi2; cbn; field). rewrite Ed in D.
  set (Q := 1 / 1 * (fold_left (fun acc s => let '(phi, mu, size) := s in if rlt (1 / 100000000) phi then acc + phi * (- mu + 1) / size else acc) (snd (mdeA p w)) 0
            + rsum (pMesh p) (fun i => (w 0%nat i + w 1%nat i) / 2 / INR (pMesh p)))).
  assert (D2 : is_derive (fun y => energy (withChi p (chi2 1 1 y)) (gB 1 1 y) None (snd (mdeA p w)) w + logNorm 1 (1 / 1) (- gVal (gB 1 1 y) 0%nat)) 2 (- (1 / 4))).
  { apply (is_derive_ext_loc (fun y => (1 / (y - 1) + (2 + 2 * y) / 8) - Q + / 2 * ln (PI * (y - 1)))).
    - apply (filter_imp (fun y => 1 < y)).
      + intros y Hy. destruct (energy2 p (snd (mdeA p w)) w eq_refl ltac:(cbn; lia) 1 1 y (gB 1 1 y) (gB_spec 1 1 y ltac:(lra))) as [F1 _]. rewrite F1, M0.
        unfold logNorm, gB. cbn [gVal Nat.eqb INR]. change (pVol p / pVMono p) with (1 / 1). fold Q.
        replace (PI * 1 * - ((1 + 1) / 2 - y) / (1 / 1)) with (PI * (y - 1)) by field. replace (y - (1 + 1) / 2) with (y - 1) by field.
        match goal with |- @eq _ ?p ?q => change (@eq R p q) end. unfold Q. field. lra.
      + exists (mkposreal 1 ltac:(lra)). intros y B. unfold ball in B. cbn in B. unfold AbsRing_ball, abs, minus, plus, opp in B. cbn in B. apply Rabs_def2 in B. lra.
    - assert (HPI : 0 < PI) by apply PI_RGT_0. clearbody Q. auto_derive; [repeat split; lra|]. field. lra. }
  pose proof (is_derive_unique _ _ _ D) as U1. pose proof (is_derive_unique _ _ _ D2) as U2.
  assert (X : 0 = - (1 / 4)) by (etransitivity; [symmetry; exact U1|exact U2]). lra.
Qed.

(** Disagreement: with a perturbation the value belongs to the unperturbed
    Hamiltonian, not to the one that is sampled. *)
Theorem C79_chi_perturbed_refuted : exists mde s x g q, current mde s /\ pertOk mde s /\ pM (mPar s) = 2%nat /\ (0 < pMesh (mPar s))%nat /\ 0 < pVMono (mPar s) /\ 0 < pVol (mPar s) /\
  mPert s = Some q /\ 0 < eLambda q < 1 /\ 0 < x /\ pChi (mPar s) = chi2 0 0 x /\ (forall y, 0 < y -> eigSpec 2 (chi2 0 0 y) (g y)) /\ mEig s = g x /\
  forall s' d, chiDerivative mde s = Ok (s', d) ->
  ~ is_derive (fun y => energy (withChi (mPar s) (chi2 0 0 y)) (g y) (mPert s) (snd (mde (mPar s) (yW (mSys s)))) (yW (mSys s))
      + logNorm (pMesh (mPar s)) (pVol (mPar s) / pVMono (mPar s)) y) x d.
Proof.
  set (p := mkPar 2 1 (chi2 0 0 1) 1 1 []). set (w := fun a i : nat => wB a 0). set (q := mkEcp (/ 2) (fun _ => 1) (fun _ _ => 0) 0 0 0 0).
  exists mdeA, (fresh p (gB 0 0 1) w (Some q)), 1, (gB 0 0), q. split; [apply fresh_ok|]. split; [apply fresh_ok|]. split; [reflexivity|]. split; [cbn; lia|]. split; [cbn; lra|]. split; [cbn; lra|].
  split; [reflexivity|]. split; [cbn; lra|]. split; [lra|]. split; [reflexivity|]. split; [intros; apply gB_spec; lra|]. split; [reflexivity|].
  intros s' d E D. destruct (refresh_ok mdeA _ (proj1 (fresh_ok mdeA p (gB 0 0 1) w (Some q)))) as (s1 & E1 & (A1 & A2 & A3 & _) & _ & _ & _ & _ & KH & _).
  unfold chiDerivative in E. rewrite E1 in E. cbn [mPar fresh pM Nat.eqb check bind p] in E. injection E as <- E. rewrite KH, A2 in E.
  destruct (energy2 p (snd (mdeA p w)) w eq_refl ltac:(cbn; lia) 0 0 1 (gB 0 0 1) (gB_spec 0 0 1 ltac:(lra))) as [_ F].
  unfold trueH in E. cbn [fresh mPert mPar mEig mSys yW] in E. change (pM p) with 2%nat in E. change (withChi p (chi2 0 0 1)) with p in F.
  change (hField (hamOf p (gB 0 0 1) (Some q) (snd (mdeA p w)) (wcOf 2 (gB 0 0 1) w))) with (hField (hamOf p (gB 0 0 1) None (snd (mdeA p w)) (wcOf 2 (gB 0 0 1) w))) in E. rewrite F in E.
  assert (M0 : ms p w ((0 - 0) / 4) = 1) by (unfold ms, w, wB, p; cbn; field). rewrite M0 in E.
  assert (Ed : d = - (1 / 4)) by (rewrite <- E; unfold p, chi2; cbn; field). rewrite Ed in D.
  set (Q := 1 / 1 * (fold_left (fun acc s => let '(phi, mu, size) := s in if rlt (1 / 100000000) phi then acc + phi * (- mu + 1) / size else acc) (snd (mdeA p w)) 0
            + rsum (pMesh p) (fun i => (w 0%nat i + w 1%nat i) / 2 / INR (pMesh p)))).
  assert (D2 : is_derive (fun y => energy (withChi p (chi2 0 0 y)) (gB 0 0 y) (Some q) (snd (mdeA p w)) w + logNorm 1 (1 / 1) y) 1 (1 / 8)).
  { apply (is_derive_ext_loc (fun y => / 2 * ((1 / y + y / 4) - Q) + / 2 + / 2 * ln (PI * y))).
    - apply (filter_imp (fun y => 0 < y)); [|apply near_pos; lra].
      intros y Hy. destruct (energy2 p (snd (mdeA p w)) w eq_refl ltac:(cbn; lia) 0 0 y (gB 0 0 y) (gB_spec 0 0 y ltac:(lra))) as [F1 _].
      assert (EC : ecH (withChi p (chi2 0 0 y)) q (wcOf 2 (gB 0 0 y) w) = 1) by (unfold ecH, wcOf, w, wB, p, q; cbn; field).
      assert (EP : energy (withChi p (chi2 0 0 y)) (gB 0 0 y) (Some q) (snd (mdeA p w)) w =
        / 2 * energy (withChi p (chi2 0 0 y)) (gB 0 0 y) None (snd (mdeA p w)) w + / 2 * ecH (withChi p (chi2 0 0 y)) q (wcOf 2 (gB 0 0 y) w)).
      { unfold energy, hamOf. cbn [hTot]. change (eLambda q) with (/ 2). change (pM (withChi p (chi2 0 0 y))) with 2%nat. field. cbn. lra. }
      rewrite EP, EC, F1, M0. unfold logNorm. cbn [INR]. change (pVol p / pVMono p) with (1 / 1). fold Q.
      replace (PI * 1 * y / (1 / 1)) with (PI * y) by field. replace (y - (0 + 0) / 2) with y by field. replace ((0 + 0 + 2 * y) / 8) with (y / 4) by field.
      match goal with |- @eq _ ?p ?q => change (@eq R p q) end. field. lra.
    - assert (HPI : 0 < PI) by apply PI_RGT_0. clearbody Q. auto_derive; [repeat split; lra|]. field. lra. }
  pose proof (is_derive_unique _ _ _ D) as U1. pose proof (is_derive_unique _ _ _ D2) as U2.
  assert (X : - (1 / 4) = 1 / 8) by (etransitivity; [symmetry; exact U1|exact U2]). lra.
Qed.

Print Assumptions C79_chi_partial.
Print Assumptions C79_concentration.
Print Assumptions C79_perturbation.
Print Assumptions C79_hamiltonian.
Print Assumptions C79_simulation.
Print Assumptions C79_chi_diagonal_refuted.
Print Assumptions C79_chi_perturbed_refuted.
