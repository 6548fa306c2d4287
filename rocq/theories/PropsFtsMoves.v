(** Properties C48 and C49: field-theoretic simulations, continued. *)
From Coq Require Import Reals List Arith Bool Lia Lra.
From Coquelicot Require Import Coquelicot.
From Verif Require Import Base RSum UnitCellProofs Fts FtsEig FtsProofs PropsFts.
Import ListNotations.
Local Open Scope R_scope.

(* ================= C48 ================= *)
(** C48: eigenvectors of the projected chi matrix, for any number of monomers and any
    symmetric chi matrix for which analyzeChi does not throw.  [eigSpec] says: rows
    orthogonal with squared norm M and complete; last row exactly (1,...,1); other
    rows of zero sum, with negative eigenvalues of the projected matrix; sc_ the
    components of s. *)
Theorem C48_eigenvectors : forall gsl M chi g0 g,
  symmetric M chi -> (symmetric M (chiP M chi) -> gslSpec gsl M (chiP M chi)) ->
  analyzeChi gsl M chi g0 = Ok g -> eigSpec M chi g.
Proof. exact analyzeChi_spec. Qed.
Print Assumptions C48_eigenvectors.

(** A displacement of the exchange components changes each by exactly the intended
    amount and leaves the pressure-like component alone. *)
Theorem C48_displacement : forall M chi g w dwc j k, eigSpec M chi g -> (j < M)%nat ->
  wcOf M g (displace M g w dwc) j k = wcOf M g w j k + (if (j <? M - 1)%nat then dwc j k else 0).
Proof. intros M chi g w dwc j k E Hj. apply (wcOf_displace M chi); auto. Qed.
Print Assumptions C48_displacement.
(** The fields are determined by their components. *)
Theorem C48_components_complete : forall M chi g w i k, eigSpec M chi g -> (i < M)%nat ->
  rsum M (fun j => gVec g j i * wcOf M g w j k) = w i k.
Proof. intros M chi g w i k E Hi. apply (wcOf_inverse M chi); auto. Qed.
Print Assumptions C48_components_complete.

(** A compressor that adds the same field to all monomer fields. *)
Definition pressureOnly (comp : par -> (nat -> nat -> R) -> bool * (nat -> nat -> R)) : Prop :=
  forall p w, exists u : nat -> R, forall i k, (i < pM p)%nat -> snd (comp p w) i k = w i k + u k.
Lemma wcOf_ext M g w w' j k : (forall i, (i < M)%nat -> w i k = w' i k) -> wcOf M g w j k = wcOf M g w' j k.
Proof. intros H. unfold wcOf. apply rsum_ext. intros i Hi. rewrite H; auto. Qed.
Lemma pressureOnly_wc comp p g chi w j k : pressureOnly comp -> eigSpec (pM p) chi g -> (j < pM p - 1)%nat ->
  wcOf (pM p) g (snd (comp p w)) j k = wcOf (pM p) g w j k.
Proof.
  intros P E Hj. destruct (P p w) as [u U].
  rewrite (wcOf_ext _ _ (snd (comp p w)) (fun i k => w i k + u k)) by (intros; auto).
  rewrite (wcOf_shift _ chi) by (auto; lia). destruct (Nat.eqb_spec j (pM p - 1)); [lia|ring].
Qed.
(** Both kinds of compressor are such, whatever happens inside the iteration; a
    successful linear-response compressor ends with a residual below its tolerance. *)
Theorem C48_compressors : forall mde lr err eps maxItr drive,
  pressureOnly (lrCompress mde lr err eps maxItr) /\ pressureOnly (amCompress drive) /\
  (forall p w w', lrCompress mde lr err eps maxItr p w = (false, w') ->
     exists e, err p (fun k => rsum (pM p) (fun j => fst (mde p w') j k) - 1) = Some e /\ e < eps) /\
  (forall w0 g k, amCurrent w0 (amUpdate w0 g) k = g k).
Proof.
  intros mde lr err eps maxItr drive. split; [|split; [|split]].
  - intros p. induction maxItr as [|n IH]; intros w; cbn [lrCompress].
    + exists (fun _ => 0). intros. cbn. ring.
    + destruct (err p (lrResid (pM p) (fst (mde p w)))) as [e|].
      * destruct (rlt e eps).
        -- exists (fun _ => 0). intros. cbn. ring.
        -- destruct (IH (lrUpdate w (lr p (lrResid (pM p) (fst (mde p w)))))) as [u U].
           exists (fun k => lr p (lrResid (pM p) (fst (mde p w))) k + u k). intros i k Hi. rewrite U by auto. unfold lrUpdate. ring.
      * exists (fun _ => 0). intros. cbn. ring.
  - intros p w. unfold amCompress. cbn [snd]. generalize (snd (drive p w)). intros l.
    destruct l as [|g l]; cbn [fold_left].
    + exists (fun _ => 0). intros. ring.
    + assert (X : forall l g, exists u, fold_left (fun _ g0 => amUpdate w g0) l (amUpdate w g) = amUpdate w u).
      { clear. induction l as [|h l IH]; intros g; cbn; [exists g; reflexivity|apply IH]. }
      destruct (X l g) as [u U]. exists u. intros i k Hi. rewrite U. reflexivity.
  - intros p. induction maxItr as [|n IH]; intros w w' E; cbn [lrCompress] in E; [discriminate|].
    destruct (err p (lrResid (pM p) (fst (mde p w)))) as [e|] eqn:ER; [|discriminate].
    destruct (rlt e eps) eqn:L.
    + inversion E; subst w'. exists e. split.
      * rewrite <- ER. f_equal. apply Coq.Logic.FunctionalExtensionality.functional_extensionality. intros k. unfold lrResid. ring.
      * unfold rlt in L. destruct (Rlt_dec e eps); [auto|discriminate].
    + eapply IH. exact E.
  - intros. unfold amCurrent, amUpdate. ring.
Qed.
Print Assumptions C48_compressors.

(** Whole moves: an accepted Monte Carlo move changes each exchange component by the
    proposed displacement, compressor included. *)
Theorem C48_accepted_moves : forall mde comp acc s s' chi,
  eigSpec (pM (mPar s)) chi (mEig s) -> pressureOnly comp -> ready s -> current mde s -> nH (mNeed s) = true ->
  (forall sigma rnd, mcMove mde comp (realMoveW sigma rnd) acc s = Ok (s', Accepted) ->
     forall j k, (j < pM (mPar s) - 1)%nat -> kWc (mK s') j k = kWc (mK s) j k + sigma * rnd j k) /\
  (forall mob rnd, nDc (mNeed s) = true -> fbMove mde comp mob rnd acc s = Ok (s', Accepted) ->
     forall j k, (j < pM (mPar s) - 1)%nat ->
       kWc (mK s') j k = kWc (mK s) j k + fbDwc mob (pVol (mPar s) / INR (pMesh (mPar s))) (kDc (mK s)) rnd j k).
Proof.
  intros mde comp acc s s' chi E P R C HN.
  assert (WC : kWc (mK s) = wcOf (pM (mPar s)) (mEig s) (yW (mSys s))) by apply (cu_wc _ _ C), (rd_wc _ R).
  split.
  - intros sigma rnd H j k Hj.
    destruct (doMove_ok mde comp (Plain (realMoveW sigma rnd) acc) s R HN) as (s1 & r & D & R1 & P1 & G1 & _ & _ & _ & C1); [discriminate|].
    cbn [doMove] in D. rewrite H in D. inversion D; subst s1 r; clear D.
    destruct (mcMove_fields mde comp (realMoveW sigma rnd) acc s R HN) as (s2 & r & D & _ & W2).
    rewrite H in D. inversion D; subst s2 r; clear D. destruct (W2 eq_refl) as (W3 & _). clear W2. rename W3 into W2.
    rewrite (cu_wc _ _ (C1 C) (rd_wc _ R1)), P1, G1, W2, WC.
    rewrite (pressureOnly_wc comp (mPar s) (mEig s) chi) by auto. unfold realMoveW.
    rewrite (C48_displacement _ chi) by (auto; lia). destruct (Nat.ltb_spec j (pM (mPar s) - 1)); [|lia]. reflexivity.
  - intros mob rnd HD H j k Hj.
    destruct (doMove_ok mde comp (ForceBias mob rnd acc) s R HN) as (s1 & r & D & R1 & P1 & G1 & _ & _ & _ & C1); [auto|].
    cbn [doMove] in D. rewrite H in D. inversion D; subst s1 r; clear D.
    assert (DC : kDc (mK s) = trueDc mde s) by apply (cu_dc _ _ C), (rd_dc _ R HD).
    set (x := fbDwc mob (pVol (mPar s) / INR (pMesh (mPar s))) (trueDc mde s) rnd).
    destruct (comp (mPar s) (displace (pM (mPar s)) (mEig s) (yW (mSys s)) x)) as [err w'] eqn:CO.
    destruct err.
    { exfalso. destruct (fbMove_fail mde comp mob rnd acc s R HD HN) as [q Q].
      - rewrite DC. fold x. rewrite CO. reflexivity.
      - rewrite H in Q. discriminate Q. }
    destruct (fbMove_spec mde comp mob rnd acc s R C HD HN x _ w' eq_refl eq_refl CO) as (t & _ & _ & T3 & X).
    rewrite H in X. match type of X with _ = (if ?b then _ else _) => destruct b end; [|discriminate X].
    injection X as X'. subst s'.
    rewrite (cu_wc _ _ (C1 C) (rd_wc _ R1)), P1, G1, WC. change (yW (mSys (clearState t))) with (yW (mSys t)). rewrite T3.
    replace w' with (snd (comp (mPar s) (displace (pM (mPar s)) (mEig s) (yW (mSys s)) x))) by (rewrite CO; reflexivity).
    rewrite (pressureOnly_wc comp (mPar s) (mEig s) chi) by auto.
    rewrite (C48_displacement _ chi) by (auto; lia). destruct (Nat.ltb_spec j (pM (mPar s) - 1)); [|lia]. rewrite DC. reflexivity.
Qed.
Print Assumptions C48_accepted_moves.

(** Brownian dynamics: after a converged step the exchange components have changed by
    drift and noise of the scheme; for the predictor-corrector scheme the drift is the
    average over initial and predicted fields. *)
Theorem C48_brownian_steps : forall mde comp c s s' chi,
  eigSpec (pM (mPar s)) chi (mEig s) -> pressureOnly comp -> ready s -> current mde s ->
  nDc (mNeed s) = true -> nH (mNeed s) = false ->
  doStep mde comp c s = Ok (s', true) ->
  forall j k, (j < pM (mPar s) - 1)%nat ->
  kWc (mK s') j k - kWc (mK s) j k =
  let noise mob (rnd : nat -> nat -> R) (j k : nat) := sqrt (2 * mob * INR (pMesh (mPar s)) / pVol (mPar s)) * rnd j k in
  match c with
  | Explicit mob rnd => - mob * trueDc mde s j k + noise mob rnd j k
  | LM mob eo en => - mob * trueDc mde s j k + (en j k + eo j k)
  | PredCorr mob rnd =>
    let predicted := displace (pM (mPar s)) (mEig s) (yW (mSys s)) (fun j k => (-1) * mob * trueDc mde s j k + noise mob rnd j k) in
    - mob * ((trueDc mde s j k + trueDc mde (setW (snd (comp (mPar s) predicted)) s) j k) / 2) + noise mob rnd j k
  end.
Proof.
  intros mde comp c s s' chi E P R C HD HN H j k Hj.
  assert (WC : kWc (mK s) = wcOf (pM (mPar s)) (mEig s) (yW (mSys s))) by apply (cu_wc _ _ C), (rd_wc _ R).
  assert (DC : kDc (mK s) = trueDc mde s) by apply (cu_dc _ _ C), (rd_dc _ R HD).
  destruct (doStep_ok mde comp c s R HD HN) as (s1 & b & D & R1 & P1 & G1 & _ & _ & _ & C1).
  rewrite H in D. inversion D; subst s1 b; clear D.
  rewrite (cu_wc _ _ (C1 C) (rd_wc _ R1)), P1, G1, WC, (doStep_fields mde comp c s s' R H).
  rewrite (pressureOnly_wc comp (mPar s) (mEig s) chi) by auto.
  assert (L : (j <? pM (mPar s) - 1)%nat = true) by (apply Nat.ltb_lt; auto).
  destruct c as [mob rnd|mob eo en|mob rnd]; cbn [bdW]; rewrite (C48_displacement _ chi) by (auto; lia); rewrite L, DC.
  - ring.
  - ring.
  - rewrite (wcOf_shift _ chi) by (auto; lia). destruct (Nat.eqb_spec j (pM (mPar s) - 1)); [lia|].
    match goal with |- context [comp (mPar s) ?w] => set (pred := snd (comp (mPar s) w)) end.
    change (dcOf (mPar s) (mEig s) (mPert s) (wcOf (pM (mPar s)) (mEig s) pred) (ccOf (pM (mPar s)) (mEig s) (fst (mde (mPar s) pred))))
      with (trueDc mde (setW pred s)). cbv zeta. lra.
Qed.
Print Assumptions C48_brownian_steps.

(* ----- the case of two monomers ----- *)
Definition gsl2 (M : nat) (A : nat -> nat -> R) : (nat -> R) * (nat -> nat -> R) :=
  (fun i => if (i =? 0)%nat then A 0%nat 0%nat - A 0%nat 1%nat else A 0%nat 0%nat + A 0%nat 1%nat,
   fun a i => if (i =? 0)%nat then (if (a =? 0)%nat then / sqrt 2 else - / sqrt 2) else / sqrt 2).
Lemma chiP_A x i j : (i < 2)%nat -> (j < 2)%nat -> chiP 2 (chiA x) i j = if (i =? j)%nat then - x / 2 else x / 2.
Proof. intros Hi Hj. destruct i as [|[|i]]; try lia; destruct j as [|[|j]]; try lia; unfold chiP, chiT, proj, chiA; cbn; field. Qed.
Lemma sqrt2 : / sqrt 2 * / sqrt 2 = / 2.
Proof. rewrite <- Rinv_mult. rewrite sqrt_sqrt by lra. reflexivity. Qed.
Lemma gsl2_spec x : gslSpec gsl2 2 (chiP 2 (chiA x)).
Proof.
  unfold gslSpec, gsl2. rewrite !chiP_A by lia. pose proof sqrt2 as S. repeat split.
  - intros i j Hi Hj. destruct i as [|[|i]]; try lia; destruct j as [|[|j]]; try lia; unfold delta; cbn; lra.
  - intros i j Hi Hj. destruct i as [|[|i]]; try lia; destruct j as [|[|j]]; try lia; unfold delta; cbn; lra.
  - intros i j Hi Hj. cbn [rsum]. rewrite !chiP_A by lia.
    destruct i as [|[|i]]; try lia; destruct j as [|[|j]]; try lia; cbn; lra.
Qed.
Lemma analyzeA x g0 : 1 <= x -> exists g, analyzeChi gsl2 2 (chiA x) g0 = Ok g /\
  gVal g 0%nat = - x /\ gVec g 0%nat 0%nat = 1 /\ gVec g 0%nat 1%nat = -1 /\ gVec g 1%nat 0%nat = 1 /\ gVec g 1%nat 1%nat = 1 /\
  gSc g 0%nat = 0 /\ gSc g 1%nat = x / 2.
Proof.
  intros Hx. unfold analyzeChi.
  destruct (gsl2 2 (chiP 2 (chiA x))) as [vals vecs] eqn:EG. unfold gsl2 in EG. assert (E1 := f_equal fst EG). assert (E2 := f_equal snd EG). cbn [fst snd] in E1, E2. clear EG.
  assert (V0 : vals 0%nat = - x) by (rewrite <- E1; cbn [Nat.eqb]; rewrite !chiP_A by lia; cbn; lra).
  assert (V1 : vals 1%nat = 0) by (rewrite <- E1; cbn [Nat.eqb]; rewrite !chiP_A by lia; cbn; lra).
  assert (X1 : vecs 0%nat 0%nat = / sqrt 2) by (rewrite <- E2; reflexivity).
  assert (X2 : vecs 1%nat 0%nat = - / sqrt 2) by (rewrite <- E2; reflexivity).
  assert (X3 : vecs 0%nat 1%nat = / sqrt 2) by (rewrite <- E2; reflexivity).
  assert (X4 : vecs 1%nat 1%nat = / sqrt 2) by (rewrite <- E2; reflexivity).
  clear E1 E2.
  assert (T0 : rlt (Rabs (- x)) (1 / 100000000) = false).
  { unfold rlt. destruct (Rlt_dec (Rabs (- x)) (1 / 100000000)) as [L|]; auto. rewrite Rabs_Ropp, Rabs_right in L by lra. lra. }
  assert (T1 : rlt (- x) 0 = true) by (unfold rlt; destruct (Rlt_dec (- x) 0); auto; lra).
  assert (T2 : rlt (Rabs 0) (1 / 100000000) = true).
  { unfold rlt. rewrite Rabs_R0. destruct (Rlt_dec 0 (1 / 100000000)); auto. lra. }
  cbn [scanAll bind]. unfold scanStep. rewrite V0, T0, T1. cbn [check bind]. rewrite V1, T2.
  cbn [check bind cNNull cK cVal cVec cNull Nat.eqb].
  assert (SP : 0 < / sqrt 2) by (apply Rinv_0_lt_compat, sqrt_lt_R0; lra).
  set (vec0 := set1 (set1 (gVec g0) 0 (flip (fun j => vecs j 0%nat))) (2 - 1) (flip (fun j => vecs j 1%nat))).
  pose proof sqrt2 as SS.
  assert (SQ : / sqrt 2 * sqrt 2 = 1) by (apply Rinv_l, Rgt_not_eq, sqrt_lt_R0; lra).
  assert (F0 : vec0 0%nat 0%nat = / sqrt 2 /\ vec0 0%nat 1%nat = - / sqrt 2 /\ vec0 1%nat 0%nat = / sqrt 2 /\ vec0 1%nat 1%nat = / sqrt 2).
  { unfold vec0, set1, flip. cbn [Nat.eqb Nat.sub]. rewrite X1, X3. destruct (Rlt_dec (/ sqrt 2) 0); [lra|]. auto. }
  destruct F0 as (a1 & a2 & a3 & a4).
  assert (N : forall i, (i < 2)%nat -> normalize 2 (vec0 i) 0%nat = vec0 i 0%nat * sqrt 2 /\ normalize 2 (vec0 i) 1%nat = vec0 i 1%nat * sqrt 2).
  { intros i Hi. unfold normalize. cbn [rsum INR].
    replace ((1 + 1) / (0 + vec0 i 0%nat * vec0 i 0%nat + vec0 i 1%nat * vec0 i 1%nat)) with 2; [auto|].
    destruct i as [|[|i]]; try lia; rewrite ?a1, ?a2, ?a3, ?a4.
    - replace (0 + / sqrt 2 * / sqrt 2 + - / sqrt 2 * - / sqrt 2) with 1 by lra. field.
    - replace (0 + / sqrt 2 * / sqrt 2 + / sqrt 2 * / sqrt 2) with 1 by lra. field. }
  destruct (N 0%nat) as [n1 n2]; [lia|]. destruct (N 1%nat) as [n3 n4]; [lia|]. clear N.
  rewrite a1, SQ in n1. rewrite a2 in n2. rewrite a3, SQ in n3. rewrite a4, SQ in n4. replace (- / sqrt 2 * sqrt 2) with (-1) in n2 by lra.
  assert (CK : forallb (fun j => rlt (Rabs (normalize 2 (vec0 (2 - 1)%nat) j - 1)) (1 / 100000000)) (seq 0 2) = true).
  { cbn [seq forallb Nat.sub]. rewrite n3, n4. replace (1 - 1) with 0 by ring. rewrite T2. reflexivity. }
  rewrite CK. cbn [check bind]. eexists. split; [reflexivity|]. cbn [gVal gVec gSc].
  repeat split; auto; cbn [rsum]; rewrite ?n1, ?n2, ?n3, ?n4; unfold chiA; cbn; field.
Qed.
Example C48_case : exists g, symmetric 2 (chiA 3) /\ gslSpec gsl2 2 (chiP 2 (chiA 3)) /\
  analyzeChi gsl2 2 (chiA 3) (gA 0) = Ok g /\ eigSpec 2 (chiA 3) g /\ gVal g 0%nat = -3.
Proof.
  assert (S : symmetric 2 (chiA 3)) by (intros i j _ _; unfold chiA; rewrite Nat.eqb_sym; reflexivity).
  destruct (analyzeA 3 (gA 0)) as (g & E & V & _); [lra|]. exists g. split; [exact S|]. split; [apply gsl2_spec|]. split; [exact E|].
  split; [|lra]. eapply C48_eigenvectors; [exact S|intros _; apply gsl2_spec|exact E].
Qed.
Lemma gA_spec x : 0 < x -> eigSpec 2 (chiA x) (gA x).
Proof.
  intros Hx. constructor.
  - intros i j Hi Hj. destruct i as [|[|i]]; try lia; destruct j as [|[|j]]; try lia; unfold delta; cbn; lra.
  - intros i j Hi Hj. destruct i as [|[|i]]; try lia; destruct j as [|[|j]]; try lia; unfold delta; cbn; lra.
  - intros a _. reflexivity.
  - intros j Hj. destruct j; [|lia]. cbn. lra.
  - intros j Hj. destruct j; [|lia]. cbn. lra.
  - intros j a Hj Ha. destruct j; [|lia]. destruct a as [|[|a]]; try lia; unfold chiA; cbn; lra.
  - reflexivity.
  - intros j Hj. destruct j as [|[|j]]; try lia; unfold chiA; cbn; field.
Qed.
Example C48_case2 : let s := stateA (parA 2 1) (gA 1) (fun a k => INR (a + k)) (mkNeed false true true) in
  eigSpec (pM (mPar s)) (chiA 1) (mEig s) /\ ready s /\ current mdeA s /\ nH (mNeed s) = true /\
  pressureOnly (lrCompress mdeA (fun _ r => r) (fun _ _ => Some 0) 1 5).
Proof.
  cbn zeta. split; [apply gA_spec; lra|]. split; [apply stateA_ok|]. split; [apply stateA_ok|]. split; [reflexivity|].
  apply (C48_compressors _ _ _ _ _ (fun _ _ => (true, []))).
Qed.

(* ================= C49 ================= *)
(** C49 without a ramp: a Monte Carlo simulation runs to the end, and after any
    number of moves (so at the start of every move) Hamiltonian and derivatives are
    those of the current fields and parameters. *)
Theorem C49_mc_without_ramp : forall eigOf mde comp nMoves l s g,
  eigOf (mPar s) (mEig s) = Ok g -> svHas (mSv s) = false -> (fDc (mK s) = true -> nDc (mNeed s) = true) ->
  nH (mNeed s) = true -> allowed s l ->
  exists s' n, mcSimulate eigOf mde comp None nMoves l s = Ok (s', n) /\
    mPar s' = mPar s /\ mEig s' = g /\
    fH (mK s') = true /\ kH (mK s') = trueH mde s' /\
    fWc (mK s') = true /\ kWc (mK s') = wcOf (pM (mPar s')) (mEig s') (yW (mSys s')) /\
    (nDc (mNeed s) = true -> fDc (mK s') = true /\ kDc (mK s') = trueDc mde s').
Proof.
  intros eigOf mde comp nMoves l s g E SV FD HN HA.
  destruct (mcSetup_ok eigOf mde comp nMoves s g E SV FD) as (s1 & E1 & R1 & C1 & P1 & G1 & N1 & _).
  assert (A1 : allowed s1 l) by (intros c Hc; rewrite N1; apply HA; auto).
  destruct (mcLoop_ok eigOf mde comp l 0 s1 R1 C1) as (s2 & n & E2 & R2 & C2 & P2 & G2 & N2); [congruence|auto|].
  exists s2, n. unfold mcSimulate. rewrite E1. cbn [bind rampStep]. rewrite E2.
  assert (FH : fH (mK s2) = true) by (apply (rd_h _ R2); congruence).
  split; [reflexivity|]. split; [congruence|]. split; [congruence|]. split; [exact FH|]. split; [apply (cu_h _ _ C2); auto|].
  split; [apply (rd_wc _ R2)|]. split; [apply (cu_wc _ _ C2), (rd_wc _ R2)|].
  intros HD. assert (FD2 : fDc (mK s2) = true) by (apply (rd_dc _ R2); congruence). split; [auto|apply (cu_dc _ _ C2); auto].
Qed.
Print Assumptions C49_mc_without_ramp.
Theorem C49_bd_without_ramp : forall eigOf mde comp l s g,
  eigOf (mPar s) (mEig s) = Ok g -> svHas (mSv s) = false -> nDc (mNeed s) = true -> nH (mNeed s) = false ->
  exists s1 s' n, bdSetup eigOf mde comp s = Ok s1 /\ bdLoop eigOf mde comp None l 0 s1 = Ok (s', n) /\
    mPar s' = mPar s /\ mEig s' = g /\ fDc (mK s') = true /\ kDc (mK s') = trueDc mde s' /\
    (fH (mK s') = true -> kH (mK s') = trueH mde s').
Proof.
  intros eigOf mde comp l s g E SV HD HN.
  destruct (bdSetup_ok eigOf mde comp s g E SV) as (s1 & E1 & R1 & C1 & P1 & G1 & N1 & _).
  destruct (bdLoop_ok eigOf mde comp l 0 s1 R1 C1) as (s2 & n & E2 & R2 & C2 & P2 & G2 & N2); [congruence|congruence|].
  exists s1, s2, n. assert (FD2 : fDc (mK s2) = true) by (apply (rd_dc _ R2); congruence).
  split; [auto|]. split; [auto|]. split; [congruence|]. split; [congruence|]. split; [auto|]. split; [apply (cu_dc _ _ C2); auto|apply (cu_h _ _ C2)].
Qed.
Print Assumptions C49_bd_without_ramp.

(** The eigenvectors used by a simulation: analyzeChi. *)
Definition eigOfA (p : par) (g0 : eig) : outcome eig := analyzeChi gsl2 (pM p) (pChi p) g0.
Definition blank (p : par) (w : nat -> nat -> R) (n : need) : sim :=
  mkSim p (gA 0) (mkSys w w [] false) (mkComps w w w (mkHam 0 0 0 0) false false false false) (mkSaved w w w w (mkHam 0 0 0 0) false) n None.
Example C49_case : exists g, let s := blank (parA 3 1) (fun a k => INR (a * k)) (mkNeed false true true) in
  eigOfA (mPar s) (mEig s) = Ok g /\ svHas (mSv s) = false /\ (fDc (mK s) = true -> nDc (mNeed s) = true) /\
  nH (mNeed s) = true /\ allowed s [ForceBias 1 (fun _ _ => 1) (fun _ => true); Plain (realMoveW 1 (fun _ _ => 2)) (fun _ => false)].
Proof.
  destruct (analyzeA 1 (gA 0)) as (g & E & _); [lra|]. exists g. cbn zeta. split; [exact E|]. split; [reflexivity|]. split; [discriminate|].
  split; [reflexivity|]. intros c Hc _. reflexivity.
Qed.

(** C49 fails with a ramp: LinearRamp changes chi after a move but the Hamiltonian kept
    for the next acceptance test stays that of the previous chi. *)
Definition chiRamp (init change : R) (nStep : nat) : ramp :=
  mkRamp (fun i p => mkPar (pM p) (pMesh p) (chiA (init + INR i / INR nStep * change)) (pVMono p) (pVol p) (pOther p)) None true false.
Lemma hTot_A g (w : nat -> nat -> R) x : gVal g 0%nat = - x -> gVec g 0%nat 0%nat = 1 -> gVec g 0%nat 1%nat = -1 -> gVec g 1%nat 0%nat = 1 ->
  gVec g 1%nat 1%nat = 1 -> gSc g 0%nat = 0 -> gSc g 1%nat = x / 2 -> x <> 0 -> forall chi sp,
  hTot (hamOf (mkPar 2 1 chi 1 (INR 1) []) g None sp (wcOf 2 g w)) =
  - (fold_left (fun acc s => let '(phi, mu, size) := s in if rlt (1 / 100000000) phi then acc + phi * (- mu + 1) / size else acc) sp 0 + (w 0%nat 0%nat + w 1%nat 0%nat) / 2)
  + ((w 0%nat 0%nat - w 1%nat 0%nat) / 2 * ((w 0%nat 0%nat - w 1%nat 0%nat) / 2) / x + x / 4).
Proof.
  intros V a1 a2 a3 a4 s0 s1 Hx chi sp. unfold hamOf, lnQ, fieldH, wcOf. cbn [hTot pM pMesh pVMono pVol rsum Nat.sub INR].
  rewrite V, a1, a2, a3, a4, s0, s1. match goal with |- context [fold_left ?f sp 0] => generalize (fold_left f sp 0) end. intros L. field. auto.
Qed.
Theorem C49_ramp_refuted : exists mde comp l s s' n,
  mcSimulate eigOfA mde comp (Some (chiRamp 1 1 1)) 1 l s = Ok (s', n) /\ n = 1%nat /\ nH (mNeed s) = true /\ allowed s l /\
  fH (mK s') = true /\ hTot (kH (mK s')) <> hTot (trueH mde s') /\ hamiltonian s' = Ok (hTot (kH (mK s'))).
Proof.
  set (w := fun a _ : nat => if (a =? 0)%nat then 1 else -1).
  set (s := blank (parA 1 1) w (mkNeed false false true)).
  set (comp := fun (_ : par) (w : nat -> nat -> R) => (false, w)).
  destruct (analyzeA 1 (gA 0)) as (g & E & _); [lra|].
  destruct (mcSetup_ok eigOfA mdeA comp 1 s g E eq_refl) as (s1 & E1 & R1 & C1 & P1 & G1 & N1 & W1); [discriminate|].
  assert (RS : forall i t, pM (mPar t) = 2%nat -> exists g', rampStep eigOfA (Some (chiRamp 1 1 1)) i t =
     Ok (mkSim (mkPar (pM (mPar t)) (pMesh (mPar t)) (chiA (1 + INR i / INR 1 * 1)) (pVMono (mPar t)) (pVol (mPar t)) (pOther (mPar t))) g'
         (mkSys (yW (mSys t)) (yC (mSys t)) (ySp (mSys t)) (yHasC (mSys t))) (mK t) (mSv t) (mNeed t) (mPert t)) /\
     let x := 1 + INR i / INR 1 * 1 in
     gVal g' 0%nat = - x /\ gVec g' 0%nat 0%nat = 1 /\ gVec g' 0%nat 1%nat = -1 /\ gVec g' 1%nat 0%nat = 1 /\ gVec g' 1%nat 1%nat = 1 /\
     gSc g' 0%nat = 0 /\ gSc g' 1%nat = x / 2).
  { intros i t Ht. destruct (analyzeA (1 + INR i / INR 1 * 1) (mEig t)) as (g' & Eg & rest).
    - pose proof (pos_INR i). change (INR 1) with 1. lra.
    - exists g'. split; [|exact rest]. unfold rampStep. cbn [chiRamp rChi rPar rCell rLambda]. unfold eigOfA at 1. cbn [pM pChi]. rewrite Ht, Eg. reflexivity. }
  destruct (RS 0%nat s1) as (g2 & E2 & V2); [rewrite P1; reflexivity|].
  set (s2 := mkSim _ g2 _ _ _ _ _) in E2.
  assert (R2 : ready s2) by (destruct R1; constructor; auto).
  assert (N2 : nH (mNeed s2) = true) by (cbn; rewrite N1; reflexivity).
  set (nw := fun t : sim => yW (mSys t)).
  destruct (mcMove_fields mdeA comp nw (fun _ => true) s2 R2 N2) as (s3 & r & E3 & Er & A3). cbn [comp fst snd] in Er, A3. subst r.
  destruct (A3 eq_refl) as (W3 & K3 & P3'). clear A3.
  destruct (doMove_ok mdeA comp (Plain nw (fun _ => true)) s2 R2 N2) as (s3' & r' & E3' & R3 & P3 & G3 & N3 & _); [discriminate|].
  cbn [doMove] in E3'. rewrite E3 in E3'. inversion E3'; subst s3' r'; clear E3'.
  destruct (RS 1%nat s3) as (g4 & E4 & V4); [rewrite P3; cbn; rewrite P1; reflexivity|].
  set (s4 := mkSim _ g4 _ _ _ _ _) in E4.
  exists mdeA, comp, [Plain nw (fun _ => true)], s, s4, 1%nat.
  assert (FH : fH (mK s4) = true) by (apply (rd_h _ R3); rewrite N3; exact N2).
  split.
  { unfold mcSimulate. rewrite E1. cbn [bind]. rewrite E2. cbn [bind mcLoop doMove]. rewrite E3. cbn [bind fst snd].
    rewrite E4. reflexivity. }
  split; [reflexivity|]. split; [reflexivity|]. split; [intros c [<-|[]]; discriminate|]. split; [exact FH|].
  split; [|unfold hamiltonian; rewrite FH; reflexivity].
  assert (PP : mPar s2 = mkPar 2 1 (chiA (1 + INR 0 / INR 1 * 1)) 1 (INR 1) []) by (cbn [s2 mPar]; rewrite P1; reflexivity).
  assert (PQ : mPert s2 = None).
  { cbn [s2 mPert]. clear - E1. unfold mcSetup in E1. destruct (eigOfA (mPar s) (mEig s)); try discriminate. cbn in E1. inversion E1. reflexivity. }
  assert (WW : nw (clearData (svd s2)) = w) by (cbn; rewrite W1; reflexivity).
  rewrite WW in K3, W3.
  change (kH (mK s4)) with (kH (mK s3)). rewrite K3, PP, PQ. cbn [pM].
  destruct V2 as (v1 & v2 & v3 & v4 & v5 & v6 & v7). destruct V4 as (u1 & u2 & u3 & u4 & u5 & u6 & u7).
  rewrite (hTot_A g2 w (1 + INR 0 / INR 1 * 1)) by (auto; cbn; lra).
  unfold trueH. assert (PE : mPert s4 = None).
  { rewrite PQ in P3'. cbn [s4 mPert]. destruct (mPert s3); [discriminate|reflexivity]. }
  assert (PF : mPar s4 = mkPar 2 1 (chiA (1 + INR 1 / INR 1 * 1)) 1 (INR 1) []) by (cbn [s4 mPar]; rewrite P3, PP; reflexivity).
  assert (WF : yW (mSys s4) = w) by exact W3. rewrite PE, PF, WF. cbn [pM]. change (mEig s4) with g4.
  rewrite (hTot_A g4 w (1 + INR 1 / INR 1 * 1)) by (auto; cbn; lra).
  unfold w. cbn. match goal with |- - (?A + _) + _ <> _ => generalize A end. intros A H.
  assert (HH : 1 + 1 / 1 * 1 = 2) by lra. replace (1 + 0 / 1 * 1) with 1 in H by lra. rewrite HH in H. lra.
Qed.
Print Assumptions C49_ramp_refuted.

(** The derivatives are those of the Hamiltonian: the derivative of the Hamiltonian
    with respect to one component at one node is the node volume times dc, whatever
    the perturbation, provided cc is the derivative of the ideal part, as it is when
    the modified diffusion equation is solved exactly ([sp x]: the species' data for
    the displaced field; the pressure field is not displaced). *)
Definition upd2 (f : nat -> nat -> R) (j k : nat) (x : R) : nat -> nat -> R :=
  fun a b => if ((a =? j) && (b =? k))%nat then x else f a b.
Lemma is_derive_point N (f : nat -> R -> R) k x d : (k < N)%nat ->
  (forall i, (i < N)%nat -> i <> k -> forall y, f i y = f i x) -> is_derive (f k) x d ->
  is_derive (fun y => rsum N (fun i => f i y)) x d.
Proof.
  intros Hk HC HD. replace d with (rsum N (fun i => if (i =? k)%nat then d else 0)).
  - apply is_derive_rsum. intros i Hi. destruct (Nat.eqb_spec i k) as [->|Ne]; [exact HD|].
    apply (is_derive_ext (fun _ => f i x)); [intros y; symmetry; apply HC; auto|apply @is_derive_const].
  - rewrite (rsum_single N k); auto. + rewrite Nat.eqb_refl. reflexivity. + intros i Hi Ne. destruct (Nat.eqb_spec i k); congruence.
Qed.
Lemma upd2_eq f j k x : upd2 f j k x j k = x.
Proof. unfold upd2. rewrite !Nat.eqb_refl. reflexivity. Qed.
Lemma upd2_ne f j k x a b : a <> j \/ b <> k -> upd2 f j k x a b = f a b.
Proof. intros H. unfold upd2. destruct (Nat.eqb_spec a j), (Nat.eqb_spec b k); cbn; auto. destruct H; congruence. Qed.
Lemma quad_derive M N c b wc j k x : (j < M)%nat -> (k < N)%nat ->
  is_derive (fun y => rsum M (fun a => rsum N (fun i => c a * (upd2 wc j k y a i - b a i) * (upd2 wc j k y a i - b a i)))) x
    (2 * c j * (x - b j k)).
Proof.
  intros Hj Hk. apply (is_derive_point M _ j); auto.
  { intros a Ha Ne y. apply rsum_ext. intros i _. rewrite !upd2_ne by auto. reflexivity. }
  apply (is_derive_point N _ k); auto.
  { intros i Hi Ne y. rewrite !upd2_ne by auto. reflexivity. }
  apply (is_derive_ext (fun y => c j * (y - b j k) * (y - b j k))).
  { intros y. rewrite upd2_eq. reflexivity. }
  auto_derive; auto. ring.
Qed.
Lemma derive_lin (f h : R -> R) a b x d d' : is_derive f x d -> (forall y, h y = a * f y + b) -> d' = a * d -> is_derive h x d'.
Proof.
  intros H E ->. apply (is_derive_ext (fun y => a * f y + b)); [intros; symmetry; apply E|].
  assert (D : Derive (fun y => f y) x = d) by (apply is_derive_unique; exact H).
  auto_derive; [exists d; exact H|]. rewrite D. ring.
Qed.
Lemma derive_add (f1 f2 h : R -> R) x d1 d2 d' : is_derive f1 x d1 -> is_derive f2 x d2 -> (forall y, h y = f1 y + f2 y) -> d' = d1 + d2 -> is_derive h x d'.
Proof. intros A B E ->. apply (is_derive_ext (fun y => f1 y + f2 y)); [intros; symmetry; apply E|]. apply @is_derive_plus; auto. Qed.
Theorem C49_gradient : forall p g e (sp : R -> list (R * R * R)) wc cc j k,
  (j < pM p - 1)%nat -> (k < pMesh p)%nat -> pVMono p <> 0 -> gVal g j <> 0 ->
  (forall q, e = Some q -> eEps q j <> 0) ->
  let vNode := pVol p / INR (pMesh p) in
  is_derive (fun x => hIdeal (hamOf p g e (sp x) (upd2 wc j k x))) (wc j k) (vNode * (cc j k / pVMono p)) ->
  is_derive (fun x => hTot (hamOf p g e (sp x) (upd2 wc j k x))) (wc j k) (vNode * dcOf p g e wc cc j k).
Proof.
  intros p g e sp wc cc j k Hj Hk Hv Hg He vNode HI.
  assert (HN : INR (pMesh p) <> 0) by (apply not_0_INR; lia).
  set (n := pVol p / pVMono p).
  assert (HF : is_derive (fun x => n * fieldH p g (upd2 wc j k x)) (wc j k) (vNode * (1 / pVMono p * ((-1) * INR (pM p) / gVal g j * (wc j k - gSc g j))))).
  { pose proof (quad_derive (pM p - 1) (pMesh p) (fun a => (-1/2) * INR (pM p) / gVal g a) (fun a _ => gSc g a) wc j k (wc j k) Hj Hk) as Q.
    apply (derive_lin _ _ (n / INR (pMesh p)) (n * ((1/2) * gSc g (pM p - 1)%nat)) _ _ _ Q).
    - intros y. unfold fieldH. field. auto.
    - unfold n, vNode. field. auto. }
  assert (HH : is_derive (fun x => hIdeal (hamOf p g e (sp x) (upd2 wc j k x)) + n * fieldH p g (upd2 wc j k x)) (wc j k)
     (vNode * (1 / pVMono p * ((-1) * INR (pM p) / gVal g j * (wc j k - gSc g j) + cc j k)))).
  { apply (derive_add _ _ _ _ _ _ _ HI HF); [reflexivity|]. unfold vNode. field. auto. }
  destruct e as [q|].
  - assert (HE : is_derive (fun x => ecH p q (upd2 wc j k x)) (wc j k) (vNode * (INR (pM p) / (eEps q j * pVMono p) * (wc j k - eWc0 q j k)))).
    { pose proof (He q eq_refl) as Hq.
      pose proof (quad_derive (pM p - 1) (pMesh p) (fun a => INR (pM p) / (2 * eEps q a)) (eWc0 q) wc j k (wc j k) Hj Hk) as Q.
      apply (derive_lin _ _ (n / INR (pMesh p)) 0 _ _ _ Q).
      - intros y. unfold ecH, n. field. auto.
      - unfold n, vNode. field. auto. }
    unfold dcOf. set (D := 1 / pVMono p * ((-1) * INR (pM p) / gVal g j * (wc j k - gSc g j) + cc j k)) in *. set (X := INR (pM p) / (eEps q j * pVMono p) * (wc j k - eWc0 q j k)) in *.
    pose proof (derive_lin _ (fun x => eLambda q * (hIdeal (hamOf p g (Some q) (sp x) (upd2 wc j k x)) + n * fieldH p g (upd2 wc j k x)))
      (eLambda q) 0 _ _ (eLambda q * (vNode * D)) HH) as HL.
    pose proof (derive_lin _ (fun x => (1 - eLambda q) * ecH p q (upd2 wc j k x)) (1 - eLambda q) 0 _ _ ((1 - eLambda q) * (vNode * X)) HE) as HM.
    apply (derive_add _ _ _ _ _ _ _ (HL ltac:(intros; cbv beta; ring) eq_refl) (HM ltac:(intros; cbv beta; ring) eq_refl)).
    + intros y. unfold hamOf. cbn [hTot hIdeal]. fold n. ring.
    + ring.
  - exact HH.
Qed.
Print Assumptions C49_gradient.

(** The hypothesis of C49_gradient holds for an exact solver: two species of single
    monomers, any mesh, any field. *)
Definition wOf (wc : nat -> nat -> R) : nat -> nat -> R := fun a k => wc 1%nat k + (if (a =? 0)%nat then wc 0%nat k else - wc 0%nat k).
Lemma qA_pos N w : (0 < N)%nat -> 0 < rsum N (fun k => exp (- w k)).
Proof. intros H. apply rsum_pos; auto. intros; apply exp_pos. Qed.
Lemma derive_lnq N wc a k : (k < N)%nat ->
  let e := if (a =? 0)%nat then 1 else -1 in
  is_derive (fun x => ln (/ 2 / qA N (wOf (upd2 wc 0 k x) a))) (wc 0%nat k)
    (e * exp (- wOf wc a k) / rsum N (fun i => exp (- wOf wc a i))).
Proof.
  intros Hk e. set (S := fun x => rsum N (fun i => exp (- wOf (upd2 wc 0 k x) a i))).
  assert (HW : forall x i, wOf (upd2 wc 0 k x) a i = wc 1%nat i + e * (if (i =? k)%nat then x else wc 0%nat i)).
  { intros x i. unfold wOf, upd2, e. cbn [Nat.eqb andb]. destruct (a =? 0)%nat, (i =? k)%nat; ring. }
  assert (HS : forall x, 0 < S x) by (intros x; apply qA_pos; lia).
  assert (S0 : S (wc 0%nat k) = rsum N (fun i => exp (- wOf wc a i))).
  { apply rsum_ext. intros i _. f_equal. f_equal. rewrite HW. unfold wOf, e. destruct (Nat.eqb_spec i k) as [->|]; destruct (a =? 0)%nat; ring. }
  assert (DS : is_derive S (wc 0%nat k) (- e * exp (- wOf wc a k))).
  { apply (is_derive_point N _ k); auto.
    - intros i Hi Ne y. f_equal. f_equal. rewrite !HW. destruct (Nat.eqb_spec i k); [congruence|reflexivity].
    - apply (is_derive_ext (fun y => exp (- (wc 1%nat k + e * y)))).
      { intros y. f_equal. f_equal. rewrite HW, Nat.eqb_refl. reflexivity. }
      auto_derive; auto. replace (wOf wc a k) with (wc 1%nat k + e * wc 0%nat k) by (unfold wOf, e; destruct (a =? 0)%nat; ring). ring. }
  assert (HNp : 0 < INR N) by (apply lt_0_INR; lia).
  apply (is_derive_ext (fun x => ln (INR N / 2) - ln (S x))).
  { intros x. unfold qA. fold (S x). pose proof (HS x). rewrite <- ln_div by lra. f_equal. field. lra. }
  assert (D : Derive (fun x => S x) (wc 0%nat k) = - e * exp (- wOf wc a k)) by (apply is_derive_unique; exact DS).
  auto_derive.
  - split; [exists (- e * exp (- wOf wc a k)); exact DS|]. split; [apply HS|auto].
  - rewrite D, S0. field. pose proof (HS (wc 0%nat k)). lra.
Qed.
Example C49_gradient_case : forall N x wc k, (k < N)%nat -> 0 < x ->
  let p := parA N x in let sp := fun y => snd (mdeA p (wOf (upd2 wc 0 k y))) in
  let cc := ccOf 2 (gA x) (fst (mdeA p (wOf wc))) in
  is_derive (fun y => hTot (hamOf p (gA x) None (sp y) (upd2 wc 0 k y))) (wc 0%nat k)
    (pVol p / INR N * dcOf p (gA x) None wc cc 0 k).
Proof.
  intros N x wc k Hk Hx p sp cc. apply C49_gradient; cbn; try lia; try lra; try discriminate.
  assert (HNp : 0 < INR N) by (apply lt_0_INR; lia).
  assert (H0 := derive_lnq N wc 0 k Hk). assert (H1 := derive_lnq N wc 1 k Hk). cbn zeta in H0, H1. cbn [Nat.eqb] in H0, H1.
  pose proof (qA_pos N (wOf wc 0) ltac:(lia)) as Q0. pose proof (qA_pos N (wOf wc 1) ltac:(lia)) as Q1.
  assert (T : rlt (1 / 100000000) (/ 2) = true) by (unfold rlt; destruct (Rlt_dec (1 / 100000000) (/ 2)); auto; lra).
  pose proof (derive_add _ _ (fun y => ln (/ 2 / qA N (wOf (upd2 wc 0 k y) 0)) + ln (/ 2 / qA N (wOf (upd2 wc 0 k y) 1))) _ _ _ _ H0 H1 ltac:(intros; reflexivity) eq_refl) as HA.
  apply (derive_lin _ _ (INR N * / 2) (INR N * (-1 - rsum N (fun i => wc 1%nat i / INR N))) _ _ _ HA).
  - intros y. unfold hamOf, sp, mdeA, lnQ. cbn [hIdeal snd fold_left parA pM pMesh pVol pVMono p Nat.sub]. rewrite T.
    unfold upd2 at 3. cbn [Nat.eqb andb]. match goal with |- context [rsum N ?f] => set (r := rsum N f) end.
    set (l0 := ln _). set (l1 := ln _). clearbody r l0 l1. field.
  - unfold cc, ccOf, mdeA, qA, parA. cbn [fst pMesh pVol pVMono rsum gA gVec Nat.eqb INR]. field. lra.
Qed.

(** C49.  In any state: computeHamiltonian and computeCc refuse outdated
    concentrations, computeHamiltonian refuses outdated wc, and hamiltonian()
    refuses an outdated value.  When the wc components belong to the current
    fields, so does the Hamiltonian; computeDc never uses outdated wc. *)
Theorem C49_guards : forall s s' : sim,
  (computeHamiltonian s = Ok s' -> yHasC (mSys s) = true /\ fWc (mK s) = true /\
     fH (mK s') = true /\
     kH (mK s') = hamOf (mPar s) (mEig s) (mPert s) (ySp (mSys s)) (kWc (mK s))) /\
  (computeCc s = Ok s' -> yHasC (mSys s) = true /\
     kCc (mK s') = ccOf (pM (mPar s)) (mEig s) (yC (mSys s))) /\
  (forall h, hamiltonian s = Ok h -> fH (mK s) = true /\ h = hTot (kH (mK s))) /\
  ((fWc (mK s) = true -> kWc (mK s) = wcOf (pM (mPar s)) (mEig s) (yW (mSys s))) ->
   (fCc (mK s) = true -> yHasC (mSys s) = true /\ kCc (mK s) = ccOf (pM (mPar s)) (mEig s) (yC (mSys s))) ->
   computeDc s = Ok s' -> yHasC (mSys s) = true /\
     kDc (mK s') = dcOf (mPar s) (mEig s) (mPert s)
       (wcOf (pM (mPar s)) (mEig s) (yW (mSys s))) (ccOf (pM (mPar s)) (mEig s) (yC (mSys s)))).
Proof.
  intros s s'. split; [|split; [|split]].
  - unfold computeHamiltonian. destruct (yHasC (mSys s)); [|discriminate]. cbn [check].
    destruct (fWc (mK s)); [|discriminate]. cbn [check]. intros E. injection E as <-. auto.
  - unfold computeCc. destruct (yHasC (mSys s)); [|discriminate]. cbn [check].
    intros E. injection E as <-. auto.
  - intros h. unfold hamiltonian. destruct (fH (mK s)); [|discriminate]. cbn [check].
    intros E. injection E as <-. auto.
  - intros IW IC. unfold computeDc, computeCc.
    destruct (fWc (mK s)) eqn:FW; cbn [computeWc withK mK fCc mSys].
    + rewrite <- (IW eq_refl). destruct (fCc (mK s)) eqn:FC; cbn [bind].
      * destruct (IC eq_refl) as [H <-]. intros E. injection E as <-. auto.
      * destruct (yHasC (mSys s)); [|discriminate]. cbn [check bind].
        intros E. injection E as <-. auto.
    + destruct (fCc (mK s)) eqn:FC; cbn [bind].
      * destruct (IC eq_refl) as [H <-]. intros E. injection E as <-. auto.
      * destruct (yHasC (mSys s)); [|discriminate]. cbn [check bind].
        intros E. injection E as <-. auto.
Qed.
Print Assumptions C49_guards.
