(** Properties C46-C49: field-theoretic simulations. *)
From Coq Require Import Reals List Arith Bool Lia Lra.
From Coquelicot Require Import Coquelicot.
From Verif Require Import Base RSum Fts FtsEig FtsProofs.
Import ListNotations.
Local Open Scope R_scope.

(* ================= C46 ================= *)
(** C46: a move never throws when the simulator is ready; afterwards the simulator
    is ready again, and unless the move was accepted it is as before: fields,
    components, Hamiltonian with its parts, derivatives (if marked available) and
    the perturbation.  (Components cc_: see C46_cc_refuted.) *)
Theorem C46_unaccepted_restores : forall mde comp c s,
  ready s -> nH (mNeed s) = true -> (usesDc c = true -> nDc (mNeed s) = true) ->
  exists s' r, doMove mde comp c s = Ok (s', r) /\ ready s' /\
    mPar s' = mPar s /\ mEig s' = mEig s /\ mNeed s' = mNeed s /\
    (r <> Accepted ->
       yW (mSys s') = yW (mSys s) /\ kWc (mK s') = kWc (mK s) /\ kH (mK s') = kH (mK s) /\
       (fDc (mK s') = true -> fDc (mK s) = true /\ kDc (mK s') = kDc (mK s)) /\
       (yHasC (mSys s') = true -> yC (mSys s') = yC (mSys s) /\ ySp (mSys s') = ySp (mSys s)) /\
       pertView (mPert s') = pertView (mPert s) /\
       (fCc (mK s') = true -> nCc (mNeed s) = true \/ nDc (mNeed s) = false -> kCc (mK s') = kCc (mK s))).
Proof.
  intros mde comp c s R HN HD. destruct (doMove_ok mde comp c s R HN HD) as (s' & r & E & A1 & A2 & A3 & A4 & A5 & A6 & _).
  exists s', r. split; [exact E|]. split; [exact A1|]. spl.
  intros NR. destruct (A5 NR) as [S1 S2 S3 S4 S5 S6]. spl.
  - intros F. destruct (S4 F). auto.
  - intros F [Q|Q]; auto.
Qed.
Print Assumptions C46_unaccepted_restores.

(** ... so any sequence of moves runs, whatever the random numbers and compressor do. *)
Theorem C46_sequences : forall eigOf mde comp l i s,
  ready s -> current mde s -> nH (mNeed s) = true -> allowed s l ->
  exists s' n, mcLoop eigOf mde comp None l i s = Ok (s', n) /\ ready s' /\ current mde s'.
Proof.
  intros eigOf mde comp l i s R C HN HA. destruct (mcLoop_ok eigOf mde comp l i s R C HN HA) as (s' & n & E & A & B & _).
  exists s', n. auto.
Qed.
Print Assumptions C46_sequences.

(** The same for a failed step of Brownian dynamics. *)
Theorem C46_failed_step_restores : forall mde comp c s,
  ready s -> nDc (mNeed s) = true -> nH (mNeed s) = false ->
  exists s' b, doStep mde comp c s = Ok (s', b) /\ ready s' /\ mPar s' = mPar s /\ mEig s' = mEig s /\
    (b = false ->
       yW (mSys s') = yW (mSys s) /\ kWc (mK s') = kWc (mK s) /\ kDc (mK s') = kDc (mK s) /\
       (fH (mK s') = true -> kH (mK s') = kH (mK s)) /\ pertView (mPert s') = pertView (mPert s)) /\
    (current mde s -> current mde s').
Proof.
  intros mde comp c s R HD HN. destruct (doStep_ok mde comp c s R HD HN) as (s' & b & E & A1 & A2 & A3 & A4 & A5 & _ & A7).
  exists s', b. spl. intros B. destruct (A5 B) as [S1 S2 S3 S4 S5 S6]. spl.
  apply S4. destruct A1 as [_ _ D _ _]. apply D. rewrite A4. exact HD.
Qed.
Print Assumptions C46_failed_step_restores.

(* ----- concrete cases: two monomers, each a solvent of volume fraction 1/2, on a
   grid of n points, solved exactly ----- *)
Definition gA (x : R) : eig :=
  mkEig (fun j => if (j =? 0)%nat then - x else 0)
        (fun j a => if (j =? 0)%nat then (if (a =? 0)%nat then 1 else -1) else 1)
        (fun j => if (j =? 0)%nat then 0 else x / 2).
Definition chiA (x : R) : nat -> nat -> R := fun i j => if (i =? j)%nat then 0 else x.
Definition qA (n : nat) (w : nat -> R) : R := rsum n (fun k => exp (- w k)) / INR n.
Definition mdeA (p : par) (w : nat -> nat -> R) : (nat -> nat -> R) * list (R * R * R) :=
  (fun a k => / 2 * exp (- w a k) / qA (pMesh p) (w a), [(/ 2, ln (/ 2 / qA (pMesh p) (w 0%nat)), 1); (/ 2, ln (/ 2 / qA (pMesh p) (w 1%nat)), 1)]).
Definition parA (n : nat) (x : R) : par := mkPar 2 n (chiA x) 1 (INR n) [].
(** A state in which everything has been computed. *)
Definition stateA (p : par) (g : eig) (w : nat -> nat -> R) (n : need) : sim :=
  let wc := wcOf (pM p) g w in let cc := ccOf (pM p) g (fst (mdeA p w)) in
  mkSim p g (mkSys w (fst (mdeA p w)) (snd (mdeA p w)) true)
    (mkComps wc cc (dcOf p g None wc cc) (hamOf p g None (snd (mdeA p w)) wc) true true true true)
    (mkSaved w w w w (mkHam 0 0 0 0) false) n None.
Lemma stateA_ok p g w n : ready (stateA p g w n) /\ current mdeA (stateA p g w n).
Proof. split; constructor; cbn; auto. Qed.

Example C46_case : let s := stateA (parA 2 1) (gA 1) (fun a k => INR (a + k)) (mkNeed false true true) in
  ready s /\ nH (mNeed s) = true /\ (usesDc (ForceBias (1/2) (fun j k => INR k) (fun _ => false)) = true -> nDc (mNeed s) = true).
Proof. split; [apply stateA_ok|]. cbn. auto. Qed.

(** C46 fails for the components of the c fields: after a rejected force-bias move
    they are marked available but are those of the rejected fields. *)
Theorem C46_cc_refuted : exists mde comp c s s',
  ready s /\ current mde s /\ nH (mNeed s) = true /\ nDc (mNeed s) = true /\ fCc (mK s) = true /\
  doMove mde comp c s = Ok (s', Rejected) /\
  fCc (mK s') = true /\ yW (mSys s') = yW (mSys s) /\
  kCc (mK s') 0%nat 0%nat <> kCc (mK s) 0%nat 0%nat /\
  kCc (mK s') 0%nat 0%nat <> ccOf (pM (mPar s')) (mEig s') (fst (mde (mPar s') (yW (mSys s')))) 0%nat 0%nat.
Proof.
  set (w0 := fun _ _ : nat => 0).
  set (s := stateA (parA 2 1) (gA 1) w0 (mkNeed false true true)).
  set (rnd := fun _ k : nat => if (k =? 0)%nat then 1 else 0).
  destruct (stateA_ok (parA 2 1) (gA 1) w0 (mkNeed false true true)) as [R C].
  pose proof (fbMove_eq mdeA (fun _ w => (false, w)) (/ 2) rnd (fun _ => false) s R eq_refl eq_refl) as E.
  cbn zeta beta in E. specialize (E eq_refl). cbn [snd] in E.
  match type of E with _ = Ok (rst ?t, _) => set (tt := t) in * end.
  exists mdeA, (fun _ w => (false, w)), (ForceBias (/ 2) rnd (fun _ => false)), s, (rst tt).
  split; [exact R|]. split; [exact C|]. do 3 (split; [reflexivity|]). split; [exact E|].
  split; [reflexivity|]. split; [reflexivity|].
  assert (A : kCc (mK s) 0%nat 0%nat = 0).
  { change (kCc (mK s)) with (ccOf 2 (gA 1) (fst (mdeA (parA 2 1) w0))). unfold ccOf, mdeA, w0, qA. cbn. lra. }
  assert (D0 : forall k, kDc (mK s) 0%nat k = 0).
  { intros k. change (kDc (mK s)) with (dcOf (parA 2 1) (gA 1) None (wcOf 2 (gA 1) w0) (ccOf 2 (gA 1) (fst (mdeA (parA 2 1) w0)))).
    unfold dcOf, wcOf, ccOf, mdeA, w0, qA. cbn. lra. }
  set (W := displace 2 (gA 1) w0 (fbDwc (/ 2) (INR 2 / INR 2) (kDc (mK s)) rnd)).
  assert (WV : forall a k, (k < 2)%nat -> W a k = (if (a =? 0)%nat then 1 else -1) * (if (k =? 0)%nat then 1 else 0)).
  { intros a k Hk. unfold W, displace, fbDwc, w0, rnd. cbn [Nat.sub rsum gA gVec Nat.eqb]. rewrite D0.
    replace (2 * / 2 / (INR 2 / INR 2)) with 1 by (cbn; lra). rewrite sqrt_1. destruct (a =? 0)%nat, (k =? 0)%nat; lra. }
  assert (B : kCc (mK (rst tt)) 0%nat 0%nat = (1 - exp 1) / (1 + exp 1)).
  { change (kCc (mK (rst tt))) with (ccOf 2 (gA 1) (fst (mdeA (parA 2 1) W))).
    unfold ccOf, mdeA, qA. cbn [rsum gA gVec Nat.eqb fst parA pMesh]. rewrite !WV by lia. cbn [Nat.eqb].
    replace (- (1 * 1)) with (-(1)) by ring. replace (- (1 * 0)) with 0 by ring. replace (- (-1 * 1)) with 1 by ring. replace (- (-1 * 0)) with 0 by ring.
    rewrite exp_Ropp, exp_0. pose proof (exp_pos 1). change (INR 2) with 2. field. split; lra. }
  pose proof exp_ineq1 1 ltac:(lra) as X.
  assert (Z : (1 - exp 1) / (1 + exp 1) < 0).
  { apply (Rmult_lt_reg_r (1 + exp 1)); [lra|]. unfold Rdiv. rewrite Rmult_assoc, Rinv_l by lra. lra. }
  split.
  - rewrite A, B. lra.
  - rewrite B. change (ccOf _ _ _ 0%nat 0%nat) with (kCc (mK s) 0%nat 0%nat). rewrite A. lra.
Qed.
Print Assumptions C46_cc_refuted.

(* ================= C47 ================= *)
Fixpoint rprod (n : nat) (f : nat -> R) : R := match n with O => 1 | S k => rprod k f * f k end.
Lemma rprod_ext n f g : (forall i, (i < n)%nat -> f i = g i) -> rprod n f = rprod n g.
Proof. induction n; intros H; cbn; auto. rewrite IHn, H; auto. Qed.
Lemma rprod_exp n f c : rprod n (fun i => c * exp (f i)) = c ^ n * exp (rsum n f).
Proof. induction n; cbn [rprod rsum pow]; [rewrite exp_0; ring|]. rewrite IHn, exp_plus. ring. Qed.
Lemma rprod_exp2 n f c : rprod n (fun i => c i * exp (f i)) = rprod n c * exp (rsum n f).
Proof. induction n; cbn [rprod rsum]; [rewrite exp_0; ring|]. rewrite IHn, exp_plus. ring. Qed.
(** Density of a normal distribution. *)
Definition gpdf (mean var x : R) : R := exp (- (x - mean) * (x - mean) / (2 * var)) / sqrt (2 * PI * var).
(** Density of proposing the displacements x of the exchange components from a state
    with derivatives d: independent normal variables of mean -mob d and variance
    2 mob / vNode. *)
Definition proposal (M mesh : nat) (mob vNode : R) (d x : nat -> nat -> R) : R :=
  rprod (M - 1) (fun j => rprod mesh (fun k => gpdf (- mob * d j k) (2 * mob / vNode) (x j k))).
Lemma proposal_form M mesh mob vNode d x : 0 < mob -> 0 < vNode ->
  proposal M mesh mob vNode d x =
  ((/ sqrt (2 * PI * (2 * mob / vNode))) ^ mesh) ^ (M - 1) *
  exp (rsum (M - 1) (fun j => rsum mesh (fun k => - (vNode / (4 * mob)) * ((x j k + mob * d j k) * (x j k + mob * d j k))))).
Proof.
  intros Hm Hv. unfold proposal.
  rewrite (rprod_ext (M - 1) _ (fun j => (/ sqrt (2 * PI * (2 * mob / vNode))) ^ mesh *
     exp (rsum mesh (fun k => - (vNode / (4 * mob)) * ((x j k + mob * d j k) * (x j k + mob * d j k)))))).
  - apply rprod_exp.
  - intros j _. rewrite <- rprod_exp. apply rprod_ext. intros k _. unfold gpdf. unfold Rdiv at 1. rewrite Rmult_comm. f_equal. f_equal.
    field. split; lra.
Qed.
Lemma proposal_pos M mesh mob vNode d x : 0 < mob -> 0 < vNode -> 0 < proposal M mesh mob vNode d x.
Proof.
  intros Hm Hv. rewrite proposal_form by auto. apply Rmult_lt_0_compat; [|apply exp_pos].
  apply pow_lt, pow_lt, Rinv_0_lt_compat, sqrt_lt_R0. apply Rmult_lt_0_compat; [pose proof PI_RGT_0; lra|].
  apply Rdiv_lt_0_compat; lra.
Qed.
(** The numbers drawn by ForceBiasMove have that density: it is the density of the
    standard normal numbers divided by the scale factor of each. *)
Theorem C47_proposal : forall M mesh mob vNode d rnd, 0 < mob -> 0 < vNode ->
  proposal M mesh mob vNode d (fbDwc mob vNode d rnd) =
  rprod (M - 1) (fun j => rprod mesh (fun k => gpdf 0 1 (rnd j k) / sqrt (2 * mob / vNode))).
Proof.
  intros M mesh mob vNode d rnd Hm Hv. unfold proposal. apply rprod_ext. intros j _. apply rprod_ext. intros k _.
  assert (P : 0 < 2 * mob / vNode) by (apply Rdiv_lt_0_compat; lra).
  unfold gpdf, fbDwc. pose proof PI_RGT_0. rewrite (sqrt_mult (2 * PI)) by lra. replace (2 * PI * 1) with (2 * PI) by ring.
  replace (- (-1 * mob * d j k + sqrt (2 * mob / vNode) * rnd j k - - mob * d j k) * (-1 * mob * d j k + sqrt (2 * mob / vNode) * rnd j k - - mob * d j k) / (2 * (2 * mob / vNode)))
    with (- (rnd j k - 0) * (rnd j k - 0) / (2 * 1)).
  - field. split; apply Rgt_not_eq, sqrt_lt_R0; lra.
  - pose proof (sqrt_sqrt (2 * mob / vNode) (Rlt_le _ _ P)) as Q. set (b := sqrt (2 * mob / vNode)) in *. rewrite <- Q.
    assert (b <> 0) by (intros Z; rewrite Z in Q; lra). field. auto.
Qed.
Print Assumptions C47_proposal.

(** C47: the acceptance weight exp(bias - dH) is exp(-dH) times the ratio of the
    reverse to the forward proposal density. *)
Theorem C47_weight : forall M mesh mob vNode di df x dH, 0 < mob -> 0 < vNode ->
  exp (fbBias M mesh mob vNode di df x - dH) =
  exp (- dH) * (proposal M mesh mob vNode df (fun j k => - x j k) / proposal M mesh mob vNode di x).
Proof.
  intros M mesh mob vNode di df x dH Hm Hv. rewrite !proposal_form by auto.
  set (c := ((/ sqrt (2 * PI * (2 * mob / vNode))) ^ mesh) ^ (M - 1)).
  assert (CP : 0 < c).
  { unfold c. apply pow_lt, pow_lt, Rinv_0_lt_compat, sqrt_lt_R0. apply Rmult_lt_0_compat; [pose proof PI_RGT_0; lra|]. apply Rdiv_lt_0_compat; lra. }
  match goal with |- _ = _ * (c * exp ?a / (c * exp ?b)) => set (A := a); set (B := b) end.
  replace (exp (- dH) * (c * exp A / (c * exp B))) with (exp (- dH) * (exp A / exp B)) by (field; split; [apply Rgt_not_eq, exp_pos|lra]).
  unfold Rdiv. rewrite <- exp_Ropp, <- !exp_plus. f_equal.
  assert (E : fbBias M mesh mob vNode di df x = A - B); [|lra].
  unfold A, B. rewrite <- rsum_minus. unfold fbBias. rewrite <- rsum_scal_r. apply rsum_ext. intros j _.
  rewrite <- rsum_minus, <- rsum_scal_r. apply rsum_ext. intros k _. field. lra.
Qed.
Print Assumptions C47_weight.

(** Exchanging initial and final states inverts the weight. *)
Theorem C47_inverse : forall M mesh mob vNode di df x dH,
  exp (fbBias M mesh mob vNode di df x - dH) * exp (fbBias M mesh mob vNode df di (fun j k => - x j k) - (- dH)) = 1.
Proof.
  intros. rewrite <- exp_plus, <- exp_0. f_equal.
  assert (E : fbBias M mesh mob vNode df di (fun j k => - x j k) = - fbBias M mesh mob vNode di df x); [|lra].
  unfold fbBias. rewrite <- !rsum_scal_r, <- rsum_opp. apply rsum_ext. intros j _.
  rewrite <- !rsum_scal_r, <- rsum_opp. apply rsum_ext. intros k _. ring.
Qed.
Print Assumptions C47_inverse.

(** Detailed balance for acceptance with probability min(1, weight), with respect to
    exp(-H). *)
Theorem C47_detailed_balance : forall M mesh mob vNode di df x H H', 0 < mob -> 0 < vNode ->
  exp (- H) * proposal M mesh mob vNode di x * Rmin 1 (exp (fbBias M mesh mob vNode di df x - (H' - H))) =
  exp (- H') * proposal M mesh mob vNode df (fun j k => - x j k) *
    Rmin 1 (exp (fbBias M mesh mob vNode df di (fun j k => - x j k) - (H - H'))).
Proof.
  intros M mesh mob vNode di df x H H' Hm Hv.
  rewrite !C47_weight by auto.
  replace (proposal M mesh mob vNode di (fun j k => - - x j k)) with (proposal M mesh mob vNode di x).
  2:{ unfold proposal. apply rprod_ext. intros j _. apply rprod_ext. intros k _. rewrite Ropp_involutive. reflexivity. }
  set (f := proposal M mesh mob vNode di x). set (r := proposal M mesh mob vNode df (fun j k => - x j k)).
  assert (FP : 0 < f) by (apply proposal_pos; auto). assert (RP : 0 < r) by (apply proposal_pos; auto).
  replace (- (H' - H)) with (- H' + H) by ring. replace (- (H - H')) with (- H + H') by ring. rewrite !exp_plus.
  set (a := exp (- H)). set (b := exp (- H')).
  assert (AP : 0 < a) by apply exp_pos. assert (BP : 0 < b) by apply exp_pos.
  replace (exp H) with (/ a) by (unfold a; rewrite exp_Ropp; apply Rinv_inv).
  replace (exp H') with (/ b) by (unfold b; rewrite exp_Ropp; apply Rinv_inv).
  assert (MUL : forall u v, 0 < u -> u * Rmin 1 v = Rmin u (u * v)).
  { intros u v Hu. unfold Rmin. destruct (Rle_dec 1 v), (Rle_dec u (u * v)); try lra; exfalso.
    - apply n. rewrite <- (Rmult_1_r u) at 1. apply Rmult_le_compat_l; lra.
    - apply n. apply (Rmult_le_reg_l u); lra. }
  rewrite !MUL by (apply Rmult_lt_0_compat; auto).
  replace (a * f * (b * / a * (r / f))) with (b * r) by (field; lra).
  replace (b * r * (a * / b * (f / r))) with (a * f) by (field; lra). apply Rmin_comm.
Qed.
Print Assumptions C47_detailed_balance.

(** The whole move: it is accepted according to that weight, with the derivatives and
    Hamiltonians of the fields before and after the move. *)
Theorem C47_move : forall mde comp mob rnd acc s,
  ready s -> current mde s -> nDc (mNeed s) = true -> nH (mNeed s) = true ->
  0 < mob -> 0 < pVol (mPar s) -> (0 < pMesh (mPar s))%nat ->
  let p := mPar s in
  let vNode := pVol p / INR (pMesh p) in
  let di := trueDc mde s in
  let x := fbDwc mob vNode di rnd in
  let r := comp p (displace (pM p) (mEig s) (yW (mSys s)) x) in
  let s1 := setW (snd r) s in
  fst r = false ->
  exists s' res, fbMove mde comp mob rnd acc s = Ok (s', res) /\
    (res = Accepted <->
       acc (exp (- (hTot (trueH mde s1) - hTot (trueH mde s))) *
            (proposal (pM p) (pMesh p) mob vNode (trueDc mde s1) (fun j k => - x j k) / proposal (pM p) (pMesh p) mob vNode di x)) = true) /\
    (res = Accepted -> yW (mSys s') = snd r).
Proof.
  intros mde comp mob rnd acc s R C HD HN Hm Hv Hn p vNode di x r s1 F.
  destruct r as [err w'] eqn:ER. cbn [fst snd] in *. subst err.
  destruct (fbMove_spec mde comp mob rnd acc s R C HD HN x _ w' eq_refl eq_refl ER) as (t & T1 & T2 & T3 & E).
  assert (VP : 0 < vNode) by (apply Rdiv_lt_0_compat; [auto|apply lt_0_INR; auto]).
  rewrite C47_weight in E by auto. rewrite E. clear E. fold p vNode di s1.
  match goal with |- context [acc ?w] => generalize w end. intros wt.
  destruct (acc wt).
  - exists (clearState t), Accepted. split; [reflexivity|]. split; [tauto|]. intros _. exact T3.
  - exists (rst t), Rejected. split; [reflexivity|]. split; [split; discriminate|]. discriminate.
Qed.
Print Assumptions C47_move.
Example C47_case : let s := stateA (parA 2 1) (gA 1) (fun a k => INR (a + k)) (mkNeed false true true) in
  ready s /\ current mdeA s /\ nDc (mNeed s) = true /\ nH (mNeed s) = true /\ 0 < 1/2 /\ 0 < pVol (mPar s) /\ (0 < pMesh (mPar s))%nat.
Proof. cbn zeta. split; [apply stateA_ok|]. split; [apply stateA_ok|]. cbn. repeat split; try lra; lia. Qed.
