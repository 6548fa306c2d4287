(** Property C54: the correlation functions of pscf/chem/Debye.cpp are continuous
    approximations of the ideal-chain correlation functions. *)
From Coq Require Import Reals List Arith Bool Lra Lia.
From Coquelicot Require Import Coquelicot.
From Verif Require Import Base RSum Debye.
Local Open Scope R_scope.

(** Specification: correlations of Gaussian chains.  A pair of points of a thread at
    contour distance t has the correlation exp(-k t), k = ksq b^2/6; a pair of beads at
    distance n has exp(-k n). *)
Definition rate (ksq kuhn : R) : R := ksq * kuhn ^ 2 / 6.
Definition threadPair (k L : R) : R := RInt (fun s => RInt (fun t => exp (- (k * Rabs (s - t)))) 0 L) 0 L.
Definition threadEnd (k L : R) : R := RInt (fun s => exp (- (k * s))) 0 L.
Definition absd (i j : nat) : nat := (i - j + (j - i))%nat.
Definition beadPair (k : R) (n : nat) : R := rsum n (fun i => rsum n (fun j => exp (- (k * INR (absd i j))))).
Definition beadEnd (k : R) (n : nat) : R := rsum n (fun i => exp (- (k * INR i))).

(** ---- Taylor bounds ---- *)
Lemma increasing_from_0 (f g : R -> R) : (forall x, 0 <= x -> is_derive f x (g x)) -> (forall x, 0 <= x -> 0 <= g x) -> f 0 = 0 ->
  forall x, 0 <= x -> 0 <= f x.
Proof.
  intros D P Z x Hx. destruct (Req_dec x 0) as [->|N]; [lra|].
  destruct (MVT_gen f 0 x g) as (c & Hc & E).
  - intros y Hy. rewrite Rmin_left in Hy by lra. apply D. lra.
  - intros y Hy. rewrite Rmin_left in Hy by lra. apply derivable_continuous_pt. exists (g y). apply is_derive_Reals, D. lra.
  - rewrite Rmin_left in Hc by lra. assert (0 <= g c * (x - 0)) by (apply Rmult_le_pos; [apply P|]; lra). lra.
Qed.
Lemma exp_t1 x : 0 <= x -> 0 <= 1 - exp (- x).
Proof. apply (increasing_from_0 (fun x => 1 - exp (- x)) (fun x => exp (- x))); [intros; auto_derive; [trivial|ring]|intros; left; apply exp_pos|rewrite Ropp_0, exp_0; ring]. Qed.
Lemma exp_t2 x : 0 <= x -> 0 <= exp (- x) - 1 + x.
Proof. apply (increasing_from_0 (fun x => exp (- x) - 1 + x) (fun x => 1 - exp (- x))); [intros; auto_derive; [trivial|ring]|apply exp_t1|rewrite Ropp_0, exp_0; ring]. Qed.
Lemma exp_t3 x : 0 <= x -> 0 <= 1 - x + x * x / 2 - exp (- x).
Proof. apply (increasing_from_0 (fun x => 1 - x + x * x / 2 - exp (- x)) (fun x => exp (- x) - 1 + x)); [intros; auto_derive; [trivial|field]|apply exp_t2|rewrite Ropp_0, exp_0; field]. Qed.
Lemma exp_t4 x : 0 <= x -> 0 <= exp (- x) - (1 - x + x * x / 2 - x * x * x / 6).
Proof. apply (increasing_from_0 (fun x => exp (- x) - (1 - x + x * x / 2 - x * x * x / 6)) (fun x => 1 - x + x * x / 2 - exp (- x))); [intros; auto_derive; [trivial|field]|apply exp_t3|rewrite Ropp_0, exp_0; field]. Qed.
Lemma exp_t5 x : 0 <= x -> 0 <= 1 - x + x * x / 2 - x * x * x / 6 + x * x * x * x / 24 - exp (- x).
Proof. apply (increasing_from_0 (fun x => 1 - x + x * x / 2 - x * x * x / 6 + x * x * x * x / 24 - exp (- x)) (fun x => exp (- x) - (1 - x + x * x / 2 - x * x * x / 6))); [intros; auto_derive; [trivial|field]|apply exp_t4|rewrite Ropp_0, exp_0; field]. Qed.

(** ---- closed forms ---- *)
Lemma threadEnd_closed k L : k <> 0 -> threadEnd k L = (1 - exp (- (k * L))) / k.
Proof.
  intros K. unfold threadEnd. apply is_RInt_unique.
  replace ((1 - exp (- (k * L))) / k) with (minus (- exp (- (k * L)) / k) (- exp (- (k * 0)) / k)).
  - apply (is_RInt_derive (fun s => - exp (- (k * s)) / k) (fun s => exp (- (k * s)))).
    + intros s _. auto_derive; [trivial|]. unfold Rminus. field. exact K.
    + intros s _. apply (ex_derive_continuous (fun s => exp (- (k * s)))). auto_derive. trivial.
  - unfold minus, plus, opp; cbn. rewrite Rmult_0_r, Ropp_0, exp_0. field. exact K.
Qed.
Lemma threadEnd_zero L : threadEnd 0 L = L.
Proof.
  unfold threadEnd. rewrite (RInt_ext _ (fun _ => 1)); [rewrite RInt_const; unfold scal; cbn; unfold mult; cbn; ring|].
  intros s _. rewrite Rmult_0_l, Ropp_0. apply exp_0.
Qed.
Lemma inner_closed k L s : k <> 0 -> 0 <= s <= L ->
  RInt (fun t => exp (- (k * Rabs (s - t)))) 0 L = (2 - exp (- (k * s)) - exp (- (k * (L - s)))) / k.
Proof.
  intros K Hs. apply is_RInt_unique.
  replace ((2 - exp (- (k * s)) - exp (- (k * (L - s)))) / k) with
    (plus ((1 - exp (- (k * s))) / k) ((1 - exp (- (k * (L - s)))) / k)) by (unfold plus; cbn; field; exact K).
  apply (@is_RInt_Chasles R_NormedModule (fun t => exp (- (k * Rabs (s - t)))) 0 s L ((1 - exp (- (k * s))) / k) ((1 - exp (- (k * (L - s)))) / k)).
  - apply (is_RInt_ext (fun t => exp (- (k * (s - t))))).
    { intros t Ht. rewrite Rmin_left, Rmax_right in Ht by lra. rewrite Rabs_right by lra. reflexivity. }
    replace ((1 - exp (- (k * s))) / k) with (minus (exp (- (k * (s - s))) / k) (exp (- (k * (s - 0))) / k)).
    + apply (is_RInt_derive (fun t => exp (- (k * (s - t))) / k)).
      * intros t _. auto_derive; [trivial|]. unfold Rminus. field. exact K.
      * intros t _. apply (ex_derive_continuous (fun t => exp (- (k * (s - t))))). auto_derive. trivial.
    + unfold minus, plus, opp; cbn. rewrite Rminus_diag_eq, Rmult_0_r, Ropp_0, exp_0, Rminus_0_r by reflexivity. field. exact K.
  - apply (is_RInt_ext (fun t => exp (- (k * (t - s))))).
    { intros t Ht. rewrite Rmin_left, Rmax_right in Ht by lra. rewrite Rabs_minus_sym, Rabs_right by lra. reflexivity. }
    replace ((1 - exp (- (k * (L - s)))) / k) with (minus (- exp (- (k * (L - s))) / k) (- exp (- (k * (s - s))) / k)).
    + apply (is_RInt_derive (fun t => - exp (- (k * (t - s))) / k)).
      * intros t _. auto_derive; [trivial|]. unfold Rminus. field. exact K.
      * intros t _. apply (ex_derive_continuous (fun t => exp (- (k * (t - s))))). auto_derive. trivial.
    + unfold minus, plus, opp; cbn. rewrite (Rminus_diag_eq s s), Rmult_0_r, Ropp_0, exp_0 by reflexivity. field. exact K.
Qed.
Lemma threadPair_closed k L : k <> 0 -> 0 <= L -> threadPair k L = 2 * (exp (- (k * L)) - 1 + k * L) / (k * k).
Proof.
  intros K HL. unfold threadPair. apply is_RInt_unique.
  apply (is_RInt_ext (fun s => (2 - exp (- (k * s)) - exp (- (k * (L - s)))) / k)).
  { intros s Hs. rewrite Rmin_left, Rmax_right in Hs by lra. symmetry. apply inner_closed; [exact K|lra]. }
  set (F := fun s => 2 * s / k + exp (- (k * s)) / (k * k) - exp (- (k * (L - s))) / (k * k)).
  replace (2 * (exp (- (k * L)) - 1 + k * L) / (k * k)) with (minus (F L) (F 0)).
  - apply (is_RInt_derive F).
    + intros s _. unfold F. auto_derive; [trivial|]. unfold Rminus. field. exact K.
    + intros s _. apply (ex_derive_continuous (fun s => (2 - exp (- (k * s)) - exp (- (k * (L - s)))) / k)). auto_derive. trivial.
  - unfold F, minus, plus, opp; cbn. rewrite Rmult_0_r, Rminus_0_r, (Rminus_diag_eq L L), Rmult_0_r, Ropp_0, exp_0 by reflexivity. field. exact K.
Qed.
Lemma threadPair_zero L : threadPair 0 L = L * L.
Proof.
  unfold threadPair. rewrite (RInt_ext _ (fun _ => L)); [rewrite RInt_const; unfold scal; cbn; unfold mult; cbn; ring|].
  intros s _. rewrite (RInt_ext _ (fun _ => 1)); [rewrite RInt_const; unfold scal; cbn; unfold mult; cbn; ring|].
  intros t _. rewrite Rmult_0_l, Ropp_0. apply exp_0.
Qed.
Lemma exp_pow y n : exp (- (y * INR n)) = exp (- y) ^ n.
Proof.
  induction n; [cbn; rewrite Rmult_0_r, Ropp_0; apply exp_0|]. rewrite S_INR. cbn [pow]. rewrite <- IHn, <- exp_plus. f_equal. ring.
Qed.
Lemma geom z n : rsum n (fun i => z ^ i) * (1 - z) = 1 - z ^ n.
Proof. induction n; cbn [rsum pow]; [ring|]. rewrite Rmult_plus_distr_r, IHn. ring. Qed.
Lemma beadEnd_closed k n : k <> 0 -> beadEnd k n = (1 - exp (- (INR n * k))) / (1 - exp (- k)).
Proof.
  intros K. assert (exp (- k) <> 1). { intros H. rewrite <- exp_0 in H. apply exp_inv in H. lra. }
  unfold beadEnd. rewrite (rsum_ext n _ (fun i => exp (- k) ^ i)) by (intros; apply exp_pow).
  rewrite (Rmult_comm (INR n)), exp_pow, <- geom. field. lra.
Qed.
Lemma pairRow z n : rsum n (fun i => z ^ absd i n) = z * rsum n (fun i => z ^ i).
Proof.
  rewrite rsum_rev, <- rsum_scal. apply rsum_ext. intros i Hi. change (z * z ^ i) with (z ^ S i). f_equal. unfold absd. lia.
Qed.
Lemma pairSum z n : rsum n (fun i => rsum n (fun j => z ^ absd i j)) * ((1 - z) * (1 - z)) = 2 * z * (z ^ n + INR n * (1 - z) - 1) + INR n * ((1 - z) * (1 - z)).
Proof.
  induction n; [cbn; ring|].
  cbn [rsum]. rewrite rsum_plus.
  rewrite (rsum_ext n (fun j => z ^ absd n j) (fun j => z ^ absd j n)) by (intros j _; f_equal; unfold absd; lia).
  rewrite pairRow. replace (absd n n) with 0%nat by (unfold absd; lia). cbn [pow].
  rewrite !Rmult_plus_distr_r, IHn, S_INR.
  replace (z * rsum n (fun i => z ^ i) * ((1 - z) * (1 - z))) with (z * (rsum n (fun i => z ^ i) * (1 - z)) * (1 - z)) by ring.
  rewrite geom. ring.
Qed.
Lemma beadPair_closed k n : k <> 0 ->
  beadPair k n = 2 * exp (- k) * (exp (- (INR n * k)) + INR n * (1 - exp (- k)) - 1) / ((1 - exp (- k)) * (1 - exp (- k))) + INR n.
Proof.
  intros K. assert (exp (- k) <> 1). { intros H. rewrite <- exp_0 in H. apply exp_inv in H. lra. }
  unfold beadPair. rewrite (rsum_ext n _ (fun i => rsum n (fun j => exp (- k) ^ absd i j))) by (intros; apply rsum_ext; intros; apply exp_pow).
  rewrite (Rmult_comm (INR n) k), exp_pow. assert (N0 : (1 - exp (- k)) * (1 - exp (- k)) <> 0) by (apply Rmult_integral_contrapositive_currified; lra).
  apply (Rmult_eq_reg_r ((1 - exp (- k)) * (1 - exp (- k)))); [|exact N0]. rewrite pairSum. field. lra.
Qed.

Lemma small_pos : 0 < small.
Proof. unfold small. lra. Qed.
Lemma rate_pos ksq b : 0 <= ksq -> 0 <= rate ksq b.
Proof. intros H. unfold rate. assert (0 <= ksq * b ^ 2) by (apply Rmult_le_pos; [exact H|apply pow2_ge_0]). lra. Qed.

(** ---- The large-argument branch is exact. ---- *)
Theorem C54_dt_large : forall ksq L b, 0 < L -> small <= L * rate ksq b -> dt ksq L b = threadPair (rate ksq b) L.
Proof.
  intros ksq L b HL Hx. pose proof small_pos. assert (K : rate ksq b <> 0) by (intros E; rewrite E in Hx; lra).
  rewrite threadPair_closed by lra. unfold dt, isSmall. replace (L * ksq * b * b / 6) with (rate ksq b * L) by (unfold rate; cbn; field).
  destruct (Rlt_dec _ small); [lra|]. field. split; solve [lra | exact K].
Qed.
Print Assumptions C54_dt_large.
Theorem C54_et_large : forall ksq L b, 0 < L -> small <= L * rate ksq b -> et ksq L b = threadEnd (rate ksq b) L.
Proof.
  intros ksq L b HL Hx. pose proof small_pos. assert (K : rate ksq b <> 0) by (intros E; rewrite E in Hx; lra).
  rewrite threadEnd_closed by exact K. unfold et, isSmall. replace (ksq * L * b * b / 6) with (rate ksq b * L) by (unfold rate; cbn; field).
  destruct (Rlt_dec _ small); [lra|]. field. split; solve [lra | exact K].
Qed.
Print Assumptions C54_et_large.
Theorem C54_db_large : forall ksq n b, small <= INR n * rate ksq b -> db ksq (INR n) b = beadPair (rate ksq b) n.
Proof.
  intros ksq n b Hx. pose proof small_pos. assert (K : rate ksq b <> 0) by (intros E; rewrite E in Hx; lra).
  rewrite beadPair_closed by exact K. unfold db, isSmall. replace (ksq * b * b / 6) with (rate ksq b) by (unfold rate; cbn; field).
  destruct (Rlt_dec _ small); [lra|reflexivity].
Qed.
Print Assumptions C54_db_large.
Theorem C54_eb_large : forall ksq n b, small <= INR n * rate ksq b -> eb ksq (INR n) b = beadEnd (rate ksq b) n.
Proof.
  intros ksq n b Hx. pose proof small_pos. assert (K : rate ksq b <> 0) by (intros E; rewrite E in Hx; lra).
  rewrite beadEnd_closed by exact K. unfold eb, isSmall. replace (ksq * b * b / 6) with (rate ksq b) by (unfold rate; cbn; field).
  destruct (Rlt_dec _ small); [lra|reflexivity].
Qed.
Print Assumptions C54_eb_large.

(** ---- The small-argument branch ---- *)
(** The end factor of threads agrees to the order of the neglected term x^3/24. *)
Theorem C54_et_small : forall ksq L b, 0 <= ksq -> 0 < L -> let x := L * rate ksq b in x < small ->
  Rabs (et ksq L b - threadEnd (rate ksq b) L) <= L * (x ^ 3 / 24).
Proof.
  intros ksq L b Hk HL x Hx. assert (P : 0 <= x) by (apply Rmult_le_pos; [lra|apply rate_pos, Hk]).
  unfold et, isSmall. replace (ksq * L * b * b / 6) with x by (unfold x, rate; cbn; field). destruct (Rlt_dec x small); [|lra].
  destruct (Req_dec (rate ksq b) 0) as [Z|K].
  - rewrite Z, threadEnd_zero. unfold x. rewrite Z, Rmult_0_r. cbn.
    replace ((1 - 0 / 2 + 0 * 0 / 6) * L - L) with 0 by field. rewrite Rabs_R0. lra.
  - rewrite threadEnd_closed by exact K. assert (HR : 0 < rate ksq b) by (pose proof (rate_pos ksq b Hk); lra).
    assert (Px : 0 < x) by (apply Rmult_lt_0_compat; assumption).
    replace (rate ksq b * L) with x by (unfold x; ring). replace (rate ksq b) with (x / L) by (unfold x; field; lra).
    replace ((1 - x / 2 + x * x / 6) * L - (1 - exp (- x)) / (x / L)) with
      (L / x * (exp (- x) - (1 - x + x * x / 2 - x * x * x / 6))) by (field; lra).
    pose proof (exp_t4 x P) as T4. pose proof (exp_t5 x P) as T5. assert (0 < L / x) by (apply Rdiv_lt_0_compat; assumption).
    rewrite Rabs_right by (apply Rle_ge, Rmult_le_pos; lra).
    apply Rle_trans with (L / x * (x * x * x * x / 24)); [apply Rmult_le_compat_l; lra|]. right. field. lra.
Qed.
Print Assumptions C54_et_small.

(** The other three agree only to first order: bounds that hold. *)
Lemma debye_bounds x : 0 < x -> 1 - x / 3 <= 2 * (exp (- x) - 1 + x) / (x * x) <= 1 - x / 3 + x * x / 12.
Proof.
  intros P. assert (P2 : 0 < x * x) by (apply Rmult_lt_0_compat; exact P). pose proof (exp_t4 x (Rlt_le _ _ P)). pose proof (exp_t5 x (Rlt_le _ _ P)).
  split; apply (Rmult_le_reg_r (x * x)); try exact P2; unfold Rdiv; rewrite ?Rmult_assoc, ?Rinv_l by lra; lra.
Qed.
Lemma threadPair_bounds k L : 0 <= k -> 0 < L -> let x := L * k in
  L * L * (1 - x / 3) <= threadPair k L <= L * L * (1 - x / 3 + x * x / 12).
Proof.
  intros Hk HL x. assert (PL : 0 < L * L) by (apply Rmult_lt_0_compat; exact HL). destruct (Req_dec k 0) as [->|K].
  - rewrite threadPair_zero. unfold x. rewrite Rmult_0_r. lra.
  - assert (P : 0 < x) by (apply Rmult_lt_0_compat; lra). rewrite threadPair_closed by lra.
    replace (k * L) with x by (unfold x; ring). replace (2 * (exp (- x) - 1 + x) / (k * k)) with (L * L * (2 * (exp (- x) - 1 + x) / (x * x))).
    + pose proof (debye_bounds x P). split; apply Rmult_le_compat_l; lra.
    + unfold x. field. split; lra.
Qed.
Lemma dt_small_form ksq L b : 0 <= ksq -> 0 < L -> let x := L * rate ksq b in x < small -> dt ksq L b = (1 - x * x / 3) * (L * L) /\ 0 <= x.
Proof.
  intros Hk HL x Hx. assert (P : 0 <= x) by (apply Rmult_le_pos; [lra|apply rate_pos, Hk]). split; [|exact P].
  unfold dt, isSmall. replace (L * ksq * b * b / 6) with x by (unfold x, rate; cbn; field). destruct (Rlt_dec x small); [reflexivity|lra].
Qed.
Theorem C54_dt_small_partial : forall ksq L b, 0 <= ksq -> 0 < L -> let x := L * rate ksq b in x < small ->
  L ^ 2 * (x / 3 - x ^ 2) <= dt ksq L b - threadPair (rate ksq b) L <= L ^ 2 * (x / 3).
Proof.
  intros ksq L b Hk HL x Hx. destruct (dt_small_form ksq L b Hk HL Hx) as [-> P]. fold x in P. fold x.
  pose proof (threadPair_bounds (rate ksq b) L (rate_pos _ _ Hk) HL) as B. cbn zeta in B. fold x in B.
  assert (PL : 0 < L * L) by (apply Rmult_lt_0_compat; exact HL).
  assert (0 <= x * x) by (apply Rmult_le_pos; exact P). assert (0 <= L * L * (x * x)) by (apply Rmult_le_pos; lra). cbn [pow]. rewrite !Rmult_1_r.
  split; lra.
Qed.
Print Assumptions C54_dt_small_partial.

Lemma absd_lt i j n : (i < n)%nat -> (j < n)%nat -> (absd i j < n)%nat.
Proof. unfold absd. lia. Qed.
Lemma exp_lower k n m : 0 <= k -> (m <= n)%nat -> 1 - INR n * k <= exp (- (k * INR m)) <= 1.
Proof.
  intros Hk Hm. assert (INR m <= INR n) by (apply le_INR; lia). pose proof (pos_INR m).
  assert (P : 0 <= k * INR m) by (apply Rmult_le_pos; auto). assert (k * INR m <= k * INR n) by (apply Rmult_le_compat_l; auto).
  pose proof (exp_t2 _ P). pose proof (exp_t1 _ P). lra.
Qed.
Theorem C54_bead_small_partial : forall ksq n b, 0 <= ksq -> let x := INR n * rate ksq b in x < small ->
  Rabs (db ksq (INR n) b - beadPair (rate ksq b) n) <= INR n ^ 2 * x /\
  Rabs (eb ksq (INR n) b - beadEnd (rate ksq b) n) <= INR n * x.
Proof.
  intros ksq n b Hk x Hx. pose proof (rate_pos ksq b Hk) as HR. pose proof (pos_INR n) as HN. assert (P : 0 <= x) by (apply Rmult_le_pos; assumption).
  unfold small in *. assert (X2 : 0 <= x * x <= x) by (split; [apply Rmult_le_pos; exact P|rewrite <- (Rmult_1_r x) at 3; apply Rmult_le_compat_l; lra]).
  split.
  - unfold db, isSmall, small. replace (ksq * b * b / 6) with (rate ksq b) by (unfold rate; cbn; field). fold x. destruct (Rlt_dec _ (1 / 100000)); [|lra].
    assert (B : INR n * (INR n * (1 - x)) <= beadPair (rate ksq b) n <= INR n * (INR n * 1)).
    { assert (CC : forall c, INR n * (INR n * c) = rsum n (fun _ => rsum n (fun _ => c))).
      { intros c. rewrite (rsum_ext n _ (fun _ => INR n * c)) by (intros; apply rsum_const). rewrite rsum_const. reflexivity. }
      unfold beadPair. rewrite !CC. split; apply rsum_le; intros i Hi; apply rsum_le; intros j Hj;
        apply (exp_lower (rate ksq b) n (absd i j) HR); pose proof (absd_lt i j n Hi Hj); lia. }
    assert (PN : 0 <= INR n * INR n) by (apply Rmult_le_pos; exact HN).
    assert (0 <= INR n * INR n * (x * x) <= INR n * INR n * x) by (split; [apply Rmult_le_pos; lra|apply Rmult_le_compat_l; lra]).
    cbn [pow]. rewrite Rmult_1_r. apply Rabs_le. split; lra.
  - unfold eb, isSmall, small. replace (ksq * b * b / 6) with (rate ksq b) by (unfold rate; cbn; field). fold x. destruct (Rlt_dec _ (1 / 100000)); [|lra].
    assert (B : INR n * (1 - x) <= beadEnd (rate ksq b) n <= INR n * 1).
    { unfold beadEnd. rewrite <- !rsum_const. split; apply rsum_le; intros i Hi; apply (exp_lower (rate ksq b) n i HR); lia. }
    assert (0 <= INR n * (x * x) <= INR n * x) by (split; [apply Rmult_le_pos; lra|apply Rmult_le_compat_l; lra]).
    apply Rabs_le. split; lra.
Qed.
Print Assumptions C54_bead_small_partial.

(** ---- Disagreements: the error of the small-argument branch of dt, db and eb is of
    first order in x, not of the order of the first neglected term of the expansion
    used (x^2 or x^3). ---- *)
Theorem C54_dt_small_refuted : exists ksq L b, 0 <= ksq /\ 0 < L /\ let x := L * rate ksq b in x < small /\
  L ^ 2 * (10000 * x ^ 2) < Rabs (dt ksq L b - threadPair (rate ksq b) L).
Proof.
  exists (8 / 1000000), 6, 1. assert (E : rate (8 / 1000000) 1 = 8 / 6000000) by (unfold rate; cbn; field).
  assert (X : 6 * rate (8 / 1000000) 1 < small) by (rewrite E; unfold small; lra).
  split; [lra|]. split; [lra|]. cbn zeta. split; [exact X|].
  pose proof (C54_dt_small_partial (8 / 1000000) 6 1 ltac:(lra) ltac:(lra) X) as B. rewrite E in *.
  eapply Rlt_le_trans; [|apply Rle_abs]. cbn [pow] in *. lra.
Qed.
Print Assumptions C54_dt_small_refuted.
Theorem C54_db_small_refuted : exists ksq n b, 0 <= ksq /\ let x := INR n * rate ksq b in x < small /\
  INR n ^ 2 * (10000 * x ^ 2) < Rabs (db ksq (INR n) b - beadPair (rate ksq b) n).
Proof.
  exists (24 / 1000000), 2%nat, 1. assert (E : rate (24 / 1000000) 1 = 4 / 1000000) by (unfold rate; cbn; field).
  split; [lra|]. cbn zeta. assert (X : INR 2 * rate (24 / 1000000) 1 < small) by (rewrite E; unfold small; cbn; lra).
  split; [exact X|]. unfold db, isSmall. replace (24 / 1000000 * 1 * 1 / 6) with (rate (24 / 1000000) 1) by (unfold rate; cbn; field).
  destruct (Rlt_dec _ small); [|lra]. rewrite E. unfold beadPair. cbn [rsum absd Nat.sub Nat.add].
  set (k := 4 / 1000000). pose proof (exp_t3 k ltac:(unfold k; lra)) as T. eapply Rlt_le_trans; [|apply Rle_abs].
  cbn [INR]. rewrite Rmult_0_r, Ropp_0, exp_0, Rmult_1_r. unfold k in *. cbn [pow]. lra.
Qed.
Print Assumptions C54_db_small_refuted.
Theorem C54_eb_small_refuted : exists ksq n b, 0 <= ksq /\ let x := INR n * rate ksq b in x < small /\
  INR n * (10000 * x ^ 2) < Rabs (eb ksq (INR n) b - beadEnd (rate ksq b) n).
Proof.
  exists (48 / 1000000), 1%nat, 1. assert (E : rate (48 / 1000000) 1 = 8 / 1000000) by (unfold rate; cbn; field).
  split; [lra|]. cbn zeta. assert (X : INR 1 * rate (48 / 1000000) 1 < small) by (rewrite E; unfold small; cbn; lra).
  split; [exact X|]. unfold eb, isSmall. replace (48 / 1000000 * 1 * 1 / 6) with (rate (48 / 1000000) 1) by (unfold rate; cbn; field).
  destruct (Rlt_dec _ small); [|lra]. rewrite E. unfold beadEnd. cbn [rsum INR]. rewrite Rmult_0_r, Ropp_0, exp_0, Rabs_minus_sym.
  eapply Rlt_le_trans; [|apply Rle_abs]. cbn [pow]. lra.
Qed.
Print Assumptions C54_eb_small_refuted.

(** The function dt jumps at the branch point by more than 1e-6 of its value. *)
Theorem C54_dt_jump_refuted : exists ksq0 L b, 0 < ksq0 /\ 0 < L /\
  forall delta, 0 < delta -> exists ksq, ksq0 - delta < ksq < ksq0 /\ 0 < ksq /\
    L ^ 2 / 1000000 < dt ksq L b - dt ksq0 L b.
Proof.
  exists small, 6, 1. pose proof small_pos as SP. split; [exact SP|]. split; [lra|]. intros delta Hd.
  set (d := Rmin (delta / 2) (small / 2)). assert (D : 0 < d /\ d < delta /\ d <= small / 2).
  { unfold d. split; [apply Rmin_glb_lt; lra|]. split; [eapply Rle_lt_trans; [apply Rmin_l|lra]|apply Rmin_r]. }
  exists (small - d). split; [lra|]. split; [lra|].
  assert (E : forall q, 6 * rate q 1 = q) by (intros; unfold rate; cbn; field).
  rewrite (C54_dt_large small 6 1) by (try rewrite E; lra).
  destruct (dt_small_form (small - d) 6 1 ltac:(lra) ltac:(lra)) as [-> _]; [rewrite E; lra|]. rewrite E.
  pose proof (threadPair_bounds (rate small 1) 6 (rate_pos _ _ (Rlt_le _ _ SP)) ltac:(lra)) as B. cbn zeta in B. rewrite E in B.
  assert ((small - d) * (small - d) <= small * small) by (apply Rmult_le_compat; lra). unfold small in *. cbn [pow]. lra.
Qed.
Print Assumptions C54_dt_jump_refuted.

(** A case: one bead has unit correlation. *)
Example C54_case : db 6 (INR 1) 1 = 1 /\ db 6 (INR 2) 1 = 2 + 2 * exp (- 1).
Proof.
  assert (E : rate 6 1 = 1) by (unfold rate; cbn; field).
  rewrite !C54_db_large by (rewrite E; unfold small; cbn; lra). rewrite E. unfold beadPair. cbn [rsum absd Nat.sub Nat.add INR].
  rewrite ?Rmult_0_r, ?Ropp_0, ?exp_0, ?Rmult_1_r. replace (Ropp 1) with (-1) by ring. split; ring.
Qed.
