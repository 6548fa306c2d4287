(** The coefficients of the waves are exact: no part of them falls below the thresholds
    of the code unless it is zero. *)
From Coq Require Import ZArith QArith Qcanon Qreals Reals Lra Lia List Bool Sorting.Permutation.
From Coquelicot Require Import Complex.
From Verif Require Import Base RSum MeshSpec Mesh MeshProofs PropsMesh Fft FftProofs FieldIo FieldIoProofs Symmetry SymmetryProofs SymmetryAlg PropsSymmetry Basis BasisSpec BasisProofs BasisValid MakeBasis MakeBasisProofs OrbitSpec OrbitPhase OrbitStars OrbitCoeff.
From Coq Require Import List.
Import ListNotations.
Local Open Scope Z_scope.
Local Open Scope list_scope.

Lemma sin_third : forall a, (0 <= a <= 2)%R -> (a / 3 <= sin a)%R.
Proof.
  intros a H. destruct (SIN a) as [L _]; [lra|pose proof PI2_1; lra|]. unfold sin_lb, sin_approx in L. cbn [sum_f_R0] in L. unfold sin_term in L. cbn [Nat.mul Nat.add pow fact INR] in L.
  eapply Rle_trans; [|exact L]. set (t := (a * a)%R). assert (T : (0 <= t <= 4)%R) by (unfold t; nra).
  replace (INR (fact (2 * 0 + 1))) with 1%R by (cbn; lra).
  match goal with |- (_ <= ?x)%R => replace x with (a * (1 - t / 6 + t * t / 120 - t * t * t / 5040))%R end.
  - assert ((2 / 3 - t / 6 + t * t / 120 - t * t * t / 5040 >= 0)%R).
    { assert (0 <= t * t * (42 - t))%R by (apply Rmult_le_pos; nra). lra. }
    nra.
  - unfold t. cbn. field.
Qed.
Lemma sin_gap0 : forall k n, 0 < k < n -> (2 / (3 * IZR n) <= sin (PI * (IZR k / IZR n)))%R.
Proof.
  intros k n H. assert (N : (0 < IZR n)%R) by (apply IZR_lt; lia).
  assert (G : forall j, 0 < j -> 2 * j <= n -> (2 / (3 * IZR n) <= sin (PI * (IZR j / IZR n)))%R).
  { intros j J1 J2. assert (A : (1 <= IZR j)%R) by (apply IZR_le; lia). assert (B : (2 * IZR j <= IZR n)%R) by (rewrite <- mult_IZR; apply IZR_le; lia).
    pose proof PI2_1 as P1. pose proof PI_4 as P2.
    assert (Q : (0 < IZR j / IZR n <= 1 / 2)%R).
    { split; [apply Rdiv_lt_0_compat; lra|]. apply Rmult_le_reg_r with (IZR n); auto. unfold Rdiv at 1. rewrite Rmult_assoc, Rinv_l by lra. lra. }
    eapply Rle_trans; [|apply sin_third; nra]. replace (2 / (3 * IZR n))%R with (2 * (1 / IZR n) / 3)%R by (field; lra).
    assert ((1 / IZR n <= IZR j / IZR n)%R) by (apply Rmult_le_compat_r; [apply Rlt_le, Rinv_0_lt_compat; auto|auto]). nra. }
  destruct (Z_le_dec (2 * k) n); [apply G; lia|].
  replace (PI * (IZR k / IZR n))%R with (PI - PI * (IZR (n - k) / IZR n))%R by (rewrite minus_IZR; field; lra). rewrite sin_PI_x. apply G; lia.
Qed.
Lemma sin_gap : forall k n, 0 < n -> sin (PI * (IZR k / IZR n)) = 0%R \/ (2 / (3 * IZR n) <= Rabs (sin (PI * (IZR k / IZR n))))%R.
Proof.
  intros k n H. assert (N : (0 < IZR n)%R) by (apply IZR_lt; lia). pose proof (Z.mod_pos_bound k (2 * n) ltac:(lia)) as R. pose proof (Z.div_mod k (2 * n) ltac:(lia)) as DM.
  set (r := k mod (2 * n)) in *. set (q := k / (2 * n)) in *.
  replace (PI * (IZR k / IZR n))%R with (PI * (IZR r / IZR n) + 2 * PI * IZR q)%R by (rewrite DM, plus_IZR, !mult_IZR; field; lra).
  rewrite FftProofs.sin_2PIZ.
  destruct (Z_lt_dec r n) as [L|L].
  - destruct (Z.eq_dec r 0) as [->|Z0]; [left; replace (PI * (0 / IZR n))%R with 0%R by (field; lra); apply sin_0|].
    right. pose proof (sin_gap0 r n ltac:(lia)) as S0. rewrite Rabs_pos_eq; auto. apply Rle_trans with (2 / (3 * IZR n))%R; auto. apply Rlt_le, Rdiv_lt_0_compat; lra.
  - replace (PI * (IZR r / IZR n))%R with (PI * (IZR (r - n) / IZR n) + PI)%R by (rewrite minus_IZR; field; lra). rewrite neg_sin, Rabs_Ropp.
    destruct (Z.eq_dec r n) as [E|NE]; [left; rewrite E, Z.sub_diag; replace (PI * (0 / IZR n))%R with 0%R by (field; lra); rewrite sin_0; lra|].
    right. pose proof (sin_gap0 (r - n) n ltac:(lia)) as S0. rewrite Rabs_pos_eq; auto. apply Rle_trans with (2 / (3 * IZR n))%R; auto. apply Rlt_le, Rdiv_lt_0_compat; lra.
Qed.
Definition tiny (n : Z) (x : R) : Prop := x = 0%R \/ (1 / (3 * IZR n) <= Rabs x)%R.
Lemma turn_gap : forall k n, 0 < n -> tiny n (fst (turn (IZR k / (2 * IZR n)))) /\ tiny n (snd (turn (IZR k / (2 * IZR n)))).
Proof.
  intros k n H. assert (N : (0 < IZR n)%R) by (apply IZR_lt; lia). unfold turn, tiny. cbn [fst snd]. split.
  - rewrite cos_sin. replace (PI / 2 + 2 * PI * (IZR k / (2 * IZR n)))%R with (PI * (IZR (n + 2 * k) / IZR (2 * n)))%R by (rewrite plus_IZR, !mult_IZR; field; lra).
    destruct (sin_gap (n + 2 * k) (2 * n) ltac:(lia)) as [E|E]; [left; auto|right]. eapply Rle_trans; [|exact E]. rewrite mult_IZR. apply Req_le. field. lra.
  - replace (2 * PI * (IZR k / (2 * IZR n)))%R with (PI * (IZR k / IZR n))%R by (field; lra).
    destruct (sin_gap k n ltac:(lia)) as [E|E]; [left; auto|right]. eapply Rle_trans; [|exact E]. assert (0 < 1 / (3 * IZR n))%R by (apply Rdiv_lt_0_compat; lra).
    replace (2 / (3 * IZR n))%R with (2 * (1 / (3 * IZR n)))%R by (field; lra). lra.
Qed.

Section Exact.
Variable N : Z.
Hypothesis HN : 0 < N <= 500.
Lemma N_pos : (0 < IZR N <= 500)%R. Proof. split; [apply IZR_lt|apply IZR_le]; lia. Qed.
Lemma inv_N : (1 / 1500 <= 1 / (3 * IZR N))%R.
Proof. pose proof N_pos. unfold Rdiv. rewrite !Rmult_1_l. apply Rinv_le_contravar; lra. Qed.
(** Multiples of 1/(2 N) *)
Definition half (x : R) : Prop := exists k, x = (IZR k / (2 * IZR N))%R.
Lemma half_plus : forall x y, half x -> half y -> half (x + y).
Proof. intros x y [a ->] [c ->]. exists (a + c). rewrite plus_IZR. pose proof N_pos. field. lra. Qed.
Lemma half_opp : forall x, half x -> half (- x).
Proof. intros x [a ->]. exists (- a). rewrite opp_IZR. pose proof N_pos. field. lra. Qed.
Definition whole (x : R) : Prop := exists k, x = (IZR k / IZR N)%R.
Lemma whole_plus : forall x y, whole x -> whole y -> whole (x + y).
Proof. intros x y [a ->] [c ->]. exists (a + c). rewrite plus_IZR. pose proof N_pos. field. lra. Qed.
Lemma whole_opp : forall x, whole x -> whole (- x).
Proof. intros x [a ->]. exists (- a). rewrite opp_IZR. pose proof N_pos. field. lra. Qed.
Lemma whole_half : forall x, whole x -> half x.
Proof. intros x [a ->]. exists (2 * a). rewrite mult_IZR. pose proof N_pos. field. lra. Qed.
Lemma half_of : forall x, whole x -> half (x / 2).
Proof. intros x [a ->]. exists a. pose proof N_pos. field. lra. Qed.
Lemma half_2 : half (1 / 2).
Proof. exists N. pose proof N_pos. field. lra. Qed.
Lemma whole_reduce : forall x, whole x -> whole (reduce x).
Proof. intros x H. unfold reduce. apply whole_plus; auto. set (z := Int_part _). exists (z * N). rewrite mult_IZR. pose proof N_pos. field. lra. Qed.
Lemma whole_small : forall x, whole x -> (Rabs x <= 1 / 10^6)%R -> x = 0%R.
Proof.
  intros x [k ->] H. pose proof N_pos as P. destruct (Z.eq_dec k 0) as [->|Z0]; [field; lra|]. exfalso.
  unfold Rdiv in H at 1. rewrite Rabs_mult, (Rabs_pos_eq (/ IZR N)) in H by (apply Rlt_le, Rinv_0_lt_compat; lra).
  assert (A : (1 <= Rabs (IZR k))%R) by (rewrite <- abs_IZR; apply IZR_le; lia).
  assert (B : (/ 500 <= / IZR N)%R) by (apply Rinv_le_contravar; lra). assert (/ 500 <= Rabs (IZR k) * / IZR N)%R by nra. lra.
Qed.

Lemma coeffOf_exact : forall x, half x -> coeffOf x = turn x.
Proof.
  intros x [k ->]. destruct (turn_gap k N ltac:(lia)) as [A B]. unfold coeffOf. fold (turn (IZR k / (2 * IZR N))). pose proof inv_N as I.
  destruct (turn (IZR k / (2 * IZR N))) as [c s]. cbn [fst snd] in *.
  assert (S1 : forall y, tiny N y -> (Rabs y < 1 / 10^6)%R -> y = 0%R). { intros y [E|E] L; auto. exfalso. lra. }
  destruct (Rlt_dec (Rabs s) (1 / 10^6)) as [L|L]; cbn [fst snd].
  - rewrite (S1 s B L). destruct (Rlt_dec (Rabs c) (1 / 10^6)) as [K|K]; auto. rewrite (S1 c A K). reflexivity.
  - destruct (Rlt_dec (Rabs c) (1 / 10^6)) as [K|K]; auto. rewrite (S1 c A K). reflexivity.
Qed.
Lemma snorm_bounds : forall s, 0 < sSize s <= 2^31 -> (1 / 46341 <= snorm s)%R.
Proof.
  intros s H. unfold snorm. assert (P : (0 < IZR (sSize s))%R) by (apply IZR_lt; lia). assert (U : (IZR (sSize s) <= 2147483648)%R) by (apply IZR_le; lia).
  assert (SP : (0 < sqrt (IZR (sSize s)))%R) by (apply sqrt_lt_R0; auto).
  assert (SU : (sqrt (IZR (sSize s)) <= 46341)%R). { rewrite <- (sqrt_square 46341) by lra. apply sqrt_le_1_alt. lra. }
  unfold Rdiv. rewrite !Rmult_1_l. apply Rinv_le_contravar; auto.
Qed.
Lemma tidy_exact : forall s x, 0 < sSize s <= 2^31 -> half x -> tidy (Cmult (turn x) (RtoC (snorm s))) = Cmult (turn x) (RtoC (snorm s)).
Proof.
  intros s x HS [k ->]. destruct (turn_gap k N ltac:(lia)) as [A B]. pose proof inv_N as I. pose proof (snorm_bounds s HS) as SB.
  destruct (turn (IZR k / (2 * IZR N))) as [c d]. cbn [fst snd] in *. set (q := snorm s) in *.
  assert (S1 : forall y, tiny N y -> (Rabs (y * q) < 1 / 10^8)%R -> y = 0%R).
  { intros y [E|E] L; auto. exfalso. rewrite Rabs_mult, (Rabs_pos_eq q) in L by lra. assert (1 / 1500 * (1 / 46341) <= Rabs y * q)%R by nra. lra. }
  replace (Cmult (c, d) (RtoC q)) with (c * q, d * q)%R by (unfold Cmult, RtoC; cbn [fst snd]; f_equal; ring). unfold tidy. cbn [fst snd].
  destruct (Rlt_dec (Rabs (c * q)) (1 / 10^8)) as [L|L]; cbn [fst snd].
  - rewrite (S1 c A L). destruct (Rlt_dec (Rabs (d * q)) (1 / 10^8)) as [K|K]; [rewrite (S1 d B K)|]; f_equal; ring.
  - destruct (Rlt_dec (Rabs (d * q)) (1 / 10^8)) as [K|K]; auto. rewrite (S1 d B K). f_equal. ring.
Qed.
End Exact.

(** ** Square roots *)
Lemma csqrt_sq : forall z, Cmult (csqrt z) (csqrt z) = z.
Proof.
  intros z. pose proof (Cmod_sq z) as S. pose proof (Cmod_ge_0 z) as G. unfold csqrt. destruct z as [a b]. cbn [fst snd] in *. set (r := Cmod (a, b)) in *. clearbody r.
  assert (A : (0 <= (r + a) / 2)%R) by nra. assert (B : (0 <= (r - a) / 2)%R) by nra.
  assert (P : (sqrt ((r + a) / 2) * sqrt ((r - a) / 2) = Rabs b / 2)%R).
  { rewrite <- sqrt_mult by auto. replace ((r + a) / 2 * ((r - a) / 2))%R with ((Rabs b / 2) * (Rabs b / 2))%R.
    - apply sqrt_square. pose proof (Rabs_pos b). lra.
    - assert ((Rabs b * Rabs b = b * b)%R) by (rewrite <- Rabs_mult; apply Rabs_pos_eq; nra). nra. }
  pose proof (sqrt_sqrt _ A) as SA. pose proof (sqrt_sqrt _ B) as SB. set (x := sqrt ((r + a) / 2)) in *. set (y := sqrt ((r - a) / 2)) in *. clearbody x y.
  destruct (Rlt_dec b 0) as [L|L]; unfold Cmult; cbn [fst snd].
  - rewrite Rabs_left in P by auto. f_equal; nra.
  - rewrite Rabs_pos_eq in P by lra. f_equal; nra.
Qed.
Lemma phasor_sq : forall z, Cmult (phasor z) (phasor z) = z.
Proof.
  intros z. assert (N : Cmult (Copp (csqrt z)) (Copp (csqrt z)) = z).
  { rewrite <- (csqrt_sq z) at 3. destruct (csqrt z) as [a b]. unfold Cmult, Copp. cbn [fst snd]. f_equal; ring. }
  unfold phasor. destruct (Rlt_dec _ _); auto. destruct (Rle_dec _ _); [destruct (Rlt_dec _ _); auto|]; apply csqrt_sq.
Qed.
Lemma turn_half : turn (1 / 2) = (-1, 0)%R.
Proof. unfold turn. replace (2 * PI * (1 / 2))%R with PI by field. rewrite cos_PI, sin_PI. reflexivity. Qed.
Lemma turn_unit : forall x, (fst (turn x) * fst (turn x) + snd (turn x) * snd (turn x) = 1)%R.
Proof. intros x. unfold turn. cbn [fst snd]. pose proof (sin2_cos2 (2 * PI * x)) as H. unfold Rsqr in H. lra. Qed.
Lemma turn_inv : forall x, Cinv (turn x) = turn (- x).
Proof.
  intros x. pose proof (turn_unit x) as U. unfold Cinv. unfold turn in *. cbn [fst snd] in *. replace (2 * PI * - x)%R with (- (2 * PI * x))%R by ring. rewrite cos_neg, sin_neg.
  replace (cos (2 * PI * x) ^ 2 + sin (2 * PI * x) ^ 2)%R with 1%R by (cbn; lra). f_equal; field.
Qed.
Lemma sqrt_turn : forall z y, Cmult z z = turn y -> z = turn (y / 2) \/ z = turn (y / 2 + 1 / 2).
Proof.
  intros z y H. assert (E : Cmult (turn (y / 2)) (turn (y / 2)) = turn y) by (rewrite <- turn_plus; f_equal; field).
  rewrite turn_plus, turn_half. pose proof (turn_unit (y / 2)) as U. rewrite <- E in H. destruct z as [a b], (turn (y / 2)) as [c d]. unfold Cmult in H |- *. cbn [fst snd] in *.
  injection H as H1 H2.
  assert (S0 : ((a * c + b * d) * (a * c + b * d) = 1)%R).
  { (* |z| = 1 *) assert (M : ((a * a + b * b) * (a * a + b * b) = 1)%R).
    { replace ((a * a + b * b) * (a * a + b * b))%R with ((a * a - b * b) * (a * a - b * b) + (a * b + b * a) * (a * b + b * a))%R by ring. rewrite H1, H2.
      replace ((c * c - d * d) * (c * c - d * d) + (c * d + d * c) * (c * d + d * c))%R with ((c * c + d * d) * (c * c + d * d))%R by ring. rewrite U. ring. }
    assert (M1 : (a * a + b * b = 1)%R) by (assert (F : ((a * a + b * b - 1) * (a * a + b * b + 1) = 0)%R) by lra; apply Rmult_integral in F; destruct F; nra).
    replace ((a * c + b * d) * (a * c + b * d))%R with (((a * a + b * b) * (c * c + d * d) + (a * a - b * b) * (c * c - d * d) + (a * b + b * a) * (c * d + d * c)) / 2)%R by field.
    rewrite H1, H2, M1, U. replace ((1 * 1 + (c * c - d * d) * (c * c - d * d) + (c * d + d * c) * (c * d + d * c)) / 2)%R with ((1 + (c * c + d * d) * (c * c + d * d)) / 2)%R by field.
    rewrite U. field. }
  assert (M1 : (a * a + b * b = 1)%R).
  { assert (M : ((a * a + b * b) * (a * a + b * b) = 1)%R).
    { replace ((a * a + b * b) * (a * a + b * b))%R with ((a * a - b * b) * (a * a - b * b) + (a * b + b * a) * (a * b + b * a))%R by ring. rewrite H1, H2.
      replace ((c * c - d * d) * (c * c - d * d) + (c * d + d * c) * (c * d + d * c))%R with ((c * c + d * d) * (c * c + d * d))%R by ring. rewrite U. ring. }
    assert (F : ((a * a + b * b - 1) * (a * a + b * b + 1) = 0)%R) by lra. apply Rmult_integral in F. destruct F; nra. }
  assert (D : (a * c + b * d = 1 \/ a * c + b * d = -1)%R).
  { assert (F : ((a * c + b * d - 1) * (a * c + b * d + 1) = 0)%R) by lra. apply Rmult_integral in F. destruct F; [left|right]; lra. }
  destruct D as [D|D]; [left|right].
  - assert (Q : ((a - c) * (a - c) + (b - d) * (b - d) = 0)%R) by lra. destruct (Rplus_sqr_eq_0 _ _ Q) as [Q1 Q2]. f_equal; lra.
  - assert (Q : ((a + c) * (a + c) + (b + d) * (b + d) = 0)%R) by lra. destruct (Rplus_sqr_eq_0 _ _ Q) as [Q1 Q2]. f_equal; lra.
Qed.
Lemma phasor_turn : forall N y, 0 < N <= 500 -> whole N y -> exists x, half N x /\ phasor (turn y) = turn x.
Proof.
  intros N y HN W. destruct (sqrt_turn _ y (phasor_sq (turn y))) as [E|E].
  - exists (y / 2)%R. split; auto. apply half_of; auto.
  - exists (y / 2 + 1 / 2)%R. split; auto. apply half_plus; auto; [apply half_of; auto|apply half_2; auto].
Qed.
Lemma factor_turn : forall N (P : C -> Prop) f, 0 < N <= 500 -> (forall c, P c -> exists x, whole N x /\ c = coeffOf x) -> factorOf P f ->
  exists y, half N y /\ f = turn y.
Proof.
  intros N P f HN HP [c0 [P0 F]]. destruct (HP c0 P0) as [x0 [W0 E0]]. rewrite (coeffOf_exact N HN) in E0 by (apply whole_half; auto).
  destruct F as [->|(c1 & P1 & ->)].
  - exists (- x0)%R. split; [apply half_opp; auto; apply whole_half; auto|]. rewrite E0. apply turn_inv.
  - destruct (HP c1 P1) as [x1 [W1 E1]]. rewrite (coeffOf_exact N HN) in E1 by (apply whole_half; auto). rewrite E0, E1, turn_inv, <- turn_plus.
    destruct (phasor_turn N (x1 + - x0) HN) as [x [X1 X2]]; [apply whole_plus; auto; apply whole_opp; auto|]. rewrite X2, turn_inv, <- turn_plus.
    exists (- x0 + - x)%R. split; auto. apply half_plus; auto; apply half_opp; auto. apply whole_half; auto.
Qed.
