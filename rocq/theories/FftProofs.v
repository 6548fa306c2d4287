From Coq Require Import Reals ZArith List Bool Arith Lia Lra.
From Verif Require Import Base RSum MeshSpec Mesh MeshProofs Fft.
Import ListNotations.
Local Open Scope R_scope.

(* ---------- nested sums over boxes ---------- *)

Fixpoint msum (dims : list Z) (g : list Z -> R) : R :=
  match dims with
  | [] => g []
  | d :: ds => rsum (Z.to_nat d) (fun i => msum ds (fun p => g (Z.of_nat i :: p)))
  end.

Lemma msum_ext : forall dims g h, (forall p, in_box dims p -> g p = h p) -> msum dims g = msum dims h.
Proof.
  induction dims as [|d ds IH]; intros g h H; simpl.
  - apply H. constructor.
  - apply rsum_ext. intros i Hi. apply IH. intros p Hp. apply H. constructor; auto. lia.
Qed.
Lemma msum_scal : forall dims c g, msum dims (fun p => c * g p) = c * msum dims g.
Proof.
  induction dims as [|d ds IH]; intros; simpl; auto. rewrite <- rsum_scal.
  apply rsum_ext. intros. apply IH.
Qed.
Lemma msum_plus : forall dims g h, msum dims (fun p => g p + h p) = msum dims g + msum dims h.
Proof.
  induction dims as [|d ds IH]; intros; simpl; auto. rewrite <- rsum_plus.
  apply rsum_ext. intros. apply IH.
Qed.
Lemma msum_rsum : forall dims n (g : nat -> list Z -> R),
  msum dims (fun p => rsum n (fun j => g j p)) = rsum n (fun j => msum dims (g j)).
Proof.
  induction dims as [|d ds IH]; intros; simpl; auto.
  rewrite rsum_swap. apply rsum_ext. intros i Hi. apply IH.
Qed.

Lemma rsum_mul : forall a b f, rsum (a * b) f = rsum a (fun i => rsum b (fun j => f (i * b + j)%nat)).
Proof.
  induction a; intros; [reflexivity|]. rewrite Nat.mul_succ_l. rewrite rsum_add. simpl. rewrite IHa. auto.
Qed.

Lemma gridSize_prodZ : forall dims, gridSize dims = prodZ dims.
Proof. induction dims; simpl; congruence. Qed.

Lemma gridPos_ps : forall dims r, positive dims -> gridPos dims r = ps dims (Z.of_nat r).
Proof. intros. unfold gridPos. apply position_loop_ps; auto. lia. Qed.

Lemma rsum_msum : forall dims g, positive dims ->
  rsum (Z.to_nat (prodZ dims)) (fun r => g (ps dims (Z.of_nat r))) = msum dims g.
Proof.
  induction dims as [|d ds IH]; intros g HP.
  - simpl. lra.
  - inversion HP; subst. assert (Pp := prodZ_pos _ H2). cbn [prodZ msum].
    rewrite Z2Nat.inj_mul by lia. rewrite rsum_mul. apply rsum_ext. intros i Hi.
    rewrite <- (IH _ H2). apply rsum_ext. intros j Hj. f_equal. cbn [ps].
    rewrite Nat2Z.inj_add, Nat2Z.inj_mul, Z2Nat.id by lia.
    f_equal.
    + symmetry. apply Z.div_unique with (Z.of_nat j); lia.
    + f_equal. symmetry. apply Z.mod_unique with (Z.of_nat i); lia.
Qed.

Lemma rsum_grid : forall dims (g : list Z -> R), positive dims ->
  rsum (Z.to_nat (gridSize dims)) (fun r => g (gridPos dims r)) = msum dims g.
Proof.
  intros. rewrite gridSize_prodZ, <- rsum_msum by auto. apply rsum_ext. intros. rewrite gridPos_ps; auto.
Qed.

(* ---------- inversion ---------- *)

(** The grid position equivalent to -k. *)
Fixpoint negmod (dims k : list Z) : list Z :=
  match dims, k with
  | d :: ds, a :: k' => ((- a) mod d)%Z :: negmod ds k'
  | _, _ => []
  end.

Lemma negmod_in_box : forall dims k, in_box dims k -> in_box dims (negmod dims k).
Proof.
  induction 1; simpl; constructor; auto. apply Z.mod_pos_bound. lia.
Qed.

Lemma rsum_neg : forall d f, (0 < d)%Z ->
  rsum (Z.to_nat d) (fun i => f ((- Z.of_nat i) mod d)%Z) = rsum (Z.to_nat d) (fun i => f (Z.of_nat i)).
Proof.
  intros d f Hd. destruct (Z.to_nat d) eqn:E; [lia|]. rewrite !rsum_S_first.
  f_equal.
  rewrite (rsum_rev n (fun i => f (Z.of_nat (S i)))). apply rsum_ext. intros i Hi.
  f_equal. symmetry. apply Z.mod_unique with (-1)%Z; lia.
Qed.

Lemma msum_neg : forall dims g, positive dims -> msum dims (fun p => g (negmod dims p)) = msum dims g.
Proof.
  induction dims as [|d ds IH]; intros g HP; simpl; auto. inversion HP; subst.
  rewrite (rsum_ext _ _ (fun i => (fun z => msum ds (fun p => g (z :: p))) ((- Z.of_nat i) mod d)%Z)).
  - rewrite (rsum_neg d (fun z => msum ds (fun p => g (z :: p)))) by auto. reflexivity.
  - intros i Hi. apply (IH (fun p => g (((- Z.of_nat i) mod d)%Z :: p))); auto.
Qed.

Lemma msum_snoc : forall ds n g,
  msum (ds ++ [n]) g = rsum (Z.to_nat n) (fun l => msum ds (fun p => g (p ++ [Z.of_nat l]))).
Proof.
  induction ds as [|d ds IH]; intros; simpl; auto.
  rewrite rsum_swap. apply rsum_ext. intros i Hi. rewrite IH. reflexivity.
Qed.

Lemma computeKMesh_snoc : forall ds n, computeKMesh (ds ++ [n]) = ds ++ [(Z.quot n 2 + 1)%Z].
Proof.
  induction ds as [|d ds IH]; intros; auto. simpl. rewrite <- IH.
  destruct (ds ++ [n]) eqn:E; auto. destruct ds; discriminate.
Qed.
Lemma negmod_snoc : forall ds n p l, length p = length ds ->
  negmod (ds ++ [n]) (p ++ [l]) = negmod ds p ++ [((- l) mod n)%Z].
Proof.
  induction ds as [|d ds IH]; intros n [|a p] l H; simpl in *; try lia; auto.
  f_equal. apply IH. lia.
Qed.
Lemma last_snoc : forall (l : list Z) x d, last (l ++ [x]) d = x.
Proof. intros. apply last_last. Qed.

Lemma snoc_cases : forall (dims : list Z), dims <> [] -> exists ds n, dims = ds ++ [n].
Proof. intros. destruct (exists_last H) as [ds [n E]]. eauto. Qed.

Lemma kmesh_positive : forall dims, positive dims -> positive (computeKMesh dims).
Proof.
  induction 1; simpl; [constructor|]. destruct l; [|constructor; auto].
  constructor; auto. rewrite Z.quot_div_nonneg by lia. assert (0 <= x / 2)%Z by (apply Z.div_pos; lia). lia.
Qed.

(** Weighted half sum in one dimension. *)
Lemma half_sum_1d : forall n (h : Z -> R), (0 < n)%Z ->
  (forall l, (0 < l < n)%Z -> h (n - l)%Z = h l) ->
  rsum (Z.to_nat (Z.quot n 2 + 1)) (fun l =>
    (if ((Z.of_nat l =? 0) || (2 * Z.of_nat l =? n))%Z%bool then 1 else 2) * h (Z.of_nat l))
  = rsum (Z.to_nat n) (fun l => h (Z.of_nat l)).
Proof.
  intros n h Hn Hs. rewrite Z.quot_div_nonneg by lia.
  set (m := Z.to_nat ((n - 1) / 2)).
  assert (Hm : Z.of_nat m = ((n - 1) / 2)%Z) by (unfold m; rewrite Z2Nat.id; auto; apply Z.div_pos; lia).
  assert (D : (n = 2 * Z.of_nat m + 1 \/ n = 2 * Z.of_nat m + 2)%Z).
  { rewrite Hm. assert (A := Z.div_mod (n - 1) 2 ltac:(lia)). assert (B := Z.mod_pos_bound (n-1) 2 ltac:(lia)). lia. }
  assert (Refl : rsum m (fun i => h (n - 1 - Z.of_nat i)%Z) = rsum m (fun i => h (Z.of_nat (S i)))).
  { apply rsum_ext. intros i Hi. replace (n - 1 - Z.of_nat i)%Z with (n - Z.of_nat (S i))%Z by lia.
    apply Hs. lia. }
  destruct D as [D|D].
  - assert (E1 : Z.to_nat (n / 2 + 1) = S m).
    { replace (n / 2)%Z with (Z.of_nat m); [lia|]. apply Z.div_unique with 1%Z; lia. }
    assert (E2 : Z.to_nat n = S (m + m)) by lia.
    rewrite E1, E2, !rsum_S_first, rsum_add.
    rewrite (rsum_rev m (fun i => h (Z.of_nat (S (m + i))))).
    rewrite (rsum_ext m (fun i => h (Z.of_nat (S (m + (m - 1 - i))))) (fun i => h (n - 1 - Z.of_nat i)%Z)).
    2:{ intros i Hi. f_equal. lia. }
    rewrite Refl.
    rewrite (rsum_ext m _ (fun i => 2 * h (Z.of_nat (S i)))).
    2:{ intros i Hi. destruct (Z.eqb_spec (Z.of_nat (S i)) 0); [lia|].
        destruct (Z.eqb_spec (2 * Z.of_nat (S i)) n); [lia|]. reflexivity. }
    rewrite rsum_scal. cbn [Z.eqb Z.of_nat orb]. lra.
  - assert (E1 : Z.to_nat (n / 2 + 1) = S (S m)).
    { replace (n / 2)%Z with (Z.of_nat m + 1)%Z; [lia|]. apply Z.div_unique with 0%Z; lia. }
    assert (E2 : Z.to_nat n = S (m + S m)) by lia.
    rewrite E1, E2. rewrite (rsum_S_first (S m)), (rsum_S_first (m + S m)), rsum_add. rewrite (rsum_S_first m (fun i => h (Z.of_nat (S (m + i))))).
    rewrite (rsum_rev m (fun i => h (Z.of_nat (S (m + S i))))).
    rewrite (rsum_ext m (fun i => h (Z.of_nat (S (m + S (m - 1 - i))))) (fun i => h (n - 1 - Z.of_nat i)%Z)).
    2:{ intros i Hi. f_equal. lia. }
    rewrite Refl. change (rsum (S m)) with (fun f => rsum m f + f m). cbv beta.
    rewrite (rsum_ext m _ (fun i => 2 * h (Z.of_nat (S i)))).
    2:{ intros i Hi. destruct (Z.eqb_spec (Z.of_nat (S i)) 0); [lia|].
        destruct (Z.eqb_spec (2 * Z.of_nat (S i)) n); [lia|]. reflexivity. }
    rewrite rsum_scal. cbn [Z.eqb Z.of_nat orb]. rewrite Nat.add_0_r.
    destruct (Z.eqb_spec (2 * Z.pos (Pos.of_succ_nat m)) n); [|lia]. cbn [orb]. lra.
Qed.

(** Weighted sum over the half grid = sum over the full grid. *)
Lemma half_sum : forall dims (g : list Z -> R), dims <> [] -> positive dims ->
  (forall p, in_box dims p -> g (negmod dims p) = g p) ->
  msum (computeKMesh dims) (fun p =>
    (if ((last p 0 =? 0) || (2 * last p 0 =? last dims 0))%Z%bool then 1 else 2) * g p)
  = msum dims g.
Proof.
  intros dims g Hne HP Hs. destruct (snoc_cases dims Hne) as [ds [n E]]. subst dims.
  apply Forall_app in HP. destruct HP as [HP Hn]. inversion Hn; subst. clear Hn H2.
  rewrite computeKMesh_snoc, !msum_snoc, last_snoc.
  rewrite <- (half_sum_1d n (fun l => msum ds (fun p => g (p ++ [l])))); auto.
  - apply rsum_ext. intros l Hl. rewrite <- msum_scal. apply msum_ext. intros p Hp. rewrite last_snoc. auto.
  - intros l Hl. rewrite <- msum_neg by auto. apply msum_ext. intros p Hp.
    rewrite <- (Hs (p ++ [l])) by (apply Forall2_app; auto; constructor; [lia|constructor]).
    f_equal. rewrite negmod_snoc by (apply in_box_length; auto). f_equal. f_equal.
    apply Z.mod_unique with (-1)%Z; lia.
Qed.

(* ---------- DFT orthogonality ---------- *)

Lemma cos_2PIZ : forall x z, cos (x + 2 * PI * IZR z) = cos x.
Proof.
  intros x z. destruct (Z_le_gt_dec 0 z) as [H|H].
  - replace (2 * PI * IZR z) with (2 * INR (Z.to_nat z) * PI) by (rewrite INR_IZR_INZ, Z2Nat.id by lia; lra).
    apply cos_period.
  - rewrite <- (cos_period (x + 2 * PI * IZR z) (Z.to_nat (- z))).
    rewrite INR_IZR_INZ, Z2Nat.id by lia. rewrite opp_IZR. f_equal. lra.
Qed.
Lemma sin_2PIZ : forall x z, sin (x + 2 * PI * IZR z) = sin x.
Proof.
  intros x z. destruct (Z_le_gt_dec 0 z) as [H|H].
  - replace (2 * PI * IZR z) with (2 * INR (Z.to_nat z) * PI) by (rewrite INR_IZR_INZ, Z2Nat.id by lia; lra).
    apply sin_period.
  - rewrite <- (sin_period (x + 2 * PI * IZR z) (Z.to_nat (- z))).
    rewrite INR_IZR_INZ, Z2Nat.id by lia. rewrite opp_IZR. f_equal. lra.
Qed.

Lemma cos_telescope : forall a phi n,
  2 * sin (a / 2) * rsum n (fun k => cos (INR k * a + phi)) =
  sin ((INR n - 1/2) * a + phi) - sin (- (a / 2) + phi).
Proof.
  intros a phi. induction n.
  - simpl. replace ((0 - 1 / 2) * a + phi) with (- (a/2) + phi) by lra. lra.
  - cbn [rsum]. rewrite Rmult_plus_distr_l, IHn. rewrite S_INR.
    replace ((INR n + 1 - 1/2) * a + phi) with ((INR n * a + phi) + a / 2) by lra.
    replace ((INR n - 1/2) * a + phi) with ((INR n * a + phi) - a / 2) by lra.
    rewrite (sin_plus (INR n * a + phi)), (sin_minus (INR n * a + phi)). lra.
Qed.

Lemma cos_sum_1d : forall n m phi, (0 < n)%Z ->
  rsum (Z.to_nat n) (fun k => cos (2 * PI * IZR (Z.of_nat k * m) / IZR n + phi)) =
  if (m mod n =? 0)%Z then IZR n * cos phi else 0.
Proof.
  intros n m phi Hn. assert (Nn : IZR n <> 0) by (apply not_0_IZR; lia).
  destruct (Z.eqb_spec (m mod n) 0) as [E|E].
  - rewrite (rsum_ext _ _ (fun _ => cos phi)).
    + rewrite rsum_const, INR_IZR_INZ, Z2Nat.id by lia. auto.
    + intros k Hk. apply Z.div_exact in E; [|lia].
      replace (2 * PI * IZR (Z.of_nat k * m) / IZR n + phi) with (phi + 2 * PI * IZR (Z.of_nat k * (m / n))).
      * apply cos_2PIZ.
      * rewrite E at 2. rewrite !mult_IZR. field. auto.
  - set (a := 2 * PI * IZR m / IZR n).
    assert (T := cos_telescope a phi (Z.to_nat n)).
    rewrite (rsum_ext _ _ (fun k => cos (INR k * a + phi))).
    2:{ intros k _. f_equal. unfold a. rewrite INR_IZR_INZ, mult_IZR. field. auto. }
    assert (S0 : sin (a / 2) <> 0).
    { intros H0. apply sin_eq_0_0 in H0. destruct H0 as [q Hq]. unfold a in Hq.
      assert (PI <> 0) by (apply PI_neq0).
      assert (IZR m = IZR (q * n)).
      { rewrite mult_IZR. apply (Rmult_eq_reg_l PI); auto.
        replace (PI * IZR m) with (2 * PI * IZR m / IZR n / 2 * IZR n) by (field; auto).
        rewrite Hq. lra. }
      apply eq_IZR in H0. apply E. rewrite H0. apply Z_mod_mult. }
    assert (Z0 : sin ((INR (Z.to_nat n) - 1/2) * a + phi) = sin (- (a / 2) + phi)).
    { rewrite <- (sin_2PIZ (- (a / 2) + phi) m). f_equal. rewrite INR_IZR_INZ, Z2Nat.id by lia.
      unfold a. field. auto. }
    rewrite Z0 in T. apply (Rmult_eq_reg_l (2 * sin (a / 2))); [|lra]. lra.
Qed.

(** m is congruent to 0 in every component. *)
Fixpoint zero_mod (dims m : list Z) : bool :=
  match dims, m with
  | d :: ds, a :: m' => ((a mod d =? 0)%Z && zero_mod ds m')%bool
  | _, _ => true
  end.

Lemma cos_sum : forall dims m phi, positive dims -> length m = length dims ->
  msum dims (fun k => cos (phase dims k m + phi)) = if zero_mod dims m then IZR (prodZ dims) * cos phi else 0.
Proof.
  induction dims as [|d ds IH]; intros [|a m] phi HP HL; simpl in HL; try lia.
  - simpl. rewrite Rplus_0_l. lra.
  - inversion HP; subst. cbn [msum phase zero_mod prodZ].
    rewrite (rsum_ext _ _ (fun i => if zero_mod ds m then IZR (prodZ ds) * cos (2 * PI * IZR (Z.of_nat i * a) / IZR d + phi) else 0)).
    2:{ intros i Hi. rewrite <- IH by (auto; lia). apply msum_ext. intros p _. f_equal. lra. }
    destruct (zero_mod ds m).
    + rewrite rsum_scal, cos_sum_1d by auto. rewrite andb_true_r. destruct (_ =? _)%Z; [|lra].
      rewrite mult_IZR. lra.
    + rewrite andb_false_r. apply rsum_zero.
Qed.

(* phase facts *)
Fixpoint subZ (p q : list Z) : list Z :=
  match p, q with a :: p', b :: q' => (a - b)%Z :: subZ p' q' | _, _ => [] end.
Lemma subZ_length : forall p q, length p = length q -> length (subZ p q) = length p.
Proof. induction p; intros [|b q] H; simpl in *; auto; try lia. Qed.

Lemma phase_sub : forall dims k r s, positive dims -> length k = length dims ->
  length r = length dims -> length s = length dims ->
  phase dims k (subZ r s) = phase dims k r - phase dims k s.
Proof.
  induction dims as [|d ds IH]; intros [|a k] [|b r] [|c s] HP H1 H2 H3; simpl in *; try lia; try lra.
  inversion HP; subst. rewrite (IH k r s) by (auto; lia).
  replace (a * (b - c))%Z with (a * b - a * c)%Z by lia. rewrite minus_IZR. field. apply not_0_IZR. lia.
Qed.

(** phase of -k is minus the phase of k, modulo 2 pi. *)
Lemma phase_neg : forall dims k r, positive dims -> length k = length dims -> length r = length dims ->
  exists z, phase dims (negmod dims k) r = - phase dims k r + 2 * PI * IZR z.
Proof.
  induction dims as [|d ds IH]; intros [|a k] [|b r] HP H1 H2; simpl in *; try lia.
  - exists 0%Z. simpl. lra.
  - inversion HP; subst. destruct (IH k r) as [z Hz]; auto; try lia.
    exists (z + b * (- ((- a) / d)))%Z. rewrite Hz.
    assert (E : ((- a) mod d = - a - d * ((- a) / d))%Z) by (apply Z.mod_eq; lia).
    rewrite E. set (q := (- a / d)%Z).
    rewrite plus_IZR, !mult_IZR, minus_IZR, mult_IZR, !opp_IZR. field. apply not_0_IZR; lia.
Qed.

Lemma zero_mod_sub : forall dims r s, in_box dims r -> in_box dims s ->
  zero_mod dims (subZ r s) = true <-> r = s.
Proof.
  induction dims as [|d ds IH]; intros r s Hr Hs; inversion Hr; inversion Hs; subst; simpl; [tauto|].
  rewrite andb_true_iff, (IH _ _ H3 H8), Z.eqb_eq. split.
  - intros [A B]. subst. f_equal. apply Z.mod_divide in A; [|lia]. destruct A as [q Hq]. assert (q = 0)%Z by nia. subst q. lia.
  - intros E. inversion E; subst. split; auto. rewrite Z.sub_diag. apply Z.mod_0_l. lia.
Qed.

Lemma nR_msum : forall dims g, positive dims -> rsum (nR dims) (fun r => g (gridPos dims r)) = msum dims g.
Proof. intros. unfold nR. apply rsum_grid; auto. Qed.
Lemma nK_msum : forall dims g, positive dims ->
  rsum (nK dims) (fun k => g (gridPos (computeKMesh dims) k)) = msum (computeKMesh dims) g.
Proof. intros. unfold nK. apply rsum_grid. apply kmesh_positive; auto. Qed.

Lemma gridPos_in_box : forall dims r, positive dims -> (r < nR dims)%nat -> in_box dims (gridPos dims r).
Proof.
  intros. rewrite gridPos_ps by auto. apply ps_in_box; auto. unfold nR in H0. rewrite gridSize_prodZ in H0. lia.
Qed.
Lemma gridPos_inj : forall dims r s, positive dims -> (r < nR dims)%nat -> (s < nR dims)%nat ->
  gridPos dims r = gridPos dims s -> r = s.
Proof.
  intros dims r s HP Hr Hs H. rewrite !gridPos_ps in H by auto. unfold nR in *. rewrite gridSize_prodZ in *.
  apply (f_equal (rk dims)) in H. rewrite !rk_ps in H by (auto; lia). lia.
Qed.
Lemma INR_nR : forall dims, positive dims -> INR (nR dims) = IZR (prodZ dims) /\ 0 < INR (nR dims).
Proof.
  intros dims HP. assert (P := prodZ_pos _ HP). unfold nR. rewrite gridSize_prodZ, INR_IZR_INZ, Z2Nat.id by lia.
  split; auto. apply (IZR_lt 0). auto.
Qed.

(** Kernel of inverse . diag(e) . forward. *)
Lemma fft_kernel : forall dims e f r,
  fftInverse dims (mulK e (fftForward dims f)) r =
  rsum (nR dims) (fun s => f s * (1 / INR (nR dims)) *
    rsum (nK dims) (fun k => c2rWeight dims k * e k * cos (theta dims k r - theta dims k s))).
Proof.
  intros. unfold fftInverse, mulK, fftForward. cbn [fst snd].
  set (N := INR (nR dims)).
  rewrite (rsum_ext _ _ (fun k => rsum (nR dims) (fun s =>
     f s * (1 / N) * (c2rWeight dims k * e k * cos (theta dims k r - theta dims k s))))).
  - rewrite rsum_swap. apply rsum_ext. intros s Hs. apply rsum_scal.
  - intros k Hk. 
    rewrite (rsum_ext (nR dims) (fun s => f s * (1 / N) * (c2rWeight dims k * e k * cos (theta dims k r - theta dims k s)))
      (fun s => c2rWeight dims k * e k * (1 / N) * cos (theta dims k r) * (f s * cos (theta dims k s))
              + c2rWeight dims k * e k * (1 / N) * sin (theta dims k r) * (f s * sin (theta dims k s)))).
    2:{ intros s _. rewrite cos_minus. lra. }
    rewrite rsum_plus, !rsum_scal. lra.
Qed.

(** Forward then inverse is the identity on real fields. *)
Lemma fft_inverse_forward : forall dims f r, dims <> [] -> positive dims -> (r < nR dims)%nat ->
  fftInverse dims (fftForward dims f) r = f r.
Proof.
  intros dims f r Hne HP Hr.
  assert (E : fftInverse dims (fftForward dims f) r = fftInverse dims (mulK (fun _ => 1) (fftForward dims f)) r).
  { unfold fftInverse, mulK. apply rsum_ext. intros. cbn [fst snd]. lra. }
  rewrite E, fft_kernel. destruct (INR_nR dims HP) as [EN PN].
  assert (K : forall s, (s < nR dims)%nat ->
    rsum (nK dims) (fun k => c2rWeight dims k * 1 * cos (theta dims k r - theta dims k s)) =
    if (r =? s)%nat then INR (nR dims) else 0).
  { intros s Hs. assert (Br := gridPos_in_box dims r HP Hr). assert (Bs := gridPos_in_box dims s HP Hs).
    assert (Lr := in_box_length _ _ Br). assert (Ls := in_box_length _ _ Bs).
    unfold c2rWeight, theta.
    set (G := fun p => (if ((last p 0 =? 0) || (2 * last p 0 =? last dims 0))%Z%bool then 1 else 2)
       * cos (phase dims p (gridPos dims r) - phase dims p (gridPos dims s))).
    rewrite (rsum_ext _ _ (fun k => G (gridPos (computeKMesh dims) k))).
    2:{ intros. unfold G. lra. }
    rewrite (nK_msum dims G) by auto. unfold G.
    rewrite (half_sum dims (fun p => cos (phase dims p (gridPos dims r) - phase dims p (gridPos dims s)))); auto.
    - rewrite (msum_ext dims _ (fun p => cos (phase dims p (subZ (gridPos dims r) (gridPos dims s)) + 0))).
      2:{ intros p Hp. rewrite phase_sub by (auto using in_box_length). f_equal. lra. }
      rewrite cos_sum by (auto; rewrite subZ_length; congruence). rewrite cos_0, EN.
      destruct (zero_mod dims _) eqn:Z.
      + apply zero_mod_sub in Z; auto. apply gridPos_inj in Z; auto. subst. rewrite Nat.eqb_refl. lra.
      + destruct (Nat.eqb_spec r s); auto. subst. rewrite (proj2 (zero_mod_sub dims _ _ Bs Bs)) in Z; congruence.
    - intros p Hp. assert (Lp := in_box_length _ _ Hp).
      destruct (phase_neg dims p (gridPos dims r) HP Lp Lr) as [z1 Z1].
      destruct (phase_neg dims p (gridPos dims s) HP Lp Ls) as [z2 Z2].
      rewrite Z1, Z2.
      replace (- phase dims p (gridPos dims r) + 2 * PI * IZR z1 - (- phase dims p (gridPos dims s) + 2 * PI * IZR z2))
        with (- (phase dims p (gridPos dims r) - phase dims p (gridPos dims s)) + 2 * PI * IZR (z1 - z2))
        by (rewrite minus_IZR; lra).
      rewrite cos_2PIZ. apply cos_neg. }
  rewrite (rsum_single (nR dims) r); auto.
  - rewrite K by auto. rewrite Nat.eqb_refl. field. lra.
  - intros s Hs Hne'. rewrite K by auto. destruct (Nat.eqb_spec r s); [congruence|]. lra.
Qed.
