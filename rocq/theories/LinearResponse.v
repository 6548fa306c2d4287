(** Response of the solution of a linear system u' = a u to its matrix and to its
    initial value. *)
From Coq Require Import Reals List Bool Arith Lia Lra.
From Coquelicot Require Import Coquelicot.
From Verif Require Import Base RSum UnitCellProofs Expand ExpandProofs Convergence.
Local Open Scope R_scope.

Lemma rsum_abs : forall m f, Rabs (rsum m f) <= rsum m (fun i => Rabs (f i)).
Proof.
  induction m; intros f; cbn [rsum]; [rewrite Rabs_R0; lra|].
  eapply Rle_trans; [apply Rabs_triang|]. apply Rplus_le_compat_r. auto.
Qed.
Lemma rsum_mono : forall m f g, (forall i, (i < m)%nat -> f i <= g i) -> rsum m f <= rsum m g.
Proof.
  induction m; intros f g H; cbn [rsum]; [lra|]. apply Rplus_le_compat; [apply IHm; auto|apply H; lia].
Qed.
Lemma rsum_term : forall m f i, (forall i, (i < m)%nat -> 0 <= f i) -> (i < m)%nat -> f i <= rsum m f.
Proof.
  induction m; intros f i P Hi; [lia|]. cbn [rsum].
  assert (P0 : 0 <= rsum m f).
  { clear IHm Hi. assert (Q := rsum_mono m (fun _ => 0) f ltac:(intros; apply P; lia)). now rewrite rsum_zero in Q. }
  destruct (Nat.eq_dec i m) as [->|N]; [lra|]. assert (Q := IHm f i ltac:(intros; apply P; lia) ltac:(lia)).
  assert (Q2 := P m ltac:(lia)). lra.
Qed.
Lemma continuous_rsum : forall m (f : nat -> R -> R) s, (forall i, (i < m)%nat -> continuous (f i) s) ->
  continuous (fun s => rsum m (fun i => f i s)) s.
Proof.
  induction m; intros f s H; cbn [rsum]; [apply continuous_const|].
  apply (continuous_plus (fun s => rsum m (fun i => f i s)) (f m)); [apply IHm; auto|apply H; lia].
Qed.
Lemma RInt_rsum : forall m (f : nat -> R -> R) a b, (forall i, (i < m)%nat -> ex_RInt (f i) a b) ->
  ex_RInt (fun s => rsum m (fun i => f i s)) a b /\ RInt (fun s => rsum m (fun i => f i s)) a b = rsum m (fun i => RInt (f i) a b).
Proof.
  induction m; intros f a b H; cbn [rsum].
  - split; [apply ex_RInt_const|]. rewrite RInt_const. unfold scal. cbn. unfold mult. cbn. ring.
  - destruct (IHm f a b ltac:(auto)) as [E1 E2]. split.
    + apply (ex_RInt_plus (fun s => rsum m (fun i => f i s)) (f m)); auto.
    + rewrite <- E2. apply (RInt_plus (fun s => rsum m (fun i => f i s)) (f m)); auto.
Qed.
Lemma continuous_eps : forall (f : R -> R) t0, continuous f t0 ->
  forall e, 0 < e -> exists d, 0 < d /\ forall t, Rabs (t - t0) < d -> Rabs (f t - f t0) < e.
Proof.
  intros f t0 C e He. destruct (proj1 (filterlim_locally f (f t0)) C (mkposreal e He)) as [d Hd].
  exists d. split; [apply cond_pos|]. intros t Ht. apply (Hd t Ht).
Qed.
Lemma eps_continuous : forall (f : R -> R) t0, (forall e, 0 < e -> exists d, 0 < d /\ forall t, Rabs (t - t0) < d -> Rabs (f t - f t0) < e) ->
  continuous f t0.
Proof.
  intros f t0 H. apply (proj2 (filterlim_locally f (f t0))). intros e. destruct (H e (cond_pos e)) as [d [Pd Hd]].
  exists (mkposreal d Pd). intros t Ht. apply Hd. exact Ht.
Qed.
(** (a(t) - a(t0)) I(t) *)
Lemma increment_derive : forall (a I : R -> R) t0 da, is_derive a t0 da -> continuous I t0 ->
  is_derive (fun t => (a t - a t0) * I t) t0 (da * I t0).
Proof.
  intros a I t0 da DA CI. apply is_derive_Reals in DA. apply is_derive_Reals. intros e He.
  assert (Pa := Rabs_pos da). assert (PI := Rabs_pos (I t0)).
  set (e1 := Rmin 1 (e / (2 * (Rabs (I t0) + 1)))). set (e2 := e / (2 * (Rabs da + 1))).
  assert (P1 : 0 < e1). { apply Rmin_glb_lt; [lra|]. apply Rdiv_lt_0_compat; lra. }
  assert (P2 : 0 < e2) by (apply Rdiv_lt_0_compat; lra).
  destruct (DA e1 P1) as [d1 H1]. destruct (continuous_eps I t0 CI e2 P2) as [d2 [Pd2 H2]].
  assert (Pd : 0 < Rmin d1 d2) by (apply Rmin_glb_lt; auto; apply cond_pos).
  exists (mkposreal _ Pd). intros h Nh Hh. cbn in Hh.
  assert (Hh1 := Rlt_le_trans _ _ _ Hh (Rmin_l _ _)). assert (Hh2 := Rlt_le_trans _ _ _ Hh (Rmin_r _ _)).
  assert (A := H1 h Nh Hh1). assert (B := H2 (t0 + h) ltac:(now replace (t0 + h - t0) with h by ring)).
  set (r := (a (t0 + h) - a t0) / h) in *. set (J := I (t0 + h)) in *.
  replace (((a (t0 + h) - a t0) * J - (a t0 - a t0) * I t0) / h - da * I t0) with ((r - da) * I t0 + r * (J - I t0))
    by (unfold r; field; auto).
  assert (A1 : Rabs (r - da) < 1) by (eapply Rlt_le_trans; [apply A|apply Rmin_l]).
  assert (A2 : Rabs (r - da) < e / (2 * (Rabs (I t0) + 1))) by (eapply Rlt_le_trans; [apply A|apply Rmin_r]).
  assert (Br : Rabs r <= Rabs da + 1). { replace r with (da + (r - da)) by ring. eapply Rle_trans; [apply Rabs_triang|]. lra. }
  eapply Rle_lt_trans; [apply Rabs_triang|]. rewrite !Rabs_mult.
  assert (X1 : Rabs (r - da) * Rabs (I t0) <= e / 2 * (Rabs (I t0) / (Rabs (I t0) + 1))).
  { apply Rle_trans with (e / (2 * (Rabs (I t0) + 1)) * Rabs (I t0)); [apply Rmult_le_compat_r; lra|]. apply Req_le. field. lra. }
  assert (X2 : e / 2 * (Rabs (I t0) / (Rabs (I t0) + 1)) < e / 2).
  { rewrite <- (Rmult_1_r (e / 2)) at 2. apply Rmult_lt_compat_l; [lra|]. apply Rmult_lt_reg_r with (Rabs (I t0) + 1); [lra|].
    unfold Rdiv. rewrite Rmult_assoc, Rinv_l by lra. lra. }
  assert (X3 : Rabs r * Rabs (J - I t0) <= (Rabs da + 1) * e2).
  { apply Rmult_le_compat; try apply Rabs_pos; auto. lra. }
  assert (X4 : (Rabs da + 1) * e2 = e / 2) by (unfold e2; field; lra).
  lra.
Qed.

Section M.
Variable n : nat.

Definition msolves (a : nat -> nat -> R) (u : R -> nat -> R) : Prop :=
  forall s i, (i < n)%nat -> is_derive (fun s => u s i) s (rsum n (fun j => a i j * u s j)).
Definition dot (f g : nat -> R) : R := rsum n (fun i => f i * g i).

Lemma msolves_continuous : forall a u s i, msolves a u -> (i < n)%nat -> continuous (fun s => u s i) s.
Proof. intros a u s i H Hi. apply (ex_derive_continuous (fun s => u s i)). eexists. now apply H. Qed.
Lemma rev_continuous : forall a v L s i, msolves a v -> (i < n)%nat -> continuous (fun s => v (L - s) i) s.
Proof.
  intros a v L s i H Hi. apply (continuous_comp (fun s => L - s) (fun s => v s i)).
  - apply (continuous_minus (fun _ => L) (fun s => s)); [apply continuous_const|apply continuous_id].
  - now apply (msolves_continuous a).
Qed.

Lemma dot_derive : forall a b u v L s, msolves a u -> msolves b v ->
  (forall i j, (i < n)%nat -> (j < n)%nat -> b i j = b j i) ->
  is_derive (fun s => dot (u s) (v (L - s))) s (rsum n (fun i => rsum n (fun j => (a i j - b i j) * (u s j * v (L - s) i)))).
Proof.
  intros a b u v L s U V S.
  assert (E : rsum n (fun i => rsum n (fun j => (a i j - b i j) * (u s j * v (L - s) i)))
    = rsum n (fun i => rsum n (fun j => a i j * u s j) * v (L - s) i + u s i * (- rsum n (fun j => b i j * v (L - s) j)))).
  { rewrite rsum_plus.
    rewrite (rsum_ext n (fun i => u s i * - _) (fun i => - rsum n (fun j => b i j * (u s i * v (L - s) j)))).
    2:{ intros i _. rewrite <- rsum_opp, <- rsum_scal, <- rsum_opp. apply rsum_ext. intros. ring. }
    rewrite rsum_opp. rewrite (rsum_swap n n (fun i j => b i j * (u s i * v (L - s) j))).
    rewrite (rsum_ext n (fun j => rsum n (fun i => b i j * (u s i * v (L - s) j))) (fun i => rsum n (fun j => b i j * (u s j * v (L - s) i)))).
    2:{ intros i Hi. apply rsum_ext. intros j Hj. now rewrite (S i j). }
    rewrite (rsum_ext n (fun i => rsum n _ * v (L - s) i) (fun i => rsum n (fun j => a i j * (u s j * v (L - s) i)))).
    2:{ intros i _. rewrite <- rsum_scal_r. apply rsum_ext. intros. ring. }
    unfold Rminus at 1. rewrite <- rsum_opp, <- rsum_plus. apply rsum_ext. intros i _. rewrite <- rsum_opp, <- rsum_plus. apply rsum_ext. intros. ring. }
  rewrite E. apply (is_derive_rsum n (fun i s => u s i * v (L - s) i)). intros i Hi.
  apply (is_derive_Rmult (fun s => u s i) (fun s => v (L - s) i)); [now apply U|].
  assert (D := V (L - s) i Hi).
  assert (D2 : is_derive (fun s => L - s) s (-1)).
  { apply (is_derive_ext (fun s => L + - s)); [reflexivity|]. auto_derive; auto. }
  assert (D3 := is_derive_comp (fun s => v s i) (fun s => L - s) s _ _ D D2).
  replace (- rsum n (fun j => b i j * v (L - s) j)) with (scal (-1) (rsum n (fun j => b i j * v (L - s) j))); [exact D3|].
  unfold scal. cbn. unfold mult. cbn. ring.
Qed.

(** Duhamel's formula, in pairing with a solution of another, symmetric system. *)
Lemma pair_continuous : forall a b u v L i j s, msolves a u -> msolves b v -> (i < n)%nat -> (j < n)%nat ->
  continuous (fun s => u s j * v (L - s) i) s.
Proof.
  intros a b u v L i j s U V Hi Hj. apply (continuous_mult (fun s => u s j) (fun s => v (L - s) i)).
  - now apply (msolves_continuous a).
  - now apply (rev_continuous b).
Qed.
Lemma pair_ex_RInt : forall a b u v L i j, msolves a u -> msolves b v -> (i < n)%nat -> (j < n)%nat ->
  ex_RInt (fun s => u s j * v (L - s) i) 0 L.
Proof.
  intros a b u v L i j U V Hi Hj. apply (@ex_RInt_continuous R_CompleteNormedModule). intros. now apply (pair_continuous a b).
Qed.
Lemma duhamel : forall a b u v L, msolves a u -> msolves b v ->
  (forall i j, (i < n)%nat -> (j < n)%nat -> b i j = b j i) ->
  dot (u L) (v 0) = dot (u 0) (v L) + rsum n (fun i => rsum n (fun j => (a i j - b i j) * RInt (fun s => u s j * v (L - s) i) 0 L)).
Proof.
  intros a b u v L U V S.
  set (g := fun s => rsum n (fun i => rsum n (fun j => (a i j - b i j) * (u s j * v (L - s) i)))).
  assert (PC := fun i j s Hi Hj => pair_continuous a b u v L i j s U V Hi Hj).
  assert (PE := fun i j Hi Hj => pair_ex_RInt a b u v L i j U V Hi Hj).
  assert (X : is_RInt g 0 L (minus (dot (u L) (v (L - L))) (dot (u 0) (v (L - 0))))).
  { apply (is_RInt_derive (fun s => dot (u s) (v (L - s))) g).
    - intros s _. now apply dot_derive.
    - intros s _. unfold g. apply (continuous_rsum n (fun i s => rsum n (fun j => (a i j - b i j) * (u s j * v (L - s) i)))). intros i Hi.
      apply (continuous_rsum n (fun j s => (a i j - b i j) * (u s j * v (L - s) i))). intros j Hj.
      apply (continuous_scal_r (a i j - b i j) (fun s => u s j * v (L - s) i)). now apply PC. }
  apply (@is_RInt_unique R_CompleteNormedModule) in X. replace (L - L) with 0 in X by ring. rewrite Rminus_0_r in X.
  assert (Y : RInt g 0 L = rsum n (fun i => rsum n (fun j => (a i j - b i j) * RInt (fun s => u s j * v (L - s) i) 0 L))).
  { unfold g.
    assert (Z : forall i, (i < n)%nat -> ex_RInt (fun s => rsum n (fun j => (a i j - b i j) * (u s j * v (L - s) i))) 0 L /\
       RInt (fun s => rsum n (fun j => (a i j - b i j) * (u s j * v (L - s) i))) 0 L = rsum n (fun j => (a i j - b i j) * RInt (fun s => u s j * v (L - s) i) 0 L)).
    { intros i Hi. destruct (RInt_rsum n (fun j s => (a i j - b i j) * (u s j * v (L - s) i)) 0 L) as [Z1 Z2].
      - intros j Hj. apply (ex_RInt_scal (fun s => u s j * v (L - s) i)). now apply PE.
      - split; [exact Z1|]. rewrite Z2. apply rsum_ext. intros j Hj.
        apply (RInt_scal (fun s => u s j * v (L - s) i)). now apply PE. }
    destruct (RInt_rsum n (fun i s => rsum n (fun j => (a i j - b i j) * (u s j * v (L - s) i))) 0 L (fun i Hi => proj1 (Z i Hi))) as [_ Z2].
    rewrite Z2. apply rsum_ext. intros i Hi. now apply Z. }
  rewrite Y in X. rewrite X. unfold minus, plus, opp. cbn. ring.
Qed.

(** Gronwall: nearby matrices and initial values have nearby solutions. *)
Lemma gronwall : forall B M L, 0 <= B -> 0 <= M -> 0 <= L -> exists C, 0 <= C /\
  forall a b u v e, msolves a u -> msolves b v -> 0 <= e ->
    (forall i j, (i < n)%nat -> (j < n)%nat -> Rabs (a i j) <= B /\ Rabs (a i j - b i j) <= e) ->
    (forall s j, 0 <= s <= L -> (j < n)%nat -> Rabs (v s j) <= M) ->
    (forall i, (i < n)%nat -> Rabs (u 0 i - v 0 i) <= e) ->
    forall s i, 0 <= s <= L -> (i < n)%nat -> Rabs (u s i - v s i) <= C * e.
Proof.
  intros B M L PB PM PL. set (N := INR n). assert (PN : 0 <= N) by apply pos_INR.
  set (c := 2 * N * B + N + 1). set (G := N * N * (M * M)).
  assert (Pc : 1 <= c). { unfold c. assert (0 <= N * B) by now apply Rmult_le_pos. lra. }
  assert (PG : 0 <= G). { unfold G. apply Rmult_le_pos; apply Rmult_le_pos; auto. }
  set (Z := (N + G) * exp (c * L)). assert (PZ : 0 <= Z). { apply Rmult_le_pos; [lra|]. left. apply exp_pos. }
  exists (sqrt Z). split; [apply sqrt_pos|].
  intros a b u v e U V Pe Hab HM H0 s i Hs Hi.
  set (d := fun s i => u s i - v s i). set (E := fun s => rsum n (fun i => d s i * d s i)).
  set (dE := fun s => rsum n (fun i => rsum n (fun j => 2 * d s i * (a i j * d s j + (a i j - b i j) * v s j)))).
  assert (DE : forall s, is_derive E s (dE s)).
  { intros x. apply (is_derive_rsum n (fun i s => d s i * d s i)). intros k Hk.
    assert (Dd : is_derive (fun s => d s k) x (rsum n (fun j => a k j * u x j) - rsum n (fun j => b k j * v x j))).
    { apply (is_derive_minus (fun s => u s k) (fun s => v s k)); auto. }
    assert (EQ : rsum n (fun j => 2 * d x k * (a k j * d x j + (a k j - b k j) * v x j))
      = (rsum n (fun j => a k j * u x j) - rsum n (fun j => b k j * v x j)) * d x k + d x k * (rsum n (fun j => a k j * u x j) - rsum n (fun j => b k j * v x j))).
    { rewrite rsum_scal. rewrite <- rsum_minus. 
      rewrite (rsum_ext n (fun j => a k j * d x j + _) (fun i0 => a k i0 * u x i0 - b k i0 * v x i0)) by (intros; unfold d; ring). ring. }
    rewrite EQ. apply (is_derive_Rmult (fun s => d s k) (fun s => d s k)); auto. }
  assert (BE : forall x, 0 <= x <= L -> dE x <= c * E x + G * (e * e)).
  { intros x Hx. unfold dE.
    assert (S1 : rsum n (fun i => rsum n (fun j => 2 * d x i * (a i j * d x j + (a i j - b i j) * v x j)))
      <= rsum n (fun i => rsum n (fun j => B * (d x i * d x i) + B * (d x j * d x j) + (d x i * d x i + (M * M) * (e * e))))).
    { apply rsum_mono. intros k Hk. apply rsum_mono. intros j Hj. destruct (Hab k j Hk Hj) as [A1 A2]. assert (A3 := HM x j Hx Hj).
      set (p := d x k). set (q := d x j). set (al := a k j) in *. set (z := (al - b k j) * v x j).
      assert (Bz : Rabs z <= e * M). { unfold z. rewrite Rabs_mult. apply Rmult_le_compat; auto; apply Rabs_pos. }
      assert (X1 : 2 * p * z <= p * p + z * z). { assert (0 <= (p - z) * (p - z)) by apply Rle_0_sqr. lra. }
      assert (X2 : z * z <= M * M * (e * e)).
      { replace (z * z) with (Rabs z * Rabs z) by (rewrite <- Rabs_mult; apply Rabs_pos_eq; apply Rle_0_sqr).
        replace (M * M * (e * e)) with ((e * M) * (e * M)) by ring. apply Rmult_le_compat; auto; apply Rabs_pos. }
      assert (X3 : 2 * p * (al * q) <= B * (p * p) + B * (q * q)).
      { assert (Y1 : 0 <= (p - q) * (p - q)) by apply Rle_0_sqr. assert (Y2 : 0 <= (p + q) * (p + q)) by apply Rle_0_sqr.
        assert (Y3 : - B <= al <= B) by (apply Rabs_le_between in A1; lra).
        assert (Y4 : 0 <= (B - al) * ((p + q) * (p + q))) by (apply Rmult_le_pos; auto; lra).
        assert (Y5 : 0 <= (B + al) * ((p - q) * (p - q))) by (apply Rmult_le_pos; auto; lra). nra. }
      replace (2 * p * (al * q + z)) with (2 * p * (al * q) + 2 * p * z) by ring. lra. }
    eapply Rle_trans; [apply S1|]. apply Rle_trans with ((2 * N * B + N) * E x + G * (e * e)).
    - apply Req_le. rewrite (rsum_ext n _ (fun i => (N * B + N) * (d x i * d x i) + (B * E x + N * (M * M * (e * e))))).
      + rewrite rsum_plus, rsum_scal, rsum_const. fold N. unfold G. fold (E x). ring.
      + intros k Hk. rewrite !rsum_plus. rewrite !rsum_const. rewrite rsum_scal. fold (E x). fold N. ring.
    - apply Rplus_le_compat_r. apply Rmult_le_compat_r.
      + unfold E. assert (Q := rsum_mono n (fun _ => 0) (fun i => d x i * d x i) ltac:(intros; apply Rle_0_sqr)). now rewrite rsum_zero in Q.
      + unfold c. lra. }
  set (F := fun s => (E s + G * (e * e)) * exp (- c * s)).
  assert (Pee : 0 <= e * e) by now apply Rmult_le_pos.
  assert (PGe : 0 <= G * (e * e)) by now apply Rmult_le_pos.
  assert (DF : forall x, is_derive F x ((dE x - c * (E x + G * (e * e))) * exp (- c * x))).
  { intros x. unfold F. 
    assert (D1 : is_derive (fun s => E s + G * (e * e)) x (dE x)).
    { rewrite <- (Rplus_0_r (dE x)). apply (is_derive_plus E (fun _ => G * (e * e))); [apply DE|apply @is_derive_const]. }
    assert (D2 : is_derive (fun s => exp (- c * s)) x (- c * exp (- c * x))). { auto_derive; auto. ring. }
    replace ((dE x - c * (E x + G * (e * e))) * exp (- c * x)) with (dE x * exp (- c * x) + (E x + G * (e * e)) * (- c * exp (- c * x))) by ring.
    apply (is_derive_Rmult (fun s => E s + G * (e * e)) (fun s => exp (- c * s))); auto. }
  assert (FD : F s <= F 0).
  { destruct (MVT_gen F 0 s (fun x => (dE x - c * (E x + G * (e * e))) * exp (- c * x))) as [x [Hx EX]].
    - intros; apply DF.
    - intros x _. apply continuity_pt_filterlim. apply (ex_derive_continuous F). eexists. apply DF.
    - rewrite Rmin_left, Rmax_right in Hx by lra. rewrite Rminus_0_r in EX.
      assert (Q : (dE x - c * (E x + G * (e * e))) * exp (- c * x) <= 0).
      { assert (Q := BE x ltac:(lra)). assert (P := exp_pos (- c * x)).
        assert (dE x - c * (E x + G * (e * e)) <= 0). { assert (G * (e * e) <= c * (G * (e * e))) by (rewrite <- (Rmult_1_l (G * (e * e))) at 1; apply Rmult_le_compat_r; auto). lra. }
        assert (0 <= - (dE x - c * (E x + G * (e * e))) * exp (- c * x)) by (apply Rmult_le_pos; lra). lra. }
      assert (0 <= - ((dE x - c * (E x + G * (e * e))) * exp (- c * x)) * s) by (apply Rmult_le_pos; lra). lra. }
  assert (E0 : E 0 <= N * (e * e)).
  { unfold E. apply Rle_trans with (rsum n (fun _ => e * e)).
    - apply rsum_mono. intros k Hk. assert (Q := H0 k Hk). fold (d 0 k) in Q.
      replace (d 0 k * d 0 k) with (Rabs (d 0 k) * Rabs (d 0 k)) by (rewrite <- Rabs_mult; apply Rabs_pos_eq; apply Rle_0_sqr).
      apply Rmult_le_compat; auto; apply Rabs_pos.
    - rewrite rsum_const. fold N. lra. }
  assert (ES : E s <= Z * (e * e)).
  { unfold F in FD. rewrite Rmult_0_r, exp_0, Rmult_1_r in FD.
    assert (P1 := exp_pos (- c * s)). assert (P2 := exp_pos (c * s)).
    assert (X : exp (- c * s) * exp (c * s) = 1). { rewrite <- exp_plus. replace (- c * s + c * s) with 0 by ring. apply exp_0. }
    assert (Y : E s + G * (e * e) <= (E 0 + G * (e * e)) * exp (c * s)).
    { replace (E s + G * (e * e)) with ((E s + G * (e * e)) * exp (- c * s) * exp (c * s)) by (rewrite Rmult_assoc, X; ring).
      apply Rmult_le_compat_r; lra. }
    assert (W : exp (c * s) <= exp (c * L)).
    { destruct (Rle_lt_or_eq_dec (c * s) (c * L)) as [LT|EQ]. { apply Rmult_le_compat_l; lra. }
      - left. now apply exp_increasing.
      - rewrite EQ. lra. }
    apply Rle_trans with ((E 0 + G * (e * e)) * exp (c * s)); [lra|]. unfold Z.
    replace ((N + G) * exp (c * L) * (e * e)) with ((N * (e * e) + G * (e * e)) * exp (c * L)) by ring.
    assert (PE0 : 0 <= E 0). { unfold E. assert (Q := rsum_mono n (fun _ => 0) (fun i => d 0 i * d 0 i) ltac:(intros; apply Rle_0_sqr)). now rewrite rsum_zero in Q. }
    apply Rmult_le_compat; lra. }
  assert (TE : d s i * d s i <= E s). { apply (rsum_term n (fun i => d s i * d s i)); auto. intros. apply Rle_0_sqr. }
  fold (d s i). rewrite <- (sqrt_Rsqr_abs (d s i)).
  replace (sqrt Z * e) with (sqrt (Z * (e * e))).
  - apply sqrt_le_1_alt. unfold Rsqr. lra.
  - rewrite sqrt_mult by auto. now rewrite sqrt_square.
Qed.

Lemma msolves_bounded : forall a u L, msolves a u -> exists M, 0 <= M /\ forall s j, 0 <= s <= L -> (j < n)%nat -> Rabs (u s j) <= M.
Proof.
  intros a u L U. destruct (solves_bounded n (fun f i => rsum n (fun j => a i j * f j)) u L U) as [M [PM HM]].
  exists M. split; auto. intros s j Hs Hj. now apply (HM s Hs).
Qed.

Section Response.
Variables (a : nat -> nat -> R -> R) (da : nat -> nat -> R) (u : R -> R -> nat -> R) (dh : nat -> R) (L t0 : R).
Hypothesis PL : 0 <= L.
Hypothesis HU : forall t, msolves (fun i j => a i j t) (u t).
Hypothesis Ha : forall i j, (i < n)%nat -> (j < n)%nat -> is_derive (a i j) t0 (da i j).
Hypothesis Hh : forall i, (i < n)%nat -> is_derive (fun t => u t 0 i) t0 (dh i).

Lemma solutions_close : exists C e, 0 <= C /\ (forall t, 0 <= e t) /\ e t0 = 0 /\ continuous e t0 /\ exists d, 0 < d /\
  forall t, Rabs (t - t0) < d -> forall s i, 0 <= s <= L -> (i < n)%nat -> Rabs (u t s i - u t0 s i) <= C * e t.
Proof.
  set (f := fun i j t => Rabs (a i j t - a i j t0)). set (g := fun i t => Rabs (u t 0 i - u t0 0 i)).
  set (e := fun t => rsum n (fun i => rsum n (fun j => f i j t)) + rsum n (fun i => g i t)).
  assert (Pf : forall i j t, 0 <= f i j t) by (intros; apply Rabs_pos). assert (Pg : forall i t, 0 <= g i t) by (intros; apply Rabs_pos).
  assert (PS : forall m (h : nat -> R), (forall i, (i < m)%nat -> 0 <= h i) -> 0 <= rsum m h).
  { intros m h P. assert (Q := rsum_mono m (fun _ => 0) h P). now rewrite rsum_zero in Q. }
  assert (E0 : e t0 = 0).
  { unfold e. rewrite (rsum_ext n _ (fun _ => 0)).
    2:{ intros i _. rewrite (rsum_ext n _ (fun _ => 0)); [apply rsum_zero|]. intros j _. unfold f. rewrite Rminus_diag_eq, Rabs_R0; auto. }
    rewrite (rsum_ext n (fun i => g i t0) (fun _ => 0)). 2:{ intros i _. unfold g. rewrite Rminus_diag_eq, Rabs_R0; auto. }
    rewrite rsum_zero. ring. }
  assert (CA : forall (h : R -> R), continuous h t0 -> continuous (fun t => Rabs (h t - h t0)) t0).
  { intros h Ch. apply (continuous_comp (fun t => h t - h t0) Rabs); [|apply continuous_Rabs].
    apply (continuous_minus h (fun _ => h t0)); [auto|apply continuous_const]. }
  assert (CE : continuous e t0).
  { apply (continuous_plus (fun t => rsum n (fun i => rsum n (fun j => f i j t))) (fun t => rsum n (fun i => g i t))).
    - apply (continuous_rsum n (fun i t => rsum n (fun j => f i j t))). intros i Hi. apply (continuous_rsum n (fun j t => f i j t)). intros j Hj.
      apply CA. apply (ex_derive_continuous (a i j)). eexists. now apply Ha.
    - apply (continuous_rsum n (fun i t => g i t)). intros i Hi. apply (CA (fun t => u t 0 i)).
      apply (ex_derive_continuous (fun t => u t 0 i)). eexists. now apply Hh. }
  set (B := rsum n (fun i => rsum n (fun j => Rabs (a i j t0))) + 1).
  assert (PB : 0 <= B). { unfold B. assert (Q := PS n (fun i => rsum n (fun j => Rabs (a i j t0))) ltac:(intros; apply PS; intros; apply Rabs_pos)). lra. }
  assert (T2 : forall (h : nat -> nat -> R) i j, (forall i j, 0 <= h i j) -> (i < n)%nat -> (j < n)%nat -> h i j <= rsum n (fun i => rsum n (fun j => h i j))).
  { intros h i j P Hi Hj. apply Rle_trans with (rsum n (fun j => h i j)).
    - apply (rsum_term n (fun j => h i j)); auto.
    - apply (rsum_term n (fun i => rsum n (fun j => h i j))); auto. }
  destruct (msolves_bounded _ (u t0) L (HU t0)) as [M [PM HM]].
  destruct (gronwall B M L PB PM PL) as [C [PC HC]].
  exists C, e. split; auto. split. { intros t. unfold e. apply Rplus_le_le_0_compat; apply PS; auto. }
  split; auto. split; auto.
  destruct (continuous_eps e t0 CE 1 ltac:(lra)) as [d [Pd Hd]]. exists d. split; auto. intros t Ht s i Hs Hi.
  assert (E1 := Hd t Ht). rewrite E0, Rminus_0_r in E1.
  assert (Pe : 0 <= e t). { unfold e. apply Rplus_le_le_0_compat; apply PS; auto. }
  rewrite Rabs_pos_eq in E1 by auto.
  assert (Pe1 : 0 <= rsum n (fun i => rsum n (fun j => f i j t))) by (apply PS; auto).
  assert (Pe2 : 0 <= rsum n (fun i => g i t)) by (apply PS; auto).
  apply (HC (fun i j => a i j t) (fun i j => a i j t0) (u t) (u t0) (e t)); auto.
  - intros k j Hk Hj. assert (Q := T2 (fun i j => f i j t) k j (fun i j => Pf i j t) Hk Hj). cbv beta in Q. split.
    + replace (a k j t) with (a k j t0 + (a k j t - a k j t0)) by ring. eapply Rle_trans; [apply Rabs_triang|]. fold (f k j t).
      assert (Q2 := T2 (fun i j => Rabs (a i j t0)) k j ltac:(intros; apply Rabs_pos) Hk Hj). cbv beta in Q2. unfold B. unfold e in E1. lra.
    + fold (f k j t). unfold e. lra.
  - intros k Hk. fold (g k t). assert (Q := rsum_term n (fun i => g i t) k (fun i _ => Pg i t) Hk). cbv beta in Q. unfold e. lra.
Qed.

Lemma integral_continuous : forall b v i j, msolves b v -> (i < n)%nat -> (j < n)%nat ->
  continuous (fun t => RInt (fun s => u t s j * v (L - s) i) 0 L) t0.
Proof.
  intros b v i j V Hi Hj. destruct solutions_close as (C & e & PC & Pe & E0 & CE & d & Pd & Hd).
  destruct (msolves_bounded _ v L V) as [M [PM HM]].
  apply eps_continuous. intros z Hz.
  set (W := L * (C * M) + 1). assert (PW : 0 < W). { unfold W. assert (0 <= L * (C * M)) by (apply Rmult_le_pos; auto; now apply Rmult_le_pos). lra. }
  destruct (continuous_eps e t0 CE (z / W) ltac:(now apply Rdiv_lt_0_compat)) as [d2 [Pd2 Hd2]].
  exists (Rmin d d2). split; [now apply Rmin_glb_lt|]. intros t Ht.
  assert (Ht1 := Rlt_le_trans _ _ _ Ht (Rmin_l _ _)). assert (Ht2 := Rlt_le_trans _ _ _ Ht (Rmin_r _ _)).
  assert (E1 := Hd2 t Ht2). rewrite E0, Rminus_0_r, Rabs_pos_eq in E1 by auto.
  assert (X1 := pair_ex_RInt _ b (u t) v L i j (HU t) V Hi Hj). assert (X2 := pair_ex_RInt _ b (u t0) v L i j (HU t0) V Hi Hj).
  assert (Q : Rabs (RInt (fun s => minus (u t s j * v (L - s) i) (u t0 s j * v (L - s) i)) 0 L) <= (L - 0) * (C * e t * M)).
  { apply (abs_RInt_le_const (fun s => minus (u t s j * v (L - s) i) (u t0 s j * v (L - s) i))); auto.
    - apply (@ex_RInt_minus R_NormedModule (fun s => u t s j * v (L - s) i) (fun s => u t0 s j * v (L - s) i)); auto.
    - intros s Hs. replace (minus (u t s j * v (L - s) i) (u t0 s j * v (L - s) i)) with ((u t s j - u t0 s j) * v (L - s) i)
        by (unfold minus, plus, opp; cbn; ring).
      rewrite Rabs_mult. apply Rmult_le_compat; try apply Rabs_pos; [apply Hd; auto|apply HM; auto; lra]. }
  rewrite (RInt_minus (fun s => u t s j * v (L - s) i) (fun s => u t0 s j * v (L - s) i)) in Q by auto.
  change (Rabs (RInt (fun s => u t s j * v (L - s) i) 0 L - RInt (fun s => u t0 s j * v (L - s) i) 0 L) <= (L - 0) * (C * e t * M)) in Q.
  eapply Rle_lt_trans; [apply Q|].
  apply Rle_lt_trans with (W * e t).
  - unfold W. assert (P := Pe t). replace ((L - 0) * (C * e t * M)) with (L * (C * M) * e t) by ring. lra.
  - apply Rmult_lt_reg_r with (/ W); [now apply Rinv_0_lt_compat|]. replace (W * e t * / W) with (e t) by (field; lra). exact E1.
Qed.

Lemma response : forall v, msolves (fun i j => a i j t0) v ->
  (forall i j, (i < n)%nat -> (j < n)%nat -> a i j t0 = a j i t0) ->
  is_derive (fun t => dot (u t L) (v 0)) t0
    (dot dh (v L) + rsum n (fun i => rsum n (fun j => da i j * RInt (fun s => u t0 s j * v (L - s) i) 0 L))).
Proof.
  intros v V S.
  apply (is_derive_ext (fun t => dot (u t 0) (v L) + rsum n (fun i => rsum n (fun j => (a i j t - a i j t0) * RInt (fun s => u t s j * v (L - s) i) 0 L)))).
  { intros t. symmetry. apply (duhamel (fun i j => a i j t) (fun i j => a i j t0) (u t) v L); auto. }
  apply (is_derive_plus (fun t => dot (u t 0) (v L)) (fun t => rsum n (fun i => rsum n (fun j => (a i j t - a i j t0) * RInt (fun s => u t s j * v (L - s) i) 0 L)))).
  - unfold dot. apply (is_derive_rsum n (fun i t => u t 0 i * v L i)). intros i Hi.
    apply (is_derive_ext (fun t => v L i * u t 0 i)). { intros; apply Rmult_comm. }
    rewrite Rmult_comm. apply (is_derive_scal (fun t => u t 0 i)). auto.
  - apply (is_derive_rsum n (fun i t => rsum n (fun j => (a i j t - a i j t0) * RInt (fun s => u t s j * v (L - s) i) 0 L))). intros i Hi.
    apply (is_derive_rsum n (fun j t => (a i j t - a i j t0) * RInt (fun s => u t s j * v (L - s) i) 0 L)). intros j Hj.
    apply (increment_derive (a i j) (fun t => RInt (fun s => u t s j * v (L - s) i) 0 L)); auto.
    now apply (integral_continuous (fun i j => a i j t0)).
Qed.

(** Every component of the final value is differentiable. *)
Lemma final_derive : (forall i j, (i < n)%nat -> (j < n)%nat -> a i j t0 = a j i t0) ->
  exists dT, (forall i, (i < n)%nat -> is_derive (fun t => u t L i) t0 (dT i)) /\
  forall v, msolves (fun i j => a i j t0) v ->
    dot dT (v 0) = dot dh (v L) + rsum n (fun i => rsum n (fun j => da i j * RInt (fun s => u t0 s j * v (L - s) i) 0 L)).
Proof.
  intros S.
  assert (bA : exists K, bop n (fun f i => rsum n (fun j => a i j t0 * f j)) K).
  { exists (rsum n (fun i => rsum n (fun j => Rabs (a i j t0)))). split; [|split].
    - assert (Q := rsum_mono n (fun _ => 0) (fun i => rsum n (fun j => Rabs (a i j t0)))). rewrite rsum_zero in Q. apply Q. intros i Hi.
      assert (Q2 := rsum_mono n (fun _ => 0) (fun j => Rabs (a i j t0))). rewrite rsum_zero in Q2. apply Q2. intros; apply Rabs_pos.
    - intros c c' f g i Hi. rewrite <- !rsum_scal, <- rsum_plus. apply rsum_ext. intros. ring.
    - intros f M HM HF i Hi. eapply Rle_trans; [apply rsum_abs|].
      apply Rle_trans with (rsum n (fun j => Rabs (a i j t0)) * M).
      + rewrite <- rsum_scal_r. apply rsum_mono. intros j Hj. rewrite Rabs_mult. apply Rmult_le_compat_l; [apply Rabs_pos|now apply HF].
      + apply Rmult_le_compat_r; auto. apply (rsum_term n (fun i => rsum n (fun j => Rabs (a i j t0)))); auto.
        intros k Hk. assert (Q2 := rsum_mono n (fun _ => 0) (fun j => Rabs (a k j t0))). rewrite rsum_zero in Q2. apply Q2. intros; apply Rabs_pos. }
  destruct bA as [K bA].
  assert (D : forall i, (i < n)%nat -> ex_derive (fun t => u t L i) t0).
  { intros i Hi. destruct (solution_exists n _ K (delta i) bA) as [v [V0 V1]].
    eexists. apply (is_derive_ext (fun t => dot (u t L) (v 0))).
    - intros t. unfold dot. rewrite (rsum_single n i); auto.
      + rewrite V0 by auto. unfold delta. rewrite Nat.eqb_refl. match goal with |- ?x = ?y => change (@eq R x y) end. ring.
      + intros j Hj N. rewrite V0 by auto. unfold delta. destruct (Nat.eqb_spec j i); [congruence|ring].
    - now apply response. }
  exists (fun i => Derive (fun t => u t L i) t0). split. { intros i Hi. apply Derive_correct. auto. }
  intros v V. assert (R1 := response v V S).
  assert (R2 : is_derive (fun t => dot (u t L) (v 0)) t0 (dot (fun i => Derive (fun t => u t L i) t0) (v 0))).
  { unfold dot. apply (is_derive_rsum n (fun i t => u t L i * v 0 i)). intros i Hi.
    apply (is_derive_ext (fun t => v 0 i * u t L i)). { intros; apply Rmult_comm. }
    rewrite Rmult_comm. apply (is_derive_scal (fun t => u t L i)). apply Derive_correct. auto. }
  rewrite <- (is_derive_unique _ _ _ R2). now apply is_derive_unique.
Qed.
End Response.
End M.
