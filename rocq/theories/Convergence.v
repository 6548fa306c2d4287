(** Convergence of one-step methods for u' = A u, A a bounded linear operator on
    fields with n points. *)
From Coq Require Import Reals QArith Qreals List Bool Arith Lia Lra.
From Coquelicot Require Import Coquelicot.
From Verif Require Import Base RSum Solve R1d UnitCellProofs Expand ExpandProofs.
Import ListNotations.
Local Open Scope R_scope.

Section N.
Variable n : nat.
Notation bop := (bop n).
Notation bnd := (bnd n).

Definition delta (j i : nat) : R := if (i =? j)%nat then 1 else 0.
Lemma bop_matrix : forall T K f i, bop T K -> (i < n)%nat -> T f i = rsum n (fun j => f j * T (delta j) i).
Proof.
  intros T K f i bT Hi. rewrite (bop_ext n T K f (fun l => rsum n (fun j => (fun l => f j * delta j l) l)) i bT); auto.
  - rewrite (bop_rsum n T K n (fun j l => f j * delta j l) i bT Hi). apply rsum_ext. intros j Hj.
    apply (bop_scal n T K (f j) (delta j) i bT Hi).
  - intros l Hl. rewrite (rsum_single n l); auto; unfold delta.
    + rewrite Nat.eqb_refl. ring.
    + intros j _ NE. destruct (Nat.eqb_spec l j); [congruence|ring].
Qed.
Lemma bop_derive : forall T K (u : R -> field) du t i, bop T K -> (i < n)%nat ->
  (forall j, (j < n)%nat -> is_derive (fun s => u s j) t (du j)) -> is_derive (fun s => T (u s) i) t (T du i).
Proof.
  intros T K u du t i bT Hi D.
  apply (is_derive_ext (fun s => rsum n (fun j => u s j * T (delta j) i))).
  { intros s. symmetry. now apply (bop_matrix T K). }
  rewrite (bop_matrix T K du i bT Hi). apply is_derive_rsum. intros j Hj.
  apply (is_derive_ext (fun s => T (delta j) i * u s j)). { intros. apply Rmult_comm. }
  rewrite (Rmult_comm (du j)). apply is_derive_scal. auto.
Qed.

(** u' = A u *)
Definition solves (A : field -> field) (u : R -> field) : Prop :=
  forall t i, (i < n)%nat -> is_derive (fun s => u s i) t (A (u t) i).

Section Taylor.
Variables (A : field -> field) (B : R).
Hypothesis bA : bop A B.

Lemma iter_derive : forall u k t i, solves A u -> (i < n)%nat ->
  is_derive (fun s => Nat.iter k A (u s) i) t (Nat.iter (S k) A (u t) i).
Proof.
  intros u k t i S Hi.
  assert (E : Nat.iter (Datatypes.S k) A (u t) = Nat.iter k A (A (u t))).
  { clear. revert u t. induction k; intros; [reflexivity|]. cbn. cbn in IHk. now rewrite IHk. }
  rewrite E. apply (bop_derive _ (B ^ k)); auto. now apply bop_iter.
Qed.
Lemma solves_derive_n : forall u k t i, solves A u -> (i < n)%nat -> Derive_n (fun s => u s i) k t = Nat.iter k A (u t) i.
Proof.
  intros u k. induction k; intros t i S Hi; [reflexivity|]. cbn [Derive_n].
  rewrite (Derive_ext _ (fun s => Nat.iter k A (u s) i)) by (intros; now apply IHk).
  apply is_derive_unique. now apply iter_derive.
Qed.
Lemma solves_taylor : forall u M H, solves A u -> (forall t, 0 <= t <= H -> bnd (u t) M) -> 0 <= M ->
  forall t h, 0 <= t -> 0 <= h -> t + h <= H ->
  bnd (fun i => u (t + h) i - rsum 5 (fun k => h ^ k * (/ INR (fact k) * Nat.iter k A (u t) i))) (B ^ 5 * h ^ 5 * M).
Proof.
  intros u M H S HB HM t h Ht Hh Hth i Hi.
  assert (PB := proj1 bA).
  destruct (Rle_lt_or_eq_dec 0 h Hh) as [Ph|Eh].
  2:{ subst h. rewrite Rplus_0_r. cbn [rsum pow]. cbn [Nat.iter nat_rect fact]. 
      match goal with |- Rabs ?x <= _ => replace x with 0 by (cbn; field) end. rewrite Rabs_R0. apply Req_le. ring. }
  destruct (Taylor_Lagrange (fun s => u s i) 4 t (t + h) ltac:(lra)) as [z [Hz E]].
  { intros s Hs k Hk. destruct k; [exact I|]. cbn [ex_derive_n].
    apply (ex_derive_ext (fun s => Nat.iter k A (u s) i)). { intros. symmetry. now apply solves_derive_n. }
    eexists. now apply iter_derive. }
  rewrite E. rewrite solves_derive_n by auto.
  replace (t + h - t) with h by ring.
  replace (sum_f_R0 (fun m => h ^ m / INR (fact m) * Derive_n (fun s => u s i) m t) 4)
    with (rsum 5 (fun k => h ^ k * (/ INR (fact k) * Nat.iter k A (u t) i))).
  2:{ cbn [rsum sum_f_R0]. rewrite !solves_derive_n by auto. unfold Rdiv. ring. }
  replace (rsum 5 (fun k => h ^ k * (/ INR (fact k) * Nat.iter k A (u t) i)) + h ^ 5 / INR (fact 5) * Nat.iter 5 A (u z) i
    - rsum 5 (fun k => h ^ k * (/ INR (fact k) * Nat.iter k A (u t) i))) with (h ^ 5 / INR (fact 5) * Nat.iter 5 A (u z) i) by ring.
  assert (Q : Rabs (Nat.iter 5 A (u z) i) <= B ^ 5 * M).
  { apply (proj2 (proj2 (bop_iter n A B 5 bA)) (u z) M HM); auto. apply HB. lra. }
  assert (P5 : 0 <= h ^ 5) by (apply pow_le; lra).
  rewrite Rabs_mult. rewrite Rabs_pos_eq.
  - replace (B ^ 5 * h ^ 5 * M) with (h ^ 5 * (B ^ 5 * M)) by ring. apply Rmult_le_compat; auto.
    + apply Rdiv_le_0_compat; auto. apply INR_fact_lt_0.
    + apply Rabs_pos.
    + replace (INR (fact 5)) with 120 by (simpl; lra). lra.
  - apply Rdiv_le_0_compat; auto. apply INR_fact_lt_0.
Qed.
Lemma solves_bounded : forall u H, solves A u -> exists M, 0 <= M /\ forall t, 0 <= t <= H -> bnd (u t) M.
Proof.
  intros u H S.
  assert (G : forall m, (m <= n)%nat -> exists M, 0 <= M /\ forall t, 0 <= t <= H -> forall i, (i < m)%nat -> Rabs (u t i) <= M).
  { induction m; intros Hm. { exists 0. split; [lra|]. intros; lia. }
    destruct (IHm ltac:(lia)) as [M [PM HM]].
    assert (C : forall c, 0 <= c <= H -> continuity_pt (fun t => Rabs (u t m)) c).
    { intros c _. apply continuity_pt_filterlim. apply (continuous_comp (fun t => u t m) Rabs).
      - apply (ex_derive_continuous (fun t => u t m)). eexists. apply S. lia.
      - apply continuous_Rabs. }
    destruct (Rle_dec 0 H) as [PH|NH].
    - destruct (continuity_ab_maj _ 0 H PH C) as [x [Hx _]]. exists (Rmax M (Rabs (u x m))). split.
      { eapply Rle_trans; [apply PM|apply Rmax_l]. }
      intros t Ht i Hi. destruct (Nat.eq_dec i m) as [->|NE].
      + eapply Rle_trans; [apply (Hx t Ht)|apply Rmax_r].
      + eapply Rle_trans; [apply HM; auto; lia|apply Rmax_l].
    - exists M. split; auto. intros t Ht. lra. }
  destruct (G n ltac:(lia)) as [M [PM HM]]. exists M. split; [exact PM|]. exact HM.
Qed.
End Taylor.

(** A one-step operator that is the flow of A. *)
Lemma oexp_flow : forall H A B B' (T : R -> field -> field), 0 <= H -> bop A B ->
  (forall h, 0 <= h <= H -> bop (T h) B') ->
  (forall f i, (i < n)%nat -> T 0 f i = f i) -> (forall f, solves A (fun t => T t f)) ->
  oexp n H T (fun k f i => / INR (fact k) * Nat.iter k A f i).
Proof.
  intros H A B B' T PH bA bT T0 S.
  assert (PB := proj1 bA). assert (PB' := proj1 (bT 0 ltac:(lra))).
  set (G := 1 + B + B ^ 2 + B ^ 3 + B ^ 4 + B').
  assert (P2 : 0 <= B ^ 2) by (apply pow_le; lra). assert (P3 : 0 <= B ^ 3) by (apply pow_le; lra). assert (P4 : 0 <= B ^ 4) by (apply pow_le; lra).
  exists (B ^ 5 * B'), G. split; [|split].
  - apply Rmult_le_pos; auto. apply pow_le. lra.
  - intros k Hk. apply bop_le with (Rabs (/ INR (fact k)) * B ^ k + Rabs 0 * 1).
    + apply (bop_eq n (fun f i => / INR (fact k) * Nat.iter k A f i + 0 * f i)).
      * apply (bop_lin n (/ INR (fact k)) (Nat.iter k A) (B ^ k) 0 (fun f => f) 1); [now apply bop_iter|apply bop_id].
      * intros. ring.
    + rewrite Rabs_R0, Rmult_0_l, Rplus_0_r. apply Rle_trans with (B ^ k).
      * assert (0 <= B ^ k) by (apply pow_le; lra). rewrite <- (Rmult_1_l (B ^ k)) at 2. apply Rmult_le_compat_r; auto.
        rewrite Rabs_pos_eq. 2:{ left. apply Rinv_0_lt_compat. apply INR_fact_lt_0. }
        rewrite <- Rinv_1. apply Rinv_le_contravar; [lra|]. change 1 with (INR 1). apply le_INR. apply lt_O_fact.
      * unfold G. destruct k as [|[|[|[|[|k]]]]]; [..|lia]; rewrite ?pow_O, ?pow_1; lra.
  - intros h Hh. split. { apply bop_le with B'; auto. unfold G. lra. }
    intros f M HM HF.
    assert (Z := solves_taylor A B bA (fun t => T t f) (B' * M) H (S f)
      ltac:(intros t Ht; apply (proj2 (proj2 (bT t Ht)) f M HM HF)) ltac:(now apply Rmult_le_pos) 0 h ltac:(lra) ltac:(lra) ltac:(lra)).
    eapply bnd_le; [eapply bnd_eq; [apply Z|]|].
    + intros i Hi. cbv beta. rewrite Rplus_0_l. f_equal. apply rsum_ext. intros k Hk. f_equal. f_equal.
      apply (bop_ext n _ _ _ _ i (bop_iter n A B k bA)); auto. intros. symmetry. auto.
    + apply Req_le. ring.
Qed.

(** Global error of a method whose expansion agrees with the exact flow. *)
Lemma global_error : forall H A B T, 0 <= H -> bop A B ->
  oexp n H T (fun k f i => / INR (fact k) * Nat.iter k A f i) ->
  forall u, solves A u -> exists C, 0 <= C /\ forall m h, 0 <= h -> INR m * h <= H ->
    forall f e0, 0 <= e0 -> bnd (fun i => f i - u 0 i) e0 ->
    forall j, (j <= m)%nat -> bnd (fun i => Nat.iter j (T h) f i - u (INR j * h) i) (C * (e0 + h ^ 4)).
Proof.
  intros H A B T PH bA [C [G [PC [Bo BT]]]] u S.
  destruct (solves_bounded A u H S) as [M [PM HM]].
  assert (PG := proj1 (Bo 0%nat ltac:(lia))). assert (PB := proj1 bA).
  (* stability *)
  destruct (oexp_trunc n H PH T _ (ex_intro _ C (ex_intro _ G (conj PC (conj Bo BT)))) 1 ltac:(lia)) as [D [PD HD]].
  assert (ST : forall h f E, 0 <= h <= H -> 0 <= E -> bnd f E -> bnd (T h f) ((1 + D * h) * E)).
  { intros h f E Hh PE HF. assert (Q := HD h Hh f E PE HF).
    eapply bnd_le; [eapply bnd_eq; [apply (bnd_plus n _ _ _ _ Q HF)|]|].
    - intros i Hi. cbn [rsum pow]. cbn [Nat.iter nat_rect fact]. simpl INR. field.
    - apply Req_le. rewrite pow_1. ring. }
  set (L := C * M + B ^ 5 * M).
  assert (PL : 0 <= L). { assert (0 <= C * M) by now apply Rmult_le_pos. assert (0 <= B ^ 5 * M) by (apply Rmult_le_pos; auto; apply pow_le; lra). unfold L; lra. }
  assert (ED : 0 < exp (D * H)) by apply exp_pos.
  exists (exp (D * H) * (1 + L * H)). split. { apply Rmult_le_pos; [lra|]. assert (0 <= L * H) by now apply Rmult_le_pos. lra. }
  intros m h Ph Hm f e0 P0 Hf.
  assert (G1 : forall j, (j <= m)%nat -> bnd (fun i => Nat.iter j (T h) f i - u (INR j * h) i) ((1 + D * h) ^ j * (e0 + INR j * (L * h ^ 5)))).
  { assert (P5 : 0 <= h ^ 5) by now apply pow_le. assert (PDh : 0 <= D * h) by now apply Rmult_le_pos.
    induction j; intros Hj.
    - eapply bnd_le; [eapply bnd_eq; [apply Hf|]|].
      + intros i Hi. cbn [Nat.iter nat_rect]. now replace (INR 0 * h) with 0 by (simpl; ring).
      + simpl. lra.
    - assert (IH := IHj ltac:(lia)). set (E := (1 + D * h) ^ j * (e0 + INR j * (L * h ^ 5))) in *.
      assert (Pj : 0 <= INR j) by apply pos_INR. assert (PLh : 0 <= L * h ^ 5) by now apply Rmult_le_pos.
      assert (Pp : 1 <= (1 + D * h) ^ j) by (apply pow_R1_Rle; lra).
      assert (PE : 0 <= E). { apply Rmult_le_pos; [lra|]. assert (0 <= INR j * (L * h ^ 5)) by now apply Rmult_le_pos. lra. }
      assert (Lj : INR (Datatypes.S j) * h <= H). { apply Rle_trans with (INR m * h); auto. apply Rmult_le_compat_r; auto. now apply le_INR. }
      assert (Pt : 0 <= INR j * h) by now apply Rmult_le_pos.
      rewrite S_INR in Lj.
      assert (Hh : 0 <= h <= H) by lra.
      assert (HT : 0 <= INR j * h <= H) by lra.
      assert (Q1 := ST h _ E Hh PE IH).
      assert (Q2 := proj2 (BT h Hh) (u (INR j * h)) M PM (HM _ HT)).
      assert (Q3 := solves_taylor A B bA u M H S HM PM (INR j * h) h Pt Ph ltac:(lra)).
      assert (Q := bnd_plus n _ _ _ _ Q1 (bnd_plus n _ _ _ _ Q2 (bnd_scal n (-1) _ _ Q3))).
      eapply bnd_le; [eapply bnd_eq; [apply Q|]|].
      + intros i Hi. cbv beta. change (Nat.iter (Datatypes.S j) (T h) f) with (T h (Nat.iter j (T h) f)).
        rewrite (bop_minus n _ _ _ _ i (proj1 (BT h Hh)) Hi). rewrite S_INR. replace ((INR j + 1) * h) with (INR j * h + h) by ring. ring.
      + replace (Rabs (-1)) with 1 by (rewrite Rabs_left; lra). rewrite S_INR, Rmult_1_l.
        replace (C * h ^ 5 * M + B ^ 5 * h ^ 5 * M) with (L * h ^ 5) by (unfold L; ring).
        replace ((1 + D * h) ^ Datatypes.S j * (e0 + (INR j + 1) * (L * h ^ 5))) with ((1 + D * h) * E + (1 + D * h) ^ Datatypes.S j * (L * h ^ 5)) by (unfold E; cbn [pow]; ring).
        apply Rplus_le_compat_l. rewrite <- (Rmult_1_l (L * h ^ 5)) at 1. apply Rmult_le_compat_r; auto. apply pow_R1_Rle. lra. }
  intros j Hj. eapply bnd_le; [apply G1; auto|].
  assert (PDh : 0 <= D * h) by now apply Rmult_le_pos. assert (Pj : 0 <= INR j) by apply pos_INR.
  assert (Lj : INR j * h <= H). { apply Rle_trans with (INR m * h); auto. apply Rmult_le_compat_r; auto. now apply le_INR. }
  assert (P4 : 0 <= h ^ 4) by now apply pow_le.
  assert (X1 : (1 + D * h) ^ j <= exp (D * H)).
  { apply Rle_trans with (exp (D * h) ^ j).
    - apply pow_incr. split; [lra|]. apply exp_ineq1_le.
    - assert (EP : forall k x, exp x ^ k = exp (INR k * x)).
      { induction k as [|k IHk]; intros x. { simpl. now rewrite Rmult_0_l, exp_0. }
        rewrite S_INR. cbn [pow]. rewrite IHk, <- exp_plus. f_equal. ring. }
      rewrite EP. replace (INR j * (D * h)) with (D * (INR j * h)) by ring.
      destruct (Rle_lt_or_eq_dec (D * (INR j * h)) (D * H)) as [LT|EQ]; [now apply Rmult_le_compat_l| |].
      + left. now apply exp_increasing.
      + rewrite EQ. lra. }
  assert (X2 : INR j * (L * h ^ 5) <= L * H * h ^ 4).
  { replace (INR j * (L * h ^ 5)) with (L * (INR j * h) * h ^ 4) by ring. apply Rmult_le_compat_r; auto. now apply Rmult_le_compat_l. }
  assert (PLH : 0 <= L * H) by now apply Rmult_le_pos.
  apply Rle_trans with (exp (D * H) * (e0 + L * H * h ^ 4)).
  - apply Rmult_le_compat; try lra. { apply pow_le. lra. }
    assert (0 <= INR j * (L * h ^ 5)) by (apply Rmult_le_pos; auto; apply Rmult_le_pos; auto; now apply pow_le). lra.
  - replace (exp (D * H) * (1 + L * H) * (e0 + h ^ 4)) with (exp (D * H) * ((1 + L * H) * (e0 + h ^ 4))) by ring.
    apply Rmult_le_compat_l; [lra|].
    assert (0 <= L * H * e0) by now apply Rmult_le_pos. lra.
Qed.

(** Existence of the exact solution. *)
Lemma solution_exists : forall A B f, bop A B -> exists u, (forall i, (i < n)%nat -> u 0 i = f i) /\ solves A u.
Proof.
  intros A B f bA. destruct (bnd_exists n f) as [M [PM HM]]. assert (PB := proj1 bA).
  set (a := fun i k => Nat.iter k A f i / INR (fact k)).
  assert (AB : forall i k, (i < n)%nat -> Rabs (a i k) <= B ^ k / INR (fact k) * M).
  { intros i k Hi. unfold a, Rdiv. rewrite Rabs_mult, (Rabs_pos_eq (/ _)) by (left; apply Rinv_0_lt_compat; apply INR_fact_lt_0).
    replace (B ^ k * / INR (fact k) * M) with (B ^ k * M * / INR (fact k)) by ring.
    apply Rmult_le_compat_r. { left; apply Rinv_0_lt_compat; apply INR_fact_lt_0. }
    apply (proj2 (proj2 (bop_iter n A B k bA)) f M PM HM i Hi). }
  assert (CV : forall i x, (i < n)%nat -> Rbar_lt (Rabs x) (CV_radius (a i))).
  { intros i x Hi. apply Rbar_lt_le_trans with (Rabs x + 1); [simpl; lra|].
    apply (proj1 (CV_radius_bounded (a i))).
    set (r := Rabs x + 1). assert (Pr : 0 <= r) by (unfold r; assert (Q := Rabs_pos x); lra).
    assert (PBr : 0 <= B * r) by now apply Rmult_le_pos.
    destruct (maj_by_pos (fun k => (B * r) ^ k / INR (fact k))) as [Z [PZ HZ]]. { exists 0. apply cv_speed_pow_fact. }
    exists (M * Z). intros k. rewrite Rabs_mult. rewrite (Rabs_pos_eq (r ^ k)) by now apply pow_le.
    apply Rle_trans with (B ^ k / INR (fact k) * M * r ^ k). { apply Rmult_le_compat_r; [now apply pow_le|auto]. }
    replace (B ^ k / INR (fact k) * M * r ^ k) with (M * ((B * r) ^ k / INR (fact k))) by (rewrite Rpow_mult_distr; field; apply INR_fact_neq_0).
    apply Rmult_le_compat_l; auto. eapply Rle_trans; [apply RRle_abs|apply HZ]. }
  assert (EX : forall i x, (i < n)%nat -> ex_pseries (a i) x).
  { intros i x Hi. apply CV_radius_inside. now apply CV. }
  exists (fun t i => PSeries (a i) t). split.
  - intros i Hi. rewrite PSeries_0. unfold a. simpl. lra.
  - intros t i Hi. assert (D := is_derive_PSeries (a i) t (CV i t Hi)).
    replace (A (fun i0 => PSeries (a i0) t) i) with (PSeries (PS_derive (a i)) t); [exact D|].
    rewrite (bop_matrix A B _ i bA Hi).
    rewrite (PSeries_ext _ (fun k => rsum n (fun j => a j k * A (delta j) i))).
    + assert (G : forall c m, (m <= n)%nat -> @ex_pseries R_AbsRing R_NormedModule (fun k => rsum m (fun j => a j k * c j)) t /\
        (PSeries (fun k => rsum m (fun j => a j k * c j)) t : R) = rsum m (fun j => PSeries (a j) t * c j)).
      { intros c. induction m; intros Hm; cbn [rsum].
        - split; [|apply PSeries_const_0]. apply (ex_pseries_ext (fun k => 0)); [reflexivity|]. apply CV_radius_inside. rewrite CV_radius_const_0. exact I.
        - destruct (IHm ltac:(lia)) as [E1 E2].
          assert (E3 : ex_pseries (PS_scal (c m) (a m)) t). { apply ex_pseries_scal; [apply Rmult_comm|apply EX; lia]. }
          assert (E4 : forall k, PS_plus (fun k => rsum m (fun j => a j k * c j)) (PS_scal (c m) (a m)) k = rsum m (fun j => a j k * c j) + a m k * c m).
          { intros k. unfold PS_plus, PS_scal, plus, scal, mult. cbn. unfold mult. cbn. ring. }
          split.
          + apply (ex_pseries_ext _ _ _ E4). now apply ex_pseries_plus.
          + rewrite <- (PSeries_ext _ _ _ E4). rewrite PSeries_plus by auto. rewrite E2, PSeries_scal. ring. }
      apply (G (fun j => A (delta j) i) n ltac:(lia)).
    + intros k. unfold PS_derive, a. change (Nat.iter (S k) A f i) with (A (Nat.iter k A f) i).
      rewrite (bop_matrix A B _ i bA Hi). change (fact (S k)) with (S k * fact k)%nat. rewrite mult_INR.
      rewrite (rsum_ext n (fun j => Nat.iter k A f j / INR (fact k) * A (delta j) i) (fun j => / INR (fact k) * (Nat.iter k A f j * A (delta j) i))) by (intros; unfold Rdiv; ring).
      rewrite rsum_scal. field. split; [apply INR_fact_neq_0|apply not_0_INR; lia].
Qed.
End N.
