(** Error of the composite Simpson rule of a smooth function. *)
From Coq Require Import Reals List Bool Arith Lia Lra.
From Coquelicot Require Import Coquelicot.
From Coq Require Import List.
From Verif Require Import Base RSum UnitCellProofs.
Import ListNotations.
Local Open Scope R_scope.

Definition derivatives (d : nat -> R -> R) : Prop := forall k s, is_derive (d k) s (d (S k) s).
Definition smooth (H : R) (g : R -> R) : Prop :=
  exists d, (forall s, d 0%nat s = g s) /\ derivatives d /\
    forall k, exists M, 0 <= M /\ forall s, 0 <= s <= H -> Rabs (d k s) <= M.

Lemma smooth_mult : forall H f g, smooth H f -> smooth H g -> smooth H (fun s => f s * g s).
Proof.
  intros H f g [a [A0 [A1 A2]]] [b [B0 [B1 B2]]].
  set (D := fun l : list (nat * nat) => flat_map (fun jk => [(S (fst jk), snd jk); (fst jk, S (snd jk))]) l).
  set (ev := fun s (jk : nat * nat) => a (fst jk) s * b (snd jk) s).
  exists (fun k s => lsum (ev s) (Nat.iter k D [(0, 0)]%nat)). split; [|split].
  - intros s. cbn. unfold ev. cbn. rewrite A0, B0. ring.
  - intros k s. change (Nat.iter (S k) D [(0, 0)%nat]) with (D (Nat.iter k D [(0, 0)%nat])).
    induction (Nat.iter k D [(0, 0)%nat]) as [|[i j] l IH]; cbn [lsum D flat_map app].
    + apply (is_derive_const 0).
    + fold (D l). rewrite <- Rplus_assoc. apply (is_derive_plus (fun s => ev s (i, j)) (fun s => lsum (ev s) l)); [|exact IH].
      unfold ev. cbn [fst snd]. apply (is_derive_Rmult (a i) (b j)); [apply A1|apply B1].
  - intros k. induction (Nat.iter k D [(0, 0)%nat]) as [|[i j] l [M [PM HM]]].
    + exists 0. split; [lra|]. intros. cbn. rewrite Rabs_R0. lra.
    + destruct (A2 i) as [M1 [P1 H1]]. destruct (B2 j) as [M2 [P2 H2]]. exists (M1 * M2 + M). split.
      { assert (0 <= M1 * M2) by now apply Rmult_le_pos. lra. }
      intros s Hs. cbn [lsum]. eapply Rle_trans; [apply Rabs_triang|]. apply Rplus_le_compat; auto.
      unfold ev. cbn [fst snd]. rewrite Rabs_mult. apply Rmult_le_compat; auto; apply Rabs_pos.
Qed.

Lemma smooth_rev : forall H g, smooth H g -> smooth H (fun s => g (H - s)).
Proof.
  intros H g [d [D0 [D1 D2]]]. exists (fun k s => (-1) ^ k * d k (H - s)). split; [|split].
  - intros s. rewrite D0. simpl. ring.
  - intros k s. cbn [pow]. 
    replace (-1 * (-1) ^ k * d (S k) (H - s)) with ((-1) ^ k * (-1 * d (S k) (H - s))) by ring.
    apply (is_derive_scal (fun s => d k (H - s))).
    apply (is_derive_comp (d k) (fun s => H - s) s (d (S k) (H - s)) (-1)); [apply D1|].
    auto_derive; [exact I|]. ring.
  - intros k. destruct (D2 k) as [M [PM HM]]. exists M. split; auto. intros s Hs. rewrite Rabs_mult.
    replace (Rabs ((-1) ^ k)) with 1. { rewrite Rmult_1_l. apply HM. lra. }
    rewrite <- RPow_abs. replace (Rabs (-1)) with 1 by (rewrite Rabs_left; lra). now rewrite pow1.
Qed.

Lemma derivatives_n : forall d k s, derivatives d -> Derive_n (d 0%nat) k s = d k s.
Proof.
  intros d k s D. revert s. induction k; intros s; [reflexivity|]. cbn [Derive_n].
  rewrite (Derive_ext _ (d k)) by auto. apply is_derive_unique. apply D.
Qed.
Lemma derivatives_taylor : forall d H n M, derivatives d -> 0 <= M ->
  (forall s, 0 <= s <= H -> Rabs (d (S n) s) <= M) ->
  forall a h, 0 <= a -> 0 <= h -> a + h <= H ->
  Rabs (d 0%nat (a + h) - rsum (S n) (fun m => h ^ m / INR (fact m) * d m a)) <= M * h ^ S n.
Proof.
  intros d H n M D PM HM a h Ha Hh Hah.
  destruct (Rle_lt_or_eq_dec 0 h Hh) as [Ph|Eh].
  - destruct (Taylor_Lagrange (d 0%nat) n a (a + h) ltac:(lra)) as [z [Hz E]].
    { intros s Hs k Hk. destruct k; [exact I|]. cbn [ex_derive_n]. apply (ex_derive_ext (d k)).
      { intros. symmetry. now apply derivatives_n. } eexists. apply D. }
    rewrite E, derivatives_n by auto. replace (a + h - a) with h by ring.
    replace (sum_f_R0 (fun m => h ^ m / INR (fact m) * Derive_n (d 0%nat) m a) n) with (rsum (S n) (fun m => h ^ m / INR (fact m) * d m a)).
    2:{ clear E Hz HM. induction n; cbn [sum_f_R0 rsum].
        - rewrite derivatives_n by auto. ring.
        - cbn [rsum] in IHn. rewrite IHn, derivatives_n by auto. ring. }
    match goal with |- Rabs (?x + ?y - ?x) <= _ => replace (x + y - x) with y by ring end.
    assert (P5 : 0 <= h ^ S n) by (apply pow_le; lra).
    rewrite Rabs_mult, Rabs_pos_eq. 2:{ apply Rdiv_le_0_compat; auto. apply INR_fact_lt_0. }
    rewrite Rmult_comm. apply Rmult_le_compat; auto; [apply Rabs_pos| |apply HM; lra|].
    { apply Rdiv_le_0_compat; auto. apply INR_fact_lt_0. }
    rewrite <- (Rmult_1_r (h ^ S n)) at 2. apply Rmult_le_compat_l; auto.
    rewrite <- Rinv_1. apply Rinv_le_contravar; [lra|]. change 1 with (INR 1). apply le_INR. apply lt_O_fact.
  - subst h. rewrite Rplus_0_r. rewrite rsum_S_first.
    rewrite (rsum_ext n _ (fun _ => 0)). 2:{ intros. cbn [pow]. unfold Rdiv. ring. }
    rewrite rsum_zero. cbn [pow fact]. simpl INR.
    replace (d 0%nat a - (1 / 1 * d 0%nat a + 0)) with 0 by field. rewrite Rabs_R0. apply Req_le. ring.
Qed.

(** The composite rule with 2 t intervals of width h; y j is the value at j h. *)
Definition simpson (t : nat) (h : R) (y : nat -> R) : R :=
  rsum t (fun p => h / 3 * (y (2 * p)%nat + 4 * y (2 * p + 1)%nat + y (2 * p + 2)%nat)).

Lemma simpson_panel : forall d H M, derivatives d -> 0 <= M ->
  (forall s, 0 <= s <= H -> Rabs (d 5%nat s) <= M) ->
  forall a h, 0 <= a -> 0 <= h -> a + 2 * h <= H ->
  Rabs (d 0%nat (a + 2 * h) - d 0%nat a - h / 3 * (d 1%nat a + 4 * d 1%nat (a + h) + d 1%nat (a + 2 * h))) <= 40 * M * h ^ 5.
Proof.
  intros d H M D PM HM a h Ha Hh Hah.
  assert (D' : derivatives (fun k => d (S k))) by (intros k s; apply D).
  assert (T0 := derivatives_taylor d H 4 M D PM HM a (2 * h) Ha ltac:(lra) Hah).
  assert (T1 := derivatives_taylor (fun k => d (S k)) H 3 M D' PM HM a h Ha Hh ltac:(lra)).
  assert (T2 := derivatives_taylor (fun k => d (S k)) H 3 M D' PM HM a (2 * h) Ha ltac:(lra) Hah).
  cbv beta in T1, T2.
  set (r0 := d 0%nat (a + 2 * h) - rsum 5 (fun m => (2 * h) ^ m / INR (fact m) * d m a)) in T0.
  set (r1 := d 1%nat (a + h) - rsum 4 (fun m => h ^ m / INR (fact m) * d (S m) a)) in T1.
  set (r2 := d 1%nat (a + 2 * h) - rsum 4 (fun m => (2 * h) ^ m / INR (fact m) * d (S m) a)) in T2.
  replace (d 0%nat (a + 2 * h) - d 0%nat a - h / 3 * (d 1%nat a + 4 * d 1%nat (a + h) + d 1%nat (a + 2 * h)))
    with (r0 + - (h / 3) * (4 * r1 + r2)).
  2:{ unfold r0, r1, r2. cbn [rsum pow fact]. simpl INR. field. }
  assert (P4 : 0 <= h ^ 4) by (apply pow_le; lra).
  apply Rle_trans with (M * (2 * h) ^ 5 + h / 3 * (4 * (M * h ^ 4) + M * (2 * h) ^ 4)).
  - eapply Rle_trans; [apply Rabs_triang|]. apply Rplus_le_compat; [exact T0|].
    rewrite Rabs_mult, Rabs_Ropp, (Rabs_pos_eq (h / 3)) by lra. apply Rmult_le_compat_l; [lra|].
    eapply Rle_trans; [apply Rabs_triang|]. rewrite Rabs_mult, (Rabs_pos_eq 4) by lra.
    apply Rplus_le_compat; [|exact T2]. apply Rmult_le_compat_l; [lra|exact T1].
  - assert (0 <= M * (h * h ^ 4)) by (apply Rmult_le_pos; auto; apply Rmult_le_pos; auto).
    replace ((2 * h) ^ 5) with (32 * (h * h ^ 4)) by ring. replace ((2 * h) ^ 4) with (16 * h ^ 4) by ring.
    replace (h ^ 5) with (h * h ^ 4) by ring. nra.
Qed.

Lemma smooth_continuous : forall H g s, smooth H g -> continuous g s.
Proof.
  intros H g s [d [D0 [D1 _]]]. apply (continuous_ext (d 0%nat)); auto.
  apply (ex_derive_continuous (d 0%nat)). eexists. apply D1.
Qed.
Lemma simpson_error : forall L g, 0 <= L -> smooth L g -> exists C, 0 <= C /\
  forall t h, 0 <= h -> INR (2 * t) * h = L ->
  Rabs (simpson t h (fun j => g (INR j * h)) - RInt g 0 L) <= C * h ^ 4.
Proof.
  intros L g PL SG. assert (SG' := SG). destruct SG' as [d [D0 [D1 D2]]].
  destruct (D2 4%nat) as [M [PM HM]].
  set (G := fun k => match k with O => fun s => RInt g 0 s | S k => d k end).
  assert (DG : derivatives G).
  { intros [|k] s; cbn [G]; [|apply D1]. rewrite D0.
    apply (is_derive_RInt g (fun s => RInt g 0 s) 0).
    - exists (mkposreal 1 Rlt_0_1). intros y _. apply (@RInt_correct R_CompleteNormedModule). apply (@ex_RInt_continuous R_CompleteNormedModule).
      intros z _. now apply (smooth_continuous L).
    - now apply (smooth_continuous L). }
  exists (40 * M * L). split. { apply Rmult_le_pos; lra. }
  intros t h Ph E.
  assert (Q : forall m, (m <= t)%nat -> Rabs (simpson m h (fun j => g (INR j * h)) - RInt g 0 (INR (2 * m) * h)) <= INR m * (40 * M * h ^ 5)).
  { induction m; intros Hm.
    - simpl. rewrite Rmult_0_l. rewrite RInt_point. unfold zero. cbn. rewrite Rminus_0_r, Rabs_R0. lra.
    - assert (IH := IHm ltac:(lia)).
      assert (LE : INR (2 * m) * h + 2 * h <= L).
      { rewrite <- E. replace (INR (2 * m) * h + 2 * h) with (INR (2 * S m) * h). { apply Rmult_le_compat_r; auto. apply le_INR. lia. }
        replace (2 * S m)%nat with (2 * m + 2)%nat by lia. rewrite plus_INR. simpl (INR 2). ring. }
      assert (P := simpson_panel G L M DG PM HM (INR (2 * m) * h) h ltac:(apply Rmult_le_pos; auto; apply pos_INR) Ph LE).
      cbn [G] in P. rewrite !D0 in P.
      replace (INR (2 * S m) * h) with (INR (2 * m) * h + 2 * h).
      2:{ replace (2 * S m)%nat with (2 * m + 2)%nat by lia. rewrite plus_INR. simpl (INR 2). ring. }
      unfold simpson in *. cbn [rsum].
      replace (INR (2 * m + 1) * h) with (INR (2 * m) * h + h) by (rewrite plus_INR; simpl (INR 1); ring).
      replace (INR (2 * m + 2) * h) with (INR (2 * m) * h + 2 * h) by (rewrite plus_INR; simpl (INR 2); ring).
      rewrite S_INR.
      match goal with |- Rabs (?s + ?y - ?z) <= _ => match type of IH with Rabs (_ - ?i) <= _ =>
        replace (s + y - z) with ((s - i) + - (z - i - y)) by ring end end.
      eapply Rle_trans; [apply Rabs_triang|]. rewrite Rabs_Ropp. lra. }
  assert (Q' := Q t ltac:(lia)). rewrite E in Q'. eapply Rle_trans; [exact Q'|].
  replace (INR t * (40 * M * h ^ 5)) with (40 * M * (INR t * h) * h ^ 4) by ring.
  apply Rmult_le_compat_r. { now apply pow_le. } apply Rmult_le_compat_l; [lra|].
  rewrite <- E. apply Rmult_le_compat_r; auto. apply le_INR. lia.
Qed.

(** Sums over odd and even interior points, as in the code. *)
Lemma simpson_code : forall t h y, (1 <= t)%nat ->
  (y 0%nat + y (2 * t)%nat + rsum (2 * t) (fun j => if Nat.odd j then y j * 4 else 0)
   + rsum (2 * t - 1) (fun j => if Nat.even j && (2 <=? j)%nat then y j * 2 else 0)) * (h / 3) = simpson t h y.
Proof.
  intros t h y Ht. unfold simpson. rewrite rsum_scal, Rmult_comm. f_equal.
  induction t as [|t IH]; [lia|]. destruct t as [|t].
  - cbn. ring.
  - set (m := S t) in *. assert (IH' := IH ltac:(lia)). clear IH.
    assert (O1 : Nat.odd (2 * m) = false) by (rewrite <- Nat.negb_even; rewrite Nat.even_mul; auto).
    assert (O2 : Nat.odd (S (2 * m)) = true) by (rewrite Nat.odd_succ, Nat.even_mul; auto).
    assert (E1 : Nat.even (2 * m) = true) by (rewrite Nat.even_mul; auto).
    assert (E2 : Nat.even (2 * m - 1) = false).
    { replace (2 * m - 1)%nat with (S (2 * t)) by lia. rewrite Nat.even_succ, <- Nat.negb_even, Nat.even_mul. reflexivity. }
    replace (2 * S m)%nat with (S (S (2 * m))) by lia.
    replace (S (S (2 * m)) - 1)%nat with (S (S (2 * m - 1))) by lia.
    cbn [rsum]. rewrite <- IH'. rewrite O1, O2. replace (S (2 * m - 1)) with (2 * m)%nat by lia.
    rewrite E1, E2. cbn [andb]. replace (2 <=? 2 * m)%nat with true by (symmetry; apply Nat.leb_le; lia).
    replace (2 * m + 1)%nat with (S (2 * m)) by lia. replace (2 * m + 2)%nat with (S (S (2 * m))) by lia.
    ring.
Qed.
Lemma simpson_diff : forall t h y z e, 0 <= h -> (forall j, (j <= 2 * t)%nat -> Rabs (y j - z j) <= e) ->
  Rabs (simpson t h y - simpson t h z) <= INR (2 * t) * h * e.
Proof.
  intros t h y z e Ph HE. unfold simpson.
  assert (G : forall m, (m <= t)%nat -> Rabs (rsum m (fun p => h / 3 * (y (2 * p)%nat + 4 * y (2 * p + 1)%nat + y (2 * p + 2)%nat))
     - rsum m (fun p => h / 3 * (z (2 * p)%nat + 4 * z (2 * p + 1)%nat + z (2 * p + 2)%nat))) <= INR (2 * m) * h * e).
  { induction m; intros Hm. { simpl. rewrite Rminus_0_r, Rabs_R0. lra. }
    assert (IH := IHm ltac:(lia)). cbn [rsum].
    assert (A := HE (2 * m)%nat ltac:(lia)). assert (B := HE (2 * m + 1)%nat ltac:(lia)). assert (C := HE (2 * m + 2)%nat ltac:(lia)).
    replace (2 * S m)%nat with (2 * m + 2)%nat by lia. rewrite plus_INR. simpl (INR 2).
    set (dy := y (2 * m)%nat - z (2 * m)%nat) in *. set (dy1 := y (2 * m + 1)%nat - z (2 * m + 1)%nat) in *. set (dy2 := y (2 * m + 2)%nat - z (2 * m + 2)%nat) in *.
    match goal with |- Rabs (?a + _ - (?b + _)) <= _ => match type of IH with Rabs ?x <= _ =>
      match goal with |- Rabs ?w <= _ => replace w with (x + h / 3 * (dy + (4 * dy1 + dy2))) by (unfold dy, dy1, dy2; ring) end end end.
    eapply Rle_trans; [apply Rabs_triang|].
    assert (Q : Rabs (h / 3 * (dy + (4 * dy1 + dy2))) <= h / 3 * (e + (4 * e + e))).
    { rewrite Rabs_mult, (Rabs_pos_eq (h / 3)) by lra. apply Rmult_le_compat_l; [lra|].
      eapply Rle_trans; [apply Rabs_triang|]. apply Rplus_le_compat; auto.
      eapply Rle_trans; [apply Rabs_triang|]. apply Rplus_le_compat; auto.
      rewrite Rabs_mult, (Rabs_pos_eq 4) by lra. lra. }
    lra. }
  now apply G.
Qed.
