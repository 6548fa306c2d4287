(** C80: what the order-parameter analyzers report. *)
From Coq Require Import Reals ZArith List Arith Bool Lia Lra Classical.
From Verif Require Import Base RSum MeshSpec Mesh MeshProofs UnitCell UnitCellProofs ShiftMin PropsShiftMin
  Fft FftProofs PropsFft OrderParam OrderParamProofs.
Import ListNotations.
Local Open Scope R_scope.

(* ---------- specification ---------- *)
(** Fourier coefficient of a field at any wavevector of the full grid. *)
Definition coef (dims : list Z) (f : nat -> R) (p : list Z) : R * R :=
  (rsum (Z.to_nat (prodZ dims)) (fun r => f r * cos (phase dims p (gridPos dims r))) / IZR (prodZ dims),
   - rsum (Z.to_nat (prodZ dims)) (fun r => f r * sin (phase dims p (gridPos dims r))) / IZR (prodZ dims)).
Definition power (dims : list Z) (f : nat -> R) (p : list Z) : R :=
  fst (coef dims f p) ^ 2 + snd (coef dims f p) ^ 2.
Definition isZero (p : list Z) : Prop := Forall (fun a => a = 0%Z) p.
(** p and -p are the same point of the grid. *)
Definition self_inverse (dims p : list Z) : Prop := opposite dims p p.
(** Share of a wavevector in its pair {p, -p}. *)
Definition is_share (dims p : list Z) (c : R) : Prop :=
  (isZero p -> c = 0) /\ (~ isZero p -> self_inverse dims p -> c = 1) /\
  (~ isZero p -> ~ self_inverse dims p -> c = 1 / 2).
(** S is the sum over all pairs {p, -p} of nonzero wavevectors of the full grid
    of the fourth power of the amplitude. *)
Definition is_pair_sum (dims : list Z) (f : nat -> R) (S : R) : Prop :=
  exists c, (forall p, in_box dims p -> is_share dims p (c p)) /\
  S = fullgrid_sum dims (fun p => c p * power dims f p ^ 2).

(* ---------- the grid ---------- *)
Lemma power_normSq : forall dims f r, positive dims ->
  normSq (fftForward dims f r) = power dims f (gridPos (computeKMesh dims) r).
Proof.
  intros dims f r HP. unfold normSq, power, coef, fftForward, theta. cbn [fst snd].
  destruct (INR_nR dims HP) as [E P]. rewrite E in *. unfold nR. rewrite gridSize_prodZ.
  unfold Rdiv. rewrite !Rmult_1_l. reflexivity.
Qed.
Lemma power_nonneg : forall dims f p, 0 <= power dims f p.
Proof. intros. unfold power. nra. Qed.

Lemma opposite_unique : forall dims p p', in_box dims p -> in_box dims p' -> opposite dims p p' -> p' = negmod dims p.
Proof.
  intros dims p p' H. revert p'. induction H as [|d a ds p Ha Hp IH]; intros p' H' O; inversion H'; subst; cbn [negmod]; auto.
  cbn [opposite] in O. destruct O as [O1 O2]. f_equal; [|apply IH; auto].
  apply Z.mod_divide in O1; [|lia]. destruct O1 as [c Hc]. apply Z.mod_unique with (- c)%Z; lia.
Qed.
Lemma opposite_len : forall dims p p', opposite dims p p' -> length p = length dims /\ length p' = length dims.
Proof.
  induction dims as [|d ds IH]; intros [|a p] [|b p'] H; cbn [opposite] in H; try contradiction; auto.
  destruct H as [_ H]. apply IH in H. cbn [length]. lia.
Qed.
Lemma opposite_sym : forall dims p p', opposite dims p p' -> opposite dims p' p.
Proof.
  induction dims as [|d ds IH]; intros [|a p] [|b p'] H; cbn [opposite] in *; auto.
  destruct H. split; auto. rewrite Z.add_comm. auto.
Qed.
Lemma self_inverse_neg : forall dims p p', in_box dims p -> in_box dims p' -> opposite dims p p' ->
  self_inverse dims p -> p' = p.
Proof.
  intros dims p p' H H' O S. rewrite (opposite_unique dims p p') by auto. symmetry. apply opposite_unique; auto.
Qed.
Lemma power_inversion : forall dims f, positive dims -> inversion_symmetric dims (power dims f).
Proof.
  intros dims f HP k k' Hk Hk' O. rewrite (opposite_unique dims k k') by auto. unfold power, coef. cbn [fst snd].
  assert (PH : forall r, (r < Z.to_nat (prodZ dims))%nat ->
    cos (phase dims (negmod dims k) (gridPos dims r)) = cos (phase dims k (gridPos dims r)) /\
    sin (phase dims (negmod dims k) (gridPos dims r)) = - sin (phase dims k (gridPos dims r))).
  { intros r Hr. destruct (phase_neg dims k (gridPos dims r) HP) as [z Z].
    - apply in_box_len; auto.
    - apply in_box_len. apply gridPos_in_box; auto.
    - rewrite Z, cos_2PIZ, sin_2PIZ, cos_neg, sin_neg. auto. }
  rewrite (rsum_ext _ (fun r => f r * cos (phase dims (negmod dims k) (gridPos dims r)))
                      (fun r => f r * cos (phase dims k (gridPos dims r)))).
  2:{ intros r Hr. destruct (PH r Hr) as [-> _]. auto. }
  rewrite (rsum_ext _ (fun r => f r * sin (phase dims (negmod dims k) (gridPos dims r)))
                      (fun r => - (f r * sin (phase dims k (gridPos dims r))))).
  2:{ intros r Hr. destruct (PH r Hr) as [_ ->]. ring. }
  rewrite rsum_opp. unfold Rdiv. ring.
Qed.
Lemma isZero_neg : forall dims p p', in_box dims p -> in_box dims p' -> opposite dims p p' -> isZero p -> isZero p'.
Proof.
  intros dims p p' H H' O Z. rewrite (opposite_unique dims p p') by auto. clear H' O p'.
  induction H; cbn [negmod]; [constructor|]. inversion Z; subst. constructor; [|apply IHForall2; auto].
  apply Z.mod_0_l. lia.
Qed.

Lemma nK_eq : forall dims, nK dims = nR (computeKMesh dims).
Proof. reflexivity. Qed.
Lemma half_in_box : forall dims p, dims <> [] -> positive dims -> in_box (computeKMesh dims) p -> in_box dims p.
Proof.
  intros dims p Hne HP H. destruct (snoc_cases dims Hne) as [ds [n ->]]. rewrite computeKMesh_snoc in H.
  apply in_box_snoc in H. destruct H as [q [l [-> [Hq Hl]]]]. apply in_box_snoc. exists q, l. split; auto. split; auto.
  apply Forall_app in HP. destruct HP as [_ HP]. inversion HP; subst. rewrite Z.quot_div_nonneg in Hl by lia.
  Z.div_mod_to_equations. lia.
Qed.
Lemma half_pos : forall dims r, dims <> [] -> positive dims -> (r < nK dims)%nat ->
  in_box (computeKMesh dims) (gridPos (computeKMesh dims) r) /\ in_box dims (gridPos (computeKMesh dims) r).
Proof.
  intros dims r Hne HP Hr. assert (H : in_box (computeKMesh dims) (gridPos (computeKMesh dims) r)).
  { apply gridPos_in_box; auto. apply kmesh_positive; auto. }
  split; auto. apply half_in_box; auto.
Qed.
Lemma rank_of : forall dims p, positive dims -> in_box dims p -> exists r, (r < nR dims)%nat /\ gridPos dims r = p.
Proof.
  intros dims p HP H. exists (Z.to_nat (rk dims p)). assert (B := rk_range _ _ H). split.
  - unfold nR. rewrite gridSize_prodZ. lia.
  - rewrite gridPos_ps by auto. rewrite Z2Nat.id by lia. apply ps_rk; auto.
Qed.
Lemma nR_pos : forall dims, positive dims -> (0 < nR dims)%nat.
Proof. intros dims HP. destruct (INR_nR dims HP) as [_ P]. destruct (nR dims); [cbn in P; lra|lia]. Qed.
Lemma gridPos_zero : forall dims r, positive dims -> (r < nR dims)%nat -> (isZero (gridPos dims r) <-> r = 0%nat).
Proof.
  intros dims r HP Hr. assert (Z0 : gridPos dims 0 = repeat 0%Z (length dims)).
  { rewrite gridPos_ps by auto. apply ps_0; auto. }
  split.
  - intros Z. apply (gridPos_inj dims); auto. { apply nR_pos; auto. }
    rewrite Z0. assert (L : length (gridPos dims r) = length dims) by (apply in_box_len, gridPos_in_box; auto).
    rewrite <- L. clear - Z. induction Z; cbn; [auto|]. rewrite H. f_equal. auto.
  - intros ->. rewrite Z0. unfold isZero. apply Forall_forall. intros x Hx. apply repeat_spec in Hx. auto.
Qed.

(* ---------- minimum images of the half grid ---------- *)
Lemma opposite_nth : forall dims p p', length p = length dims -> length p' = length dims ->
  (opposite dims p p' <-> forall i, (i < length dims)%nat -> ((nth i p 0 + nth i p' 0) mod nth i dims 0 = 0)%Z).
Proof.
  induction dims as [|d ds IH]; intros [|a p] [|b p'] L L'; cbn [length] in *; try lia.
  - split; [intros _ i Hi; lia|intros; exact I].
  - cbn [opposite]. rewrite IH by lia. split.
    + intros [A B] [|i] Hi; cbn [nth]; auto. apply B. lia.
    + intros H. split; [apply (H 0%nat); lia|]. intros i Hi. apply (H (S i)). lia.
Qed.

(** Every minimum image is congruent to its grid position. *)
Lemma gmin_congruent : forall dims kb r, dims <> [] -> positive dims -> (r < nK dims)%nat ->
  length (gminList dims kb r) = length dims /\
  forall i, (i < length dims)%nat -> exists s,
    nth i (gminList dims kb r) 0%Z = (nth i (gridPos (computeKMesh dims) r) 0 + s * nth i dims 0)%Z.
Proof.
  intros dims kb r Hne HP Hr. unfold gminList. rewrite map_length, seq_length. split; auto. intros i Hi.
  set (v := fun i => nth i (gridPos (computeKMesh dims) r) 0%Z). set (d := fun i => nth i dims 0%Z).
  assert (HV : vec (length dims) v).
  { intros j Hj. unfold v. apply nth_overflow. destruct (half_pos dims r Hne HP Hr) as [_ B].
    rewrite (in_box_len _ _ B). auto. }
  assert (HD : (1 <= length dims)%nat) by lia.
  destruct (shiftToMinimum_image (length dims) v d kb HD HV) as [s [_ [S2 _]]].
  exists (s i). rewrite (nth_indep _ _ (shiftToMinimum (length dims) v d kb 0%nat)) by (rewrite map_length, seq_length; auto).
  rewrite map_nth, seq_nth by auto. apply S2. auto.
Qed.
Lemma gmin_inj : forall dims kb i j, dims <> [] -> positive dims -> (i < nK dims)%nat -> (j < nK dims)%nat ->
  gminList dims kb i = gminList dims kb j -> i = j.
Proof.
  intros dims kb i j Hne HP Hi Hj E.
  destruct (gmin_congruent dims kb i Hne HP Hi) as [_ A]. destruct (gmin_congruent dims kb j Hne HP Hj) as [_ B].
  destruct (half_pos dims i Hne HP Hi) as [_ Pi]. destruct (half_pos dims j Hne HP Hj) as [_ Pj].
  apply (gridPos_inj (computeKMesh dims)); auto. { apply kmesh_positive; auto. }
  set (p := gridPos (computeKMesh dims) i) in *. set (q := gridPos (computeKMesh dims) j) in *.
  assert (Lp := in_box_len _ _ Pi). assert (Lq := in_box_len _ _ Pj).
  apply (nth_ext _ _ 0%Z 0%Z); [congruence|]. intros a Ha. rewrite Lp in Ha.
  destruct (A a Ha) as [s Hs]. destruct (B a Ha) as [t Ht]. rewrite E in Hs. rewrite Hs in Ht.
  assert (RG : forall x, in_box dims x -> (0 <= nth a x 0 < nth a dims 0)%Z).
  { intros x Hx. clear - Hx Ha. revert a Ha. induction Hx; intros a Ha; cbn [length] in Ha; [lia|]. destruct a; cbn [nth]; auto. apply IHHx. lia. }
  assert (R1 := RG p Pi). assert (R2 := RG q Pj). assert (t - s = 0)%Z by nia. nia.
Qed.
Lemma matched_opposite : forall dims kb i j, dims <> [] -> positive dims -> (i < nK dims)%nat -> (j < nK dims)%nat ->
  matched (gminList dims kb) i j -> opposite dims (gridPos (computeKMesh dims) i) (gridPos (computeKMesh dims) j).
Proof.
  intros dims kb i j Hne HP Hi Hj M.
  destruct (gmin_congruent dims kb i Hne HP Hi) as [L A]. destruct (gmin_congruent dims kb j Hne HP Hj) as [_ B].
  destruct (half_pos dims i Hne HP Hi) as [_ Pi]. destruct (half_pos dims j Hne HP Hj) as [_ Pj].
  apply opposite_nth; try (apply in_box_len; auto). intros a Ha. destruct (A a Ha) as [s Hs]. destruct (B a Ha) as [t Ht].
  unfold matched in M. rewrite <- M in Ht. change 0%Z with (Z.opp 0) in Ht at 1. rewrite map_nth, Hs in Ht.
  apply Z.mod_divide.
  - intros Z. unfold positive in HP; rewrite Forall_forall in HP. assert (X : (0 < nth a dims 0)%Z) by (apply HP, nth_In; auto). lia.
  - exists (- s - t)%Z. lia.
Qed.

(* ---------- prefactors ---------- *)
(** The prefactor is 1/2 if the inverse of the minimum image is the minimum
    image of another wavevector of the half grid, and 1 otherwise. *)
Theorem C80_prefactor : forall dims kb r, dims <> [] -> positive dims -> (r < nK dims)%nat ->
  ((exists j, (j < nK dims)%nat /\ gminList dims kb j = map Z.opp (gminList dims kb r)) ->
     fourthSetup dims kb None r = 1 / 2) /\
  ((forall j, (j < nK dims)%nat -> gminList dims kb j <> map Z.opp (gminList dims kb r)) ->
     fourthSetup dims kb None r = 1).
Proof.
  intros dims kb r Hne HP Hr. unfold fourthSetup.
  destruct (prefactor_value (gminList dims kb) (nK dims) (fun i j Hi Hj E => gmin_inj dims kb i j Hne HP Hi Hj E)
     (fun _ => 0) r (fun _ _ => eq_refl) Hr) as [A B]. split.
  - intros [j [J1 J2]]. apply A. exists j. split; auto. unfold matched. auto.
  - intros N. apply B. intros [j [J1 J2]]. apply (N j); auto.
Qed.

(** A second setup changes nothing. *)
Theorem C80_prefactor_again : forall dims kb, dims <> [] -> positive dims ->
  fourthSetup dims kb (Some (fourthSetup dims kb None)) = fourthSetup dims kb None.
Proof.
  intros dims kb Hne HP. unfold fourthSetup at 1. apply prefactor_again. intros j Hj.
  destruct (C80_prefactor dims kb j Hne HP Hj) as [A B].
  destruct (classic (exists i, (i < nK dims)%nat /\ gminList dims kb i = map Z.opp (gminList dims kb j))) as [E|E].
  - rewrite (A E). lra.
  - rewrite B; [lra|]. intros i Hi X. apply E. eauto.
Qed.

Lemma fourthSum_all : forall dims pre f, positive dims ->
  fourthSum dims pre f = rsum (nK dims) (fun r => if (r =? 0)%nat then 0 else
     pre r * power dims f (gridPos (computeKMesh dims) r) ^ 2).
Proof.
  intros dims pre f HP. unfold fourthSum. assert (P := nR_pos _ (kmesh_positive _ HP)). rewrite <- nK_eq in P.
  destruct (nK dims) as [|n] eqn:E; [lia|]. rewrite rsum_S_first. cbn [Nat.eqb]. replace (S n - 1)%nat with n by lia.
  rewrite Rplus_0_l. apply rsum_ext. intros i Hi. rewrite power_normSq by auto. ring.
Qed.

Definition doubleK (dims k : list Z) : bool :=
  (negb (last k 0 =? 0) && (last dims 0 / 2 <? last dims 0 - last k 0))%Z%bool.
Lemma doubleK_iff : forall dims k, dims <> [] -> positive dims -> in_box (computeKMesh dims) k ->
  (doubleK dims k = true <-> inverse_missing dims k).
Proof.
  intros. rewrite inverse_missing_iff by auto. unfold doubleK. rewrite andb_true_iff, negb_true_iff, Z.eqb_neq, Z.ltb_lt. tauto.
Qed.

(** What each wavevector of the half grid should contribute, and does. *)
Lemma prefactor_vs_share : forall dims kb c r, dims <> [] -> positive dims ->
  (forall p, in_box dims p -> is_share dims p (c p)) -> (r < nK dims)%nat -> r <> 0%nat ->
  let p := gridPos (computeKMesh dims) r in
  let w := (if doubleK dims p then 2 else 1) * c p in
  let pre := fourthSetup dims kb None r in
  w <= pre <= 2 * w /\
  ((~ self_inverse dims p -> forall j, (j < nK dims)%nat -> opposite dims p (gridPos (computeKMesh dims) j) ->
      gminList dims kb j = map Z.opp (gminList dims kb r)) -> pre = w).
Proof.
  intros dims kb c r Hne HP HC Hr H0 p w pre.
  destruct (half_pos dims r Hne HP Hr) as [HB B]. fold p in HB, B.
  assert (NZ : ~ isZero p).
  { unfold p. rewrite gridPos_zero; auto. apply kmesh_positive; auto. }
  destruct (HC p B) as [_ [C1 C2]]. destruct (C80_prefactor dims kb r Hne HP Hr) as [PA PB]. fold pre in PA, PB.
  assert (PV : pre = 1 / 2 \/ pre = 1).
  { destruct (classic (exists i, (i < nK dims)%nat /\ gminList dims kb i = map Z.opp (gminList dims kb r))) as [E|E]; auto.
    right. apply PB. intros i Hi X. apply E. eauto. }
  assert (OP : (exists j, (j < nK dims)%nat /\ gminList dims kb j = map Z.opp (gminList dims kb r)) ->
     exists j, (j < nK dims)%nat /\ matched (gminList dims kb) r j /\ opposite dims p (gridPos (computeKMesh dims) j)).
  { intros [j [J1 J2]]. exists j. split; auto. assert (M : matched (gminList dims kb) r j) by (unfold matched; auto).
    split; auto. apply (matched_opposite dims kb); auto. }
  destruct (doubleK dims p) eqn:DK.
  - apply doubleK_iff in DK; auto.
    assert (NS : ~ self_inverse dims p) by (intros S; apply DK; exists p; split; auto).
    assert (P1 : pre = 1).
    { apply PB. intros j Hj X. destruct OP as [j' [J1 [_ J3]]]; [eauto|]. apply DK.
      exists (gridPos (computeKMesh dims) j'). split; auto. apply half_pos; auto. }
    unfold w. rewrite C2 by auto. rewrite P1. split; intros; lra.
  - destruct (classic (self_inverse dims p)) as [S|NS].
    + assert (P1 : pre = 1).
      { apply PB. intros j Hj X. destruct OP as [j' [J1 [J2 J3]]]; [eauto|].
        destruct (half_pos dims j' Hne HP J1) as [_ Bj]. apply (self_inverse_neg dims p) in J3; auto.
        assert (j' = r) by (apply (gridPos_inj (computeKMesh dims)); auto; apply kmesh_positive; auto). subst j'.
        apply NZ. unfold matched in J2.
        destruct (gmin_congruent dims kb r Hne HP Hr) as [GL GC].
        assert (G0 : forall i, nth i (gminList dims kb r) 0%Z = 0%Z).
        { intros i. assert (Y := f_equal (fun l => nth i l 0%Z) J2). cbv beta in Y. change 0%Z with (Z.opp 0) in Y at 1. rewrite map_nth in Y. lia. }
        unfold isZero. apply Forall_forall. intros x Hx. apply (In_nth _ _ 0%Z) in Hx. destruct Hx as [i [Hi Ei]].
        rewrite (in_box_len _ _ B) in Hi. destruct (GC i Hi) as [s Hs]. rewrite G0 in Hs. fold p in Hs. rewrite Ei in Hs.
        assert (RG : (0 <= nth i p 0 < nth i dims 0)%Z).
        { clear - B Hi. revert i Hi. induction B; intros i Hi; cbn [length] in Hi; [lia|]. destruct i; cbn [nth]; auto. apply IHB. lia. }
        rewrite Ei in RG. assert (s = 0)%Z by nia. lia. }
      unfold w. rewrite C1 by auto. rewrite P1. split; intros; lra.
    + unfold w. rewrite C2 by auto. split; [destruct PV as [-> | ->]; lra|]. intros H. rewrite PA; [lra|].
      assert (NM : ~ inverse_missing dims p) by (intros X; apply doubleK_iff in X; auto; congruence).
      apply NNPP in NM. destruct NM as [k' [K1 K2]].
      destruct (rank_of _ _ (kmesh_positive _ HP) K1) as [j [J1 J2]]. exists j. split; auto. apply H; auto. rewrite J2. auto.
Qed.

Lemma pair_half : forall dims f c, dims <> [] -> positive dims -> (forall p, in_box dims p -> is_share dims p (c p)) ->
  fullgrid_sum dims (fun p => c p * power dims f p ^ 2) =
  rsum (nK dims) (fun r => if (r =? 0)%nat then 0 else
    (if doubleK dims (gridPos (computeKMesh dims) r) then 2 else 1) * c (gridPos (computeKMesh dims) r)
      * power dims f (gridPos (computeKMesh dims) r) ^ 2).
Proof.
  intros dims f c Hne HP HC. rewrite <- (kgrid_weighted_sum dims _ (doubleK dims)); auto.
  - unfold kgrid_sum. apply rsum_ext. intros r Hr. cbv zeta. destruct (Nat.eqb_spec r 0).
    + destruct (half_pos dims r Hne HP Hr) as [_ B]. destruct (HC _ B) as [C0 _]. rewrite C0; [ring|].
      apply gridPos_zero; auto. apply kmesh_positive; auto.
    + ring.
  - intros k k' B B' O. rewrite (power_inversion dims f HP k k') by auto. f_equal.
    destruct (HC k B) as [A1 [A2 A3]]. destruct (HC k' B') as [A1' [A2' A3']].
    destruct (classic (isZero k)) as [Z|Z].
    + rewrite A1, A1'; auto. apply (isZero_neg dims k k'); auto.
    + assert (Z' : ~ isZero k') by (intros X; apply Z, (isZero_neg dims k' k); auto using opposite_sym).
      destruct (classic (self_inverse dims k)) as [S|S].
      * assert (E := self_inverse_neg dims k k' B B' O S). subst k'. reflexivity.
      * assert (S' : ~ self_inverse dims k').
        { intros X. apply S. assert (E := self_inverse_neg dims k' k B' B (opposite_sym _ _ _ O) X). subst k'. auto. }
        rewrite A3, A3'; auto.
  - intros; apply doubleK_iff; auto.
Qed.

(** The order parameter never underestimates the sum over pairs, and at most
    doubles it. *)
Theorem C80_fourth_bounds : forall dims kb f S, dims <> [] -> positive dims -> is_pair_sum dims f S ->
  S <= fourthCompute dims (fourthSetup dims kb None) f ^ 4 <= 2 * S.
Proof.
  intros dims kb f S Hne HP [c [HC ->]]. rewrite pair_half by auto.
  assert (FS : fourthCompute dims (fourthSetup dims kb None) f ^ 4 = fourthSum dims (fourthSetup dims kb None) f).
  { unfold fourthCompute. assert (NN : 0 <= fourthSum dims (fourthSetup dims kb None) f).
    { rewrite fourthSum_all by auto. apply rsum_pos_le. intros r Hr. destruct (Nat.eqb_spec r 0); [lra|].
      destruct (prefactor_vs_share dims kb c r Hne HP HC Hr n) as [[X Y] _]. cbv zeta in X, Y.
      apply Rmult_le_pos; [lra|]. assert (Q := power_nonneg dims f (gridPos (computeKMesh dims) r)). nra. }
    replace (sqrt (sqrt (fourthSum dims (fourthSetup dims kb None) f)) ^ 4)
      with ((sqrt (sqrt (fourthSum dims (fourthSetup dims kb None) f)) * sqrt (sqrt (fourthSum dims (fourthSetup dims kb None) f))) *
            (sqrt (sqrt (fourthSum dims (fourthSetup dims kb None) f)) * sqrt (sqrt (fourthSum dims (fourthSetup dims kb None) f)))) by ring.
    rewrite sqrt_sqrt by apply sqrt_pos. apply sqrt_sqrt. auto. }
  rewrite FS, fourthSum_all, <- rsum_scal by auto.
  split; apply rsum_le; intros r Hr; destruct (Nat.eqb_spec r 0) as [|n]; try lra;
    destruct (prefactor_vs_share dims kb c r Hne HP HC Hr n) as [[X Y] _]; cbv zeta in X, Y;
    assert (Q := power_nonneg dims f (gridPos (computeKMesh dims) r));
    assert (Q2 : 0 <= power dims f (gridPos (computeKMesh dims) r) ^ 2) by nra.
  - apply Rmult_le_compat_r; auto.
  - rewrite <- Rmult_assoc. apply Rmult_le_compat_r; auto.
Qed.

(** The share exists and is a function of the wavevector. *)
Definition share (dims p : list Z) : R :=
  if forallb (Z.eqb 0) p then 0 else if list_eq_dec Z.eq_dec (negmod dims p) p then 1 else 1 / 2.
Lemma share_ok : forall dims p, positive dims -> in_box dims p -> is_share dims p (share dims p).
Proof.
  intros dims p HP B. assert (Z : forallb (Z.eqb 0) p = true <-> isZero p).
  { rewrite forallb_forall. unfold isZero. rewrite Forall_forall. split; intros H x Hx; specialize (H x Hx).
    - apply Z.eqb_eq in H. auto.
    - apply Z.eqb_eq. auto. }
  assert (S : negmod dims p = p <-> self_inverse dims p).
  { split; intros H.
    - unfold self_inverse. rewrite <- H at 2. apply opposite_negmod; auto.
    - symmetry. apply opposite_unique; auto. }
  unfold share, is_share. destruct (forallb (Z.eqb 0) p).
  - split; auto. split; intros H; exfalso; apply H, Z; auto.
  - split; [intros H; apply Z in H; discriminate|]. destruct (list_eq_dec Z.eq_dec (negmod dims p) p) as [E|E].
    + split; auto. intros _ H. exfalso; apply H, S; auto.
    + split; auto. intros _ H. exfalso. apply E, S; auto.
Qed.
Lemma pair_sum_exists : forall dims f, positive dims -> exists S, is_pair_sum dims f S.
Proof. intros dims f HP. eexists. exists (share dims). split; [|reflexivity]. intros; apply share_ok; auto. Qed.
Lemma pair_sum_unique : forall dims f S S', positive dims -> is_pair_sum dims f S -> is_pair_sum dims f S' -> S = S'.
Proof.
  intros dims f S S' HP [c [C ->]] [c' [C' ->]]. unfold fullgrid_sum. apply rsum_ext. intros r Hr.
  assert (B := gridPos_in_box dims r HP Hr). f_equal. destruct (C _ B) as [A1 [A2 A3]]. destruct (C' _ B) as [B1 [B2 B3]].
  destruct (classic (isZero (gridPos dims r))); [rewrite A1, B1; auto|].
  destruct (classic (self_inverse dims (gridPos dims r))); [rewrite A2, B2; auto|rewrite A3, B3; auto].
Qed.

Lemma fourth_power : forall dims kb f, dims <> [] -> positive dims ->
  fourthCompute dims (fourthSetup dims kb None) f ^ 4 = fourthSum dims (fourthSetup dims kb None) f /\
  0 <= fourthCompute dims (fourthSetup dims kb None) f.
Proof.
  intros dims kb f Hne HP. split; [|apply sqrt_pos]. unfold fourthCompute.
  assert (NN : 0 <= fourthSum dims (fourthSetup dims kb None) f).
  { rewrite fourthSum_all by auto. apply rsum_pos_le. intros r Hr. destruct (Nat.eqb_spec r 0); [lra|].
    destruct (prefactor_vs_share dims kb (share dims) r Hne HP (fun p => share_ok dims p HP) Hr n) as [[X Y] _]. cbv zeta in X, Y.
    apply Rmult_le_pos; [lra|]. assert (Q := power_nonneg dims f (gridPos (computeKMesh dims) r)). nra. }
  set (x := fourthSum dims (fourthSetup dims kb None) f) in *.
  replace (sqrt (sqrt x) ^ 4) with ((sqrt (sqrt x) * sqrt (sqrt x)) * (sqrt (sqrt x) * sqrt (sqrt x))) by ring.
  rewrite sqrt_sqrt by apply sqrt_pos. apply sqrt_sqrt. auto.
Qed.

(** If the minimum images of opposite wavevectors on the planes that the half
    grid holds twice are opposite, it is the fourth root of the sum over pairs.
    (In general false: C80_fourth_refuted.) *)
Theorem C80_fourth_partial : forall dims kb f S, dims <> [] -> positive dims -> is_pair_sum dims f S ->
  (forall i j, (i < nK dims)%nat -> (j < nK dims)%nat ->
     let p := gridPos (computeKMesh dims) i in
     ~ self_inverse dims p -> opposite dims p (gridPos (computeKMesh dims) j) ->
     gminList dims kb j = map Z.opp (gminList dims kb i)) ->
  0 <= fourthCompute dims (fourthSetup dims kb None) f /\
  fourthCompute dims (fourthSetup dims kb None) f ^ 4 = S.
Proof.
  intros dims kb f S Hne HP [c [HC ->]] HG. destruct (fourth_power dims kb f Hne HP) as [E N]. split; auto.
  rewrite E, pair_half, fourthSum_all by auto. apply rsum_ext. intros r Hr. destruct (Nat.eqb_spec r 0) as [|n]; auto.
  f_equal. destruct (prefactor_vs_share dims kb c r Hne HP HC Hr n) as [_ X]. cbv zeta in X. apply X.
  intros NS j Hj O. apply (HG r j); auto.
Qed.

(** In one dimension that is always so. *)
Theorem C80_fourth_1d : forall n kb f S, (0 < n)%Z -> is_pair_sum [n] f S ->
  0 <= fourthCompute [n] (fourthSetup [n] kb None) f /\ fourthCompute [n] (fourthSetup [n] kb None) f ^ 4 = S.
Proof.
  intros n kb f S Hn HS. assert (HP : positive [n]) by (constructor; auto; constructor).
  apply C80_fourth_partial; auto; [discriminate|].
  intros i j Hi Hj p NS O. exfalso. apply NS. unfold p in *. clear p NS.
  destruct (half_pos [n] i ltac:(discriminate) HP Hi) as [A _]. destruct (half_pos [n] j ltac:(discriminate) HP Hj) as [B _].
  unfold self_inverse. set (p := gridPos (computeKMesh [n]) i) in *. set (q := gridPos (computeKMesh [n]) j) in *.
  clearbody p q. cbn [computeKMesh] in A, B. destruct p as [|y [|? ?]]; [inversion A| |inversion A as [|? ? ? ? _ A2]; inversion A2]. destruct q as [|z [|? ?]]; [inversion B| |inversion B as [|? ? ? ? _ B2]; inversion B2]. inversion A; inversion B; subst.
  cbn [opposite] in *. split; auto. destruct O as [O _]. apply Z.mod_divide in O; [|lia]. destruct O as [c Hc].
  rewrite Z.quot_div_nonneg in * by lia. assert (2 * (n / 2) <= n)%Z by (Z.div_mod_to_equations; lia).
  assert (c = 0 \/ c = 1)%Z as [-> | ->] by nia.
  - replace y with 0%Z by lia. apply Z.mod_0_l. lia.
  - replace (y + y)%Z with n by lia. apply Z.mod_same. lia.
Qed.

(* ---------- the largest amplitude ---------- *)
Lemma half_or_neg : forall dims p, dims <> [] -> positive dims -> in_box dims p ->
  in_box (computeKMesh dims) p \/ in_box (computeKMesh dims) (negmod dims p).
Proof.
  intros dims p Hne HP B. destruct (snoc_cases dims Hne) as [ds [n ->]]. apply in_box_snoc in B.
  destruct B as [q [l [-> [Hq Hl]]]]. rewrite computeKMesh_snoc, negmod_snoc by (apply in_box_len; auto).
  apply Forall_app in HP. destruct HP as [_ HP]. inversion HP; subst. rewrite Z.quot_div_nonneg by lia.
  assert (D : (2 * (n / 2) <= n < 2 * (n / 2) + 2)%Z) by (Z.div_mod_to_equations; lia).
  destruct (Z_le_gt_dec l (n / 2)).
  - left. apply in_box_snoc. exists q, l. split; auto. split; auto. lia.
  - right. apply in_box_snoc. exists (negmod ds q), ((- l) mod n)%Z. split; auto. split; [apply negmod_in_box; auto|].
    replace ((- l) mod n)%Z with (n - l)%Z; [lia|]. apply Z.mod_unique with (-1)%Z; lia.
Qed.

(** The value is the largest squared amplitude over all nonzero wavevectors of
    the full grid; the wavevector reported is the minimum image of the first
    wavevector of the half grid that has it. *)
Theorem C80_max : forall dims kb f v g, dims <> [] -> positive dims ->
  maxCompute dims kb f = Ok (v, g) ->
  (forall p, in_box dims p -> ~ isZero p -> power dims f p <= v) /\
  exists r, (0 < r < nK dims)%nat /\ power dims f (gridPos (computeKMesh dims) r) = v /\
    g = gminList dims kb r /\
    forall r', (0 < r' < r)%nat -> power dims f (gridPos (computeKMesh dims) r') < v.
Proof.
  intros dims kb f v g Hne HP H. unfold maxCompute in H. destruct (Nat.leb_spec (nK dims) 1) as [|L]; [discriminate|].
  set (psi := fun i => normSq (fftForward dims f i)) in *.
  set (st := fold_left (maxStep psi) (seq 2 (nK dims - 2)) (psi 1%nat, 1%nat)) in *.
  injection H as <- <-.
  destruct (max_loop psi (seq 2 (nK dims - 2)) (psi 1%nat) 1%nat eq_refl) as [A [B [C _]]]. cbn zeta in *. fold st in A, B, C.
  assert (FST := max_loop_first psi (nK dims - 2) 2 (psi 1%nat) 1%nat eq_refl ltac:(lia)
     ltac:(intros; lia) ltac:(intros; lia)). cbn zeta in FST. fold st in FST.
  assert (PW : forall r, psi r = power dims f (gridPos (computeKMesh dims) r)) by (intros; apply power_normSq; auto).
  assert (RNG : (0 < snd st < nK dims)%nat).
  { destruct B as [B|B]; [lia|]. apply in_seq in B. lia. }
  assert (MX : forall r, (0 < r < nK dims)%nat -> psi r <= fst st).
  { intros r Hr. apply C. destruct (Nat.eq_dec r 1); [left; auto|right; apply in_seq; lia]. }
  split.
  - intros p Bp NZ.
    assert (HALF : forall q, in_box (computeKMesh dims) q -> ~ isZero q -> power dims f q <= fst st).
    { intros q Bq Nq. destruct (rank_of _ _ (kmesh_positive _ HP) Bq) as [r [R1 R2]]. rewrite <- R2, <- PW. apply MX.
      split; [|exact R1]. destruct r; [|lia]. exfalso. apply Nq. rewrite <- R2. apply gridPos_zero; auto. apply kmesh_positive; auto. }
    destruct (half_or_neg dims p Hne HP Bp) as [Q|Q]; [apply HALF; auto|].
    assert (Bn := negmod_in_box _ _ Bp). assert (On := opposite_negmod dims p HP Bp).
    rewrite <- (power_inversion dims f HP p (negmod dims p)) by auto. apply HALF; auto.
    intros Z. apply NZ. apply (isZero_neg dims (negmod dims p) p); auto using opposite_sym.
  - exists (snd st). split; auto. split; [rewrite <- PW; auto|]. split; auto. intros r' Hr'. rewrite <- PW. apply FST. auto.
Qed.

(** It is undefined exactly for a grid of one point. *)
Theorem C80_max_defined : forall dims kb f, dims <> [] -> positive dims ->
  ((exists p, in_box dims p /\ ~ isZero p) <-> exists v g, maxCompute dims kb f = Ok (v, g)).
Proof.
  intros dims kb f Hne HP. unfold maxCompute. destruct (Nat.leb_spec (nK dims) 1) as [L|L].
  - split; [|intros [v [g H]]; discriminate]. intros [p [B NZ]]. exfalso.
    assert (X : forall q, in_box (computeKMesh dims) q -> isZero q).
    { intros q Bq. destruct (rank_of _ _ (kmesh_positive _ HP) Bq) as [r [R1 R2]]. rewrite <- R2. apply gridPos_zero; auto.
      { apply kmesh_positive; auto. } rewrite <- nK_eq in R1. lia. }
    destruct (half_or_neg dims p Hne HP B) as [Q|Q]; apply X in Q; [contradiction|].
    apply NZ. apply (isZero_neg dims (negmod dims p) p); auto using opposite_sym, negmod_in_box, opposite_negmod.
  - split; [|]; intros _; [eauto|]. exists (gridPos (computeKMesh dims) 1). split; [apply half_pos; auto|].
    rewrite gridPos_zero; auto. apply kmesh_positive; auto.
Qed.

(* ---------- structure factors ---------- *)
(** Mean of S over the elements of a finite family for which q is k. *)
Definition is_mean (n : nat) (q s : nat -> R) (k v : R) : Prop :=
  v * rsum n (fun i => if Req_EM_T (q i) k then 1 else 0) = rsum n (fun i => if Req_EM_T (q i) k then s i else 0).

Lemma count_pos : forall n q k, (exists i, (i < n)%nat /\ q i = k) -> 0 < rsum n (fun i => if Req_EM_T (q i) k then 1 else 0).
Proof.
  intros n q k [i [Hi E]]. induction n; [lia|]. cbn [rsum]. assert (P : 0 <= rsum n (fun i => if Req_EM_T (q i) k then 1 else 0)).
  { apply rsum_pos_le. intros j _. destruct (Req_EM_T (q j) k); lra. }
  destruct (Nat.eq_dec i n) as [->|].
  - destruct (Req_EM_T (q n) k); [lra|contradiction].
  - assert (X := IHn ltac:(lia)). destruct (Req_EM_T (q n) k); lra.
Qed.

Lemma sMap_spec : forall n q s, sorted (sMap n q s) /\
  forall k v, In (k, v) (sMap n q s) <-> (exists i, (i < n)%nat /\ q i = k) /\ is_mean n q s k v.
Proof.
  intros n q s. destruct (sMap0_spec q s n) as [SO SP].
  assert (SO' : sorted (sMap n q s)).
  { unfold sMap. revert SO. generalize (sMap0 n q s). induction l as [|[k v] l IH]; cbn [map sorted]; auto.
    intros [A B]. split; auto. intros e He. apply in_map_iff in He. destruct He as [x [<- Hx]]. cbn [fst]. apply A in Hx. auto. }
  assert (SP' : forall k v, In (k, v) (sMap n q s) <-> (exists i, (i < n)%nat /\ q i = k) /\ is_mean n q s k v).
  { intros k v. unfold sMap. rewrite in_map_iff. unfold is_mean. split.
    - intros [[k' v'] [E H]]. cbn [fst snd] in E. injection E as <- <-. apply SP in H. destruct H as [X ->]. split; auto.
      rewrite countq_rsum. assert (P := count_pos n q k' X). field. lra.
    - intros [X M]. exists (k, rsum n (fun i => if Req_EM_T (q i) k then s i else 0)). cbn [fst snd]. split.
      + f_equal. rewrite countq_rsum. assert (P := count_pos n q k X). rewrite <- M. field. lra.
      + apply SP. auto. }
  split; auto.
Qed.
(** With wavenumbers that are equal or differ by more than the tolerance, one
    line per wavenumber is written, in increasing order, with the mean of the
    structure factors of the half grid at that wavenumber. *)
Theorem C80_structure : forall n q s, (0 < n)%nat ->
  (forall i j, (i < n)%nat -> (j < n)%nat -> q i = q j \/ Rabs (q i - q j) > tolerance) ->
  exists out, averageStructureFactor n q s [] = Ok out /\
  (forall a b pre mid post, out = pre ++ a :: mid ++ b :: post -> fst a < fst b) /\
  (forall k v, In (k, v) out <-> (exists i, (i < n)%nat /\ q i = k) /\ is_mean n q s k v).
Proof.
  intros n q s Hn HT. destruct (sMap_spec n q s) as [SO' SP'].
  unfold averageStructureFactor. destruct (sMap n q s) as [|[k0 v0] m] eqn:E.
  - exfalso. destruct (SP' (q 0%nat) (rsum n (fun i => if Req_EM_T (q i) (q 0%nat) then s i else 0) / rsum n (fun i => if Req_EM_T (q i) (q 0%nat) then 1 else 0))) as [_ X].
    apply X. split; [exists 0%nat; auto|]. unfold is_mean. assert (P := count_pos n q (q 0%nat) (ex_intro _ 0%nat (conj Hn eq_refl))). field. lra.
  - exists ((k0, v0) :: m). split; [|split; auto].
    + f_equal. rewrite batches_separated; auto.
      * intros e [].
      * intros [a x] [b y] H H'. apply SP' in H. apply SP' in H'. cbn [fst]. destruct H as [[i [Hi <-]] _]. destruct H' as [[j [Hj <-]] _].
        destruct (HT i j Hi Hj) as [T|T]; auto. right. rewrite Rabs_minus_sym. auto.
    + clear - SO'. intros a b pre mid post H. rewrite H in SO'. clear H. induction pre as [|x pre IH]; cbn [app sorted] in SO'.
      * destruct SO' as [A _]. apply A. apply in_app_iff. right. left. auto.
      * apply IH. apply SO'.
Qed.

(** Any wavenumbers: the shells, in increasing order, are cut into batches of
    neighbours; a batch ends where the wavenumber exceeds its first one by more
    than the tolerance; one line per batch is written, with the first wavenumber
    and the mean over the shells of the means of the shells. *)
Definition head_key (p : list (R * R)) : R := fst (hd (0, 0) p).
Definition increasing (l : list (R * R)) : Prop :=
  forall a b pre mid post, l = pre ++ a :: mid ++ b :: post -> fst a < fst b.
Theorem C80_batches : forall n q s, (0 < n)%nat -> exists parts,
  averageStructureFactor n q s [] = Ok (map (fun p => (head_key p, lsum snd p / INR (length p))) parts) /\
  (forall p, In p parts -> p <> [] /\ forall e, In e p -> Rabs (fst e - head_key p) <= tolerance) /\
  (forall p p' pre post, parts = pre ++ p :: p' :: post -> Rabs (head_key p' - head_key p) > tolerance) /\
  increasing (concat parts) /\
  (forall k v, In (k, v) (concat parts) <-> (exists i, (i < n)%nat /\ q i = k) /\ is_mean n q s k v).
Proof.
  intros n q s Hn. destruct (sMap_spec n q s) as [SO' SP'].
  unfold averageStructureFactor. destruct (sMap n q s) as [|[k0 v0] m] eqn:E.
  - exfalso. apply (SP' (q 0%nat) (rsum n (fun i => if Req_EM_T (q i) (q 0%nat) then s i else 0) / rsum n (fun i => if Req_EM_T (q i) (q 0%nat) then 1 else 0))).
    split; [exists 0%nat; auto|]. unfold is_mean. assert (P := count_pos n q (q 0%nat) (ex_intro _ 0%nat (conj Hn eq_refl))). field. lra.
  - destruct (batches_parts m [] k0 v0 [(k0, v0)]) as [parts [C [O [P1 [P2 _]]]]]; auto.
    + intros e [].
    + discriminate.
    + intros e [<-|[]]. cbn [fst]. rewrite Rminus_diag_eq, Rabs_R0 by auto. unfold tolerance. lra.
    + cbn. ring.
    + exists parts. split; [|split; [|split; [|split]]]; auto.
      * cbn [length] in O. rewrite O. reflexivity.
      * rewrite C. intros a b pre mid post H. cbn [app] in H. rewrite H in SO'. apply (sorted_pair a b pre mid post); auto.
      * rewrite C. exact SP'.
Qed.

(** It is the mean over the whole shell of the full grid if, within a shell, all
    wavevectors of the half grid stand for the same number of wavevectors. *)
Theorem C80_shell_partial : forall dims Q S n v k, dims <> [] -> positive dims -> n = nK dims ->
  inversion_symmetric dims Q -> inversion_symmetric dims S ->
  let half := gridPos (computeKMesh dims) in
  (exists i, (i < n)%nat /\ Q (half i) = k) ->
  (forall i j, (i < n)%nat -> (j < n)%nat -> Q (half i) = k -> Q (half j) = k ->
     (inverse_missing dims (half i) <-> inverse_missing dims (half j))) ->
  is_mean n (fun i => Q (half i)) (fun i => S (half i)) k v ->
  is_mean (nR dims) (fun r => Q (gridPos dims r)) (fun r => S (gridPos dims r)) k v.
Proof.
  intros dims Q S n v k Hne HP -> HQ HS half [i0 [Hi0 Ei0]] HW HM. unfold is_mean in *.
  assert (FULL : forall g, inversion_symmetric dims g ->
    rsum (nR dims) (fun r => if Req_EM_T (Q (gridPos dims r)) k then g (gridPos dims r) else 0) =
    (if doubleK dims (half i0) then 2 else 1) * rsum (nK dims) (fun i => if Req_EM_T (Q (half i)) k then g (half i) else 0)).
  { intros g Hg.
    assert (X := kgrid_weighted_sum dims (fun p => if Req_EM_T (Q p) k then g p else 0) (doubleK dims) Hne HP).
    unfold fullgrid_sum in X. rewrite <- X.
    - unfold kgrid_sum. rewrite <- rsum_scal. apply rsum_ext. intros i Hi. cbv zeta. fold (half i).
      destruct (Req_EM_T (Q (half i)) k) as [E|]; [|ring]. f_equal.
      assert (I1 := doubleK_iff dims (half i) Hne HP (proj1 (half_pos dims i Hne HP Hi))).
      assert (I0 := doubleK_iff dims (half i0) Hne HP (proj1 (half_pos dims i0 Hne HP Hi0))).
      assert (W := HW i i0 Hi Hi0 E Ei0). destruct (doubleK dims (half i)), (doubleK dims (half i0)); auto; exfalso.
      + assert (false = true) by (apply I0, W, I1; auto). discriminate.
      + assert (false = true) by (apply I1, W, I0; auto). discriminate.
    - intros p p' B B' O. rewrite (HQ p p') by auto. rewrite (Hg p p') by auto. reflexivity.
    - intros; apply doubleK_iff; auto. }
  rewrite (FULL S HS).
  rewrite (FULL (fun _ => 1)) by (intros ? ? ? ? ?; reflexivity). cbv beta. rewrite <- HM. ring.
Qed.

(* ---------- refutations ---------- *)
Definition kbId : nat -> nat -> R := fun i j => if (i =? j)%nat then 1 else 0.
Lemma norm2_id : forall v, norm2 2 kbId v = IZR (v 0%nat * v 0%nat + v 1%nat * v 1%nat).
Proof. intros v. unfold norm2, kbId. cbn [rsum Nat.eqb]. rewrite plus_IZR, !mult_IZR. ring. Qed.
Lemma IZR_gap : forall x y : Z, IZR x = IZR y \/ Rabs (IZR x - IZR y) > epsilon.
Proof.
  intros x y. destruct (Z.eq_dec x y) as [->|N]; auto. right. rewrite <- minus_IZR, <- abs_IZR.
  assert (1 <= IZR (Z.abs (x - y))) by (apply (IZR_le 1); lia). unfold epsilon. lra.
Qed.

(** On the plane of the last wavevector of an even dimension both minimum
    images have a positive last component. *)
Lemma tie_positive : forall a, (0 <= a < 3)%Z ->
  (0 < shiftToMinimum 2 (fun i => nth i [a; 1%Z] 0%Z) (fun i => nth i [3%Z; 2%Z] 0%Z) kbId 1%nat)%Z.
Proof.
  intros a Ha. set (v := fun i => nth i [a; 1%Z] 0%Z). set (d := fun i => nth i [3%Z; 2%Z] 0%Z).
  assert (HV : vec 2 v). { intros i Hi. unfold v. apply nth_overflow. exact Hi. }
  destruct (shiftToMinimum_image 2 v d kbId ltac:(lia) HV) as [s [S1 [S2 S3]]].
  set (r := shiftToMinimum 2 v d kbId) in *.
  assert (R0 := S2 0%nat ltac:(lia)). assert (R1 := S2 1%nat ltac:(lia)). unfold v, d in R0, R1. cbn [nth] in R0, R1.
  assert (B0 := S1 0%nat ltac:(lia)). assert (B1 := S1 1%nat ltac:(lia)).
  destruct (Z_lt_le_dec 0 (r 1%nat)) as [|N]; auto. exfalso.
  set (u := fun i => match i with 0%nat => r 0%nat | 1%nat => (- r 1%nat)%Z | _ => 0%Z end).
  destruct (shiftToMinimum_exact 2 v d kbId ltac:(lia) HV) with (s := fun i => match i with 0%nat => s 0%nat | _ => (-1 - s 1%nat)%Z end) (u := u) as [_ Q].
  - intros x y s0 t _ _ _ _. rewrite !norm2_id. apply IZR_gap.
  - intros i Hi. destruct i as [|[|i]]; lia.
  - intros i Hi. destruct i as [|[|i]]; unfold u, v, d; cbn [nth]; lia.
  - intros i Hi. destruct i as [|[|i]]; [lia|lia|reflexivity].
  - fold r in Q. apply Q.
    + rewrite !norm2_id. unfold u. generalize (r 0%nat) (r 1%nat). intros x y. f_equal. ring.
    + exists 1%nat. split; [lia|]. split; [unfold u; lia|]. intros j Hj. destruct j; [reflexivity|lia].
Qed.

Definition delta0 : nat -> R := fun r => if (r =? 0)%nat then 1 else 0.
Lemma phase_zero : forall dims p k, phase dims p (repeat 0%Z k) = 0.
Proof.
  induction dims as [|d ds IH]; intros [|a p] [|k]; cbn [phase repeat]; auto. rewrite IH, Z.mul_0_r. unfold Rdiv. ring.
Qed.
Lemma power_delta : forall dims p, positive dims -> power dims delta0 p = (1 / IZR (prodZ dims)) ^ 2.
Proof.
  intros dims p HP. unfold power, coef. cbn [fst snd]. assert (P := prodZ_pos _ HP).
  assert (Z0 : gridPos dims 0 = repeat 0%Z (length dims)) by (rewrite gridPos_ps by auto; apply ps_0; auto).
  assert (SG : forall g : nat -> R, rsum (Z.to_nat (prodZ dims)) (fun r => delta0 r * g r) = g 0%nat).
  { intros g. rewrite (rsum_single _ 0%nat); [unfold delta0; cbn [Nat.eqb]; ring|lia|].
    intros i _ Hi. unfold delta0. destruct (Nat.eqb_spec i 0); [contradiction|ring]. }
  rewrite !SG.
  rewrite Z0, phase_zero, cos_0, sin_0. unfold Rdiv. ring.
Qed.

(** In two dimensions it counts pairs twice: 3 x 2 points, a square cell. *)
Theorem C80_fourth_refuted : exists dims kb f S, dims <> [] /\ positive dims /\ is_pair_sum dims f S /\
  S < fourthCompute dims (fourthSetup dims kb None) f ^ 4.
Proof.
  set (dims := [3%Z; 2%Z]). assert (HP : positive dims) by (repeat constructor). assert (Hne : dims <> []) by discriminate.
  assert (HC : forall p, in_box dims p -> is_share dims p (share dims p)) by (intros; apply share_ok; auto).
  exists dims, kbId, delta0, (fullgrid_sum dims (fun p => share dims p * power dims delta0 p ^ 2)).
  split; auto. split; auto. split; [exists (share dims); auto|].
  destruct (fourth_power dims kbId delta0 Hne HP) as [-> _]. rewrite pair_half, fourthSum_all by auto.
  assert (NK : nK dims = 6%nat) by reflexivity.
  assert (P3 : fourthSetup dims kbId None 3%nat = 1).
  { apply C80_prefactor; auto. { rewrite NK; lia. } intros j Hj E.
    assert (M : opposite dims (gridPos (computeKMesh dims) 3) (gridPos (computeKMesh dims) j)).
    { apply (matched_opposite dims kbId); auto; [rewrite NK; lia|unfold matched; auto]. }
    rewrite NK in Hj.
    assert (J5 : j = 5%nat).
    { destruct j as [|[|[|[|[|[|j]]]]]]; [| | | | |reflexivity|lia]; exfalso; vm_compute in M; intuition discriminate. }
    subst j. apply (f_equal (fun l => nth 1 l 0%Z)) in E. change 0%Z with (Z.opp 0) in E at 2. rewrite map_nth in E.
    assert (A := tie_positive 1 ltac:(lia)). assert (B := tie_positive 2 ltac:(lia)).
    assert (X3 : nth 1 (gminList dims kbId 3) 0%Z = shiftToMinimum 2 (fun i => nth i [1%Z; 1%Z] 0%Z) (fun i => nth i [3%Z; 2%Z] 0%Z) kbId 1%nat).
    { unfold gminList. change (gridPos (computeKMesh dims) 3) with [1%Z; 1%Z]. change (length dims) with 2%nat. cbn [seq map]. reflexivity. }
    assert (X5 : nth 1 (gminList dims kbId 5) 0%Z = shiftToMinimum 2 (fun i => nth i [2%Z; 1%Z] 0%Z) (fun i => nth i [3%Z; 2%Z] 0%Z) kbId 1%nat).
    { unfold gminList. change (gridPos (computeKMesh dims) 5) with [2%Z; 1%Z]. change (length dims) with 2%nat. cbn [seq map]. reflexivity. }
    rewrite X3, X5 in E. lia. }
  rewrite NK.
  assert (W : forall r, (r < 6)%nat -> r <> 0%nat ->
    (if doubleK dims (gridPos (computeKMesh dims) r) then 2 else 1) * share dims (gridPos (computeKMesh dims) r) <= fourthSetup dims kbId None r).
  { intros r Hr N. destruct (prefactor_vs_share dims kbId (share dims) r Hne HP HC ltac:(rewrite NK; lia) N) as [[X _] _]. exact X. }
  assert (W3 : (if doubleK dims (gridPos (computeKMesh dims) 3) then 2 else 1) * share dims (gridPos (computeKMesh dims) 3) = 1 / 2).
  { change (gridPos (computeKMesh dims) 3) with [1%Z; 1%Z]. unfold share.
    destruct (list_eq_dec Z.eq_dec (negmod dims [1%Z; 1%Z]) [1%Z; 1%Z]) as [E|_]; [vm_compute in E; discriminate|].
    change (doubleK dims [1%Z; 1%Z]) with false. change (forallb (Z.eqb 0) [1%Z; 1%Z]) with false. lra. }
  cbn [rsum Nat.eqb]. rewrite P3, W3. rewrite !power_delta by auto. change (prodZ dims) with 6%Z.
  assert (Q : 0 < ((1 / 6) ^ 2) ^ 2) by lra. set (c := ((1 / 6) ^ 2) ^ 2) in *.
  assert (W1 := W 1%nat ltac:(lia) ltac:(lia)). assert (W2 := W 2%nat ltac:(lia) ltac:(lia)).
  assert (W4 := W 4%nat ltac:(lia) ltac:(lia)). assert (W5 := W 5%nat ltac:(lia) ltac:(lia)).
  apply (Rmult_le_compat_r c) in W1, W2, W4, W5; lra.
Qed.

(** Wavenumbers of the full grid: the least over all equivalent wavevectors. *)
Definition is_wavenumber (dims : list Z) (kb : nat -> nat -> R) (Q : list Z -> R) : Prop :=
  forall p, in_box dims p ->
  let D := length dims in let v := fun i => nth i p 0%Z in let d := fun i => nth i dims 0%Z in
  (exists s u, is_image D v d s u /\ Q p = sqrt (norm2 D kb u)) /\
  forall s u, is_image D v d s u -> Q p <= sqrt (norm2 D kb u).
Definition m3 (x : Z) : Z := if (x =? 2)%Z then (-1)%Z else x.
Definition msq (p : list Z) : Z := (m3 (nth 0 p 0) * m3 (nth 0 p 0) + m3 (nth 1 p 0) * m3 (nth 1 p 0))%Z.
Definition Q33 (p : list Z) : R := sqrt (IZR (msq p)).
Definition S33 (p : list Z) : R := if (nth 1 p 0 =? 0)%Z then 0 else 1.

Lemma m3_least : forall x s, (0 <= x < 3)%Z -> (m3 x * m3 x <= (x + s * 3) * (x + s * 3))%Z.
Proof.
  intros x s H. assert (x = 0 \/ x = 1 \/ x = 2)%Z as [-> | [-> | ->]] by lia; unfold m3; cbn [Z.eqb Pos.eqb]; [nia|nia|].
  assert (2 + s * 3 <= -1 \/ 2 <= 2 + s * 3)%Z as [|] by lia; nia.
Qed.
Lemma wave33 : is_wavenumber [3%Z; 3%Z] kbId Q33.
Proof.
  intros p B D v d. inversion B as [|? a ? l Ha B1]; subst. inversion B1 as [|? b ? l' Hb B2]; subst. inversion B2; subst.
  assert (LOW : forall s u, is_image D v d s u -> (msq [a; b] <= u 0%nat * u 0%nat + u 1%nat * u 1%nat)%Z).
  { intros s u HI. rewrite (HI 0%nat), (HI 1%nat) by (unfold D; cbn; lia). unfold v, d, msq. cbn [nth].
    assert (X := m3_least a (s 0%nat) Ha). assert (Y := m3_least b (s 1%nat) Hb). lia. }
  split.
  - exists (fun i => match i with 0%nat => if (a =? 2)%Z then (-1)%Z else 0%Z | _ => if (b =? 2)%Z then (-1)%Z else 0%Z end),
      (fun i => match i with 0%nat => m3 a | _ => m3 b end). split.
    + intros i Hi. unfold D in Hi. cbn [length] in Hi. unfold v, d, m3.
      destruct i as [|[|i]]; [| |lia]; cbn [nth]; [destruct (Z.eqb_spec a 2)|destruct (Z.eqb_spec b 2)]; lia.
    + change D with 2%nat. rewrite norm2_id. reflexivity.
  - intros s u HI. change D with 2%nat. rewrite norm2_id. apply sqrt_le_1_alt. apply IZR_le. apply (LOW s); auto.
Qed.
Lemma q33 : forall r, (r < 6)%nat -> qList [3%Z; 3%Z] kbId r = Q33 (gridPos (computeKMesh [3%Z; 3%Z]) r).
Proof.
  intros r Hr. unfold qList, Q33. f_equal. rewrite ksq_norm2.
  set (dims := [3%Z; 3%Z]). assert (HP : positive dims) by (repeat constructor). assert (Hne : dims <> []) by discriminate.
  destruct (half_pos dims r Hne HP Hr) as [_ B]. set (p := gridPos (computeKMesh dims) r) in *.
  set (v := fun i => nth i p 0%Z). set (d := fun i => nth i dims 0%Z).
  assert (HV : vec 2 v). { intros i Hi. unfold v. apply nth_overflow. rewrite (in_box_len _ _ B). exact Hi. }
  assert (E : forall i, (i < 2)%nat -> nth i (gminList dims kbId r) 0%Z = shiftToMinimum 2 v d kbId i).
  { intros i Hi. unfold gminList. change (length dims) with 2%nat. cbn [seq map]. destruct i as [|[|i]]; [reflexivity|reflexivity|lia]. }
  change (length dims) with 2%nat. rewrite norm2_id, !E by lia. rewrite <- norm2_id.
  destruct (shiftToMinimum_image 2 v d kbId ltac:(lia) HV) as [s [_ [S2 _]]].
  assert (RNG : forall i, (i < 2)%nat -> (0 <= v i < 3)%Z).
  { intros i Hi. unfold v. inversion B as [|? a ? l Ha B1]; subst. inversion B1 as [|? b ? l' Hb B2]; subst.
    destruct i as [|[|i]]; cbn [nth]; auto; lia. }
  destruct (shiftToMinimum_orthogonal 2 v d kbId ltac:(lia) HV) as [MIN _].
  - intros i j Hi Hj N. unfold kbId. destruct (Nat.eqb_spec i j); [contradiction|auto].
  - intros i Hi. assert (X := RNG i Hi). unfold d, dims. destruct i as [|[|i]]; cbn [nth]; lia.
  - intros x y s0 t _ _. rewrite !norm2_id. apply IZR_gap.
  - cbv zeta in MIN. set (w := shiftToMinimum 2 v d kbId) in *. clearbody w. rewrite norm2_id. f_equal. apply Z.le_antisymm.
    + apply le_IZR. rewrite <- norm2_id.
      apply Rle_trans with (norm2 2 kbId (fun i => m3 (v i))).
      * apply (MIN (fun i => if (v i =? 2)%Z then (-1)%Z else 0%Z)). intros i Hi. unfold m3.
        assert (d i = 3%Z) as -> by (unfold d, dims; destruct i as [|[|i]]; [reflexivity|reflexivity|lia]).
        destruct (Z.eqb_spec (v i) 2); lia.
      * rewrite norm2_id. apply Rle_refl.
    + rewrite (S2 0%nat), (S2 1%nat) by lia. unfold msq. unfold d, dims. cbn [nth]. fold (v 0%nat). fold (v 1%nat).
      assert (X := m3_least (v 0%nat) (s 0%nat) (RNG 0%nat ltac:(lia))). assert (Y := m3_least (v 1%nat) (s 1%nat) (RNG 1%nat ltac:(lia))). lia.
Qed.
Lemma sqrt_Z_eq : forall z, (0 <= z)%Z -> (sqrt (IZR z) = 1 <-> z = 1%Z).
Proof.
  intros z Hz. split.
  - intros H. apply eq_IZR. rewrite <- (sqrt_sqrt (IZR z)) by (apply (IZR_le 0); auto). rewrite H. lra.
  - intros ->. apply sqrt_1.
Qed.
Lemma if33 : forall p (a b : R), (if Req_EM_T (Q33 p) 1 then a else b) = if (msq p =? 1)%Z then a else b.
Proof.
  intros p a b. assert (N : (0 <= msq p)%Z) by (unfold msq; nia). unfold Q33.
  destruct (Req_EM_T (sqrt (IZR (msq p))) 1) as [E|E]; rewrite sqrt_Z_eq in E by auto; destruct (Z.eqb_spec (msq p) 1); auto; contradiction.
Qed.
Lemma sep33 : forall p q, in_box [3%Z; 3%Z] p -> in_box [3%Z; 3%Z] q -> Q33 p = Q33 q \/ Rabs (Q33 p - Q33 q) > tolerance.
Proof.
  assert (R3 : forall p, in_box [3%Z; 3%Z] p -> msq p = 0%Z \/ msq p = 1%Z \/ msq p = 2%Z).
  { intros p B. inversion B as [|? a ? l Ha B1]; subst. inversion B1 as [|? b ? l' Hb B2]; subst. unfold msq, m3. cbn [nth].
    destruct (Z.eqb_spec a 2), (Z.eqb_spec b 2); nia. }
  assert (S2 : 1 + 1 / 100 < sqrt 2).
  { rewrite <- (sqrt_pow2 (1 + 1 / 100)) by lra. apply sqrt_lt_1_alt. lra. }
  assert (T : tolerance < 1 / 100) by (unfold tolerance; lra).
  intros p q Bp Bq. unfold Q33. destruct (R3 p Bp) as [-> | [-> | ->]]; destruct (R3 q Bq) as [-> | [-> | ->]]; auto; right;
    rewrite ?sqrt_0, ?sqrt_1; unfold Rabs; destruct (Rcase_abs _); lra.
Qed.

(** The average over a shell is not the average over its wavevectors: 3 x 3
    points, a square cell. *)
Theorem C80_shell_refuted : exists dims kb Q S out k v v', dims <> [] /\ positive dims /\
  is_wavenumber dims kb Q /\ inversion_symmetric dims S /\
  averageStructureFactor (nK dims) (qList dims kb) (fun r => S (gridPos (computeKMesh dims) r)) [] = Ok out /\
  In (k, v) out /\
  (exists r, (r < nR dims)%nat /\ Q (gridPos dims r) = k) /\
  is_mean (nR dims) (fun r => Q (gridPos dims r)) (fun r => S (gridPos dims r)) k v' /\ v <> v'.
Proof.
  set (dims := [3%Z; 3%Z]). assert (HP : positive dims) by (repeat constructor). assert (Hne : dims <> []) by discriminate.
  assert (NK : nK dims = 6%nat) by reflexivity. assert (NR : nR dims = 9%nat) by reflexivity.
  assert (SEP : forall i j, (i < nK dims)%nat -> (j < nK dims)%nat -> qList dims kbId i = qList dims kbId j \/ Rabs (qList dims kbId i - qList dims kbId j) > tolerance).
  { intros i j Hi Hj. rewrite !q33 by (rewrite NK in *; auto). apply sep33; apply half_pos; auto. }
  destruct (C80_structure (nK dims) (qList dims kbId) (fun r => S33 (gridPos (computeKMesh dims) r)) ltac:(rewrite NK; lia) SEP) as [out [E [_ SP]]].
  exists dims, kbId, Q33, S33, out, 1, (1 / 3), (1 / 2). split; auto. split; auto. split; [apply wave33|]. split; [|split; [exact E|split; [|split; [|split; [|lra]]]]].
  - intros p p' B B' O. rewrite (opposite_unique dims p p') by auto.
    inversion B as [|? a ? l Ha B1]; subst. inversion B1 as [|? b ? l' Hb B2]; subst. unfold S33. cbn [negmod nth dims].
    assert (b = 0 \/ b = 1 \/ b = 2)%Z as [-> | [-> | ->]] by lia; reflexivity.
  - apply SP. rewrite NK. split.
    + exists 1%nat. split; [lia|]. rewrite q33 by lia. change (gridPos (computeKMesh [3%Z; 3%Z]) 1) with [0%Z; 1%Z]. apply sqrt_1.
    + unfold is_mean.
      rewrite (rsum_ext 6 _ (fun i => if (msq (gridPos (computeKMesh dims) i) =? 1)%Z then 1 else 0)) by (intros i Hi; rewrite q33 by lia; apply if33).
      rewrite (rsum_ext 6 (fun i => if Req_EM_T (qList dims kbId i) 1 then S33 (gridPos (computeKMesh dims) i) else 0)
         (fun i => if (msq (gridPos (computeKMesh dims) i) =? 1)%Z then S33 (gridPos (computeKMesh dims) i) else 0)) by (intros i Hi; rewrite q33 by lia; apply if33).
      cbn [rsum]. 
      change (gridPos (computeKMesh dims) 0) with [0%Z; 0%Z]. change (gridPos (computeKMesh dims) 1) with [0%Z; 1%Z].
      change (gridPos (computeKMesh dims) 2) with [1%Z; 0%Z]. change (gridPos (computeKMesh dims) 3) with [1%Z; 1%Z].
      change (gridPos (computeKMesh dims) 4) with [2%Z; 0%Z]. change (gridPos (computeKMesh dims) 5) with [2%Z; 1%Z].
      unfold msq, m3, S33. cbn. lra.
  - exists 1%nat. split; [rewrite NR; lia|]. change (gridPos dims 1) with [0%Z; 1%Z]. apply sqrt_1.
  - rewrite NR. unfold is_mean.
    rewrite (rsum_ext 9 _ (fun i => if (msq (gridPos dims i) =? 1)%Z then 1 else 0)) by (intros; apply if33).
    rewrite (rsum_ext 9 (fun i => if Req_EM_T (Q33 (gridPos dims i)) 1 then S33 (gridPos dims i) else 0)
       (fun i => if (msq (gridPos dims i) =? 1)%Z then S33 (gridPos dims i) else 0)) by (intros; apply if33).
    cbn [rsum].
    change (gridPos dims 0) with [0%Z; 0%Z]. change (gridPos dims 1) with [0%Z; 1%Z]. change (gridPos dims 2) with [0%Z; 2%Z].
    change (gridPos dims 3) with [1%Z; 0%Z]. change (gridPos dims 4) with [1%Z; 1%Z]. change (gridPos dims 5) with [1%Z; 2%Z].
    change (gridPos dims 6) with [2%Z; 0%Z]. change (gridPos dims 7) with [2%Z; 1%Z]. change (gridPos dims 8) with [2%Z; 2%Z].
    unfold msq, m3, S33. cbn. lra.
Qed.

(** Wavenumbers that differ by less than the tolerance: the mean of the means is
    written, not the mean of the values. *)
Definition qClose (i : nat) : R := if (i =? 2)%nat then 1 + 1 / 1000000 else 1.
Definition sClose (i : nat) : R := if (i =? 2)%nat then 3 else 0.
Theorem C80_tolerance_refuted : exists n q s v, (forall i j, (i < n)%nat -> (j < n)%nat -> Rabs (q i - q j) <= tolerance) /\
  averageStructureFactor n q s [] = Ok [(q 0%nat, v)] /\ v * INR n <> rsum n s.
Proof.
  exists 3%nat, qClose, sClose, (3 / 2). split; [|split].
  - intros i j Hi Hj. unfold qClose, tolerance. destruct (Nat.eqb_spec i 2), (Nat.eqb_spec j 2); unfold Rabs; destruct (Rcase_abs _); lra.
  - assert (Q01 : qClose 0 = 1 /\ qClose 1 = 1 /\ qClose 2 = 1 + 1 / 1000000) by (unfold qClose; cbn; auto).
    destruct Q01 as [Q0 [Q1 Q2]].
    assert (C1 : INR (countq 3 qClose 1) = 2).
    { rewrite countq_rsum. cbn [rsum]. rewrite Q0, Q1, Q2. destruct (Req_EM_T 1 1); [|lra]. destruct (Req_EM_T (1 + 1 / 1000000) 1); lra. }
    assert (C2 : INR (countq 3 qClose (1 + 1 / 1000000)) = 1).
    { rewrite countq_rsum. cbn [rsum]. rewrite Q0, Q1, Q2. destruct (Req_EM_T 1 (1 + 1 / 1000000)); [lra|].
      destruct (Req_EM_T (1 + 1 / 1000000) (1 + 1 / 1000000)); lra. }
    assert (M0 : sMap0 3 qClose sClose = [(1, 0 + 0 + 0); (1 + 1 / 1000000, 0 + 3)]).
    { unfold sMap0. cbn [seq fold_left mapAdd]. rewrite Q0, Q1, Q2. change (sClose 0) with 0. change (sClose 1) with 0. change (sClose 2) with 3.
      destruct (Rlt_dec 1 1); [lra|]. destruct (Req_EM_T 1 1); [|lra]. cbn [mapAdd].
      destruct (Rlt_dec (1 + 1 / 1000000) 1); [lra|]. destruct (Req_EM_T (1 + 1 / 1000000) 1); [lra|]. reflexivity. }
    unfold averageStructureFactor, sMap. rewrite M0. cbn [map fst snd]. rewrite C1, C2, Q0. cbn [batches].
    destruct (Rle_dec (Rabs (1 + 1 / 1000000 - 1)) tolerance) as [_|N].
    + cbn [mapSet]. do 3 f_equal. cbn [INR]. field.
    + exfalso. apply N. unfold tolerance. rewrite Rabs_right; lra.
  - cbn. lra.
Qed.

(** A second simulation with the structure factor analyzer throws. *)
Theorem C80_second_setup_refuted : exists first, sfSetup first = Ok true /\ bind (sfSetup first) sfSetup = Throw.
Proof. exists false. split; reflexivity. Qed.

(** The structure factor of a field: zero average amplitude gives the shot-noise
    term, and it is increasing in the mean square amplitude. *)
Theorem C80_structure_value : forall dims wA wB V v chi k, positive dims -> v <> 0 -> chi <> 0 ->
  v * structureFactor V v chi (sfSample dims wA wB k) =
  V / v * (power dims (fun i => (wA i - wB i) / 2) (gridPos (computeKMesh dims) k) / chi ^ 2) - 1 / (2 * chi).
Proof.
  intros dims wA wB V v chi k HP Hv Hc. unfold structureFactor, sfSample. rewrite power_normSq by auto. field. auto.
Qed.

(* ---------- cases ---------- *)
Lemma C80_case_max : exists v g, maxCompute [3%Z; 2%Z] kbId delta0 = Ok (v, g).
Proof.
  apply C80_max_defined; [discriminate|repeat constructor|]. exists [0%Z; 1%Z]. split.
  - constructor; [lia|]. constructor; [lia|constructor].
  - intros H. inversion H; subst. inversion H3; subst. discriminate.
Qed.
Lemma C80_case_fourth : exists S, is_pair_sum [5%Z] delta0 S /\ 0 < S /\
  fourthCompute [5%Z] (fourthSetup [5%Z] kbId None) delta0 ^ 4 = S.
Proof.
  assert (HP : positive [5%Z]) by (repeat constructor).
  destruct (pair_sum_exists [5%Z] delta0 HP) as [S HS]. exists S. split; auto.
  destruct (C80_fourth_1d 5 kbId delta0 S ltac:(lia) HS) as [_ E]. split; auto.
  destruct HS as [c [HC ->]]. unfold fullgrid_sum. change (nR [5%Z]) with 5%nat. cbn [rsum]. rewrite !power_delta by auto.
  change (prodZ [5%Z]) with 5%Z.
  change (gridPos [5%Z] 0) with [0%Z]. change (gridPos [5%Z] 1) with [1%Z]. change (gridPos [5%Z] 2) with [2%Z].
  change (gridPos [5%Z] 3) with [3%Z]. change (gridPos [5%Z] 4) with [4%Z].
  assert (V : forall a, (0 <= a < 5)%Z -> 0 <= c [a] /\ (a <> 0%Z -> 1 / 2 <= c [a])).
  { intros a Ha. destruct (HC [a]) as [A [B C]]; [constructor; auto; constructor|].
    destruct (classic (isZero [a])) as [Z|Z].
    - rewrite A by auto. split; [lra|]. intros N. inversion Z; subst. contradiction.
    - destruct (classic (self_inverse [5%Z] [a])); [rewrite B by auto|rewrite C by auto]; split; intros; lra. }
  assert (V0 := proj1 (V 0%Z ltac:(lia))). assert (V1 := proj2 (V 1%Z ltac:(lia)) ltac:(lia)). assert (V2 := proj2 (V 2%Z ltac:(lia)) ltac:(lia)).
  assert (V3 := proj2 (V 3%Z ltac:(lia)) ltac:(lia)). assert (V4 := proj2 (V 4%Z ltac:(lia)) ltac:(lia)).
  assert (P : ((1 / 5) ^ 2) ^ 2 > 0) by lra. nra.
Qed.

Print Assumptions C80_prefactor.
Print Assumptions C80_prefactor_again.
Print Assumptions C80_fourth_bounds.
Print Assumptions C80_fourth_partial.
Print Assumptions C80_fourth_1d.
Print Assumptions C80_fourth_refuted.
Print Assumptions C80_max.
Print Assumptions C80_max_defined.
Print Assumptions C80_structure.
Print Assumptions C80_structure_value.
Print Assumptions C80_batches.
Print Assumptions C80_shell_partial.
Print Assumptions C80_shell_refuted.
Print Assumptions C80_tolerance_refuted.
Print Assumptions C80_second_setup_refuted.
