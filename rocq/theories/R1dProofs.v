From Coq Require Import Reals ZArith List Bool Arith Lia Lra.
From Verif Require Import Base RSum Polymer PolymerSpec PolymerProofs Solve SolveProofs Species
  TridiagSpec Tridiag PropsTridiag R1d.
Import ListNotations.
Local Open Scope R_scope.

(* ---------- tridiagonal matrices that are self-adjoint ---------- *)

Lemma rsum_shift : forall n (a : nat -> R),
  rsum n (fun i => match i with O => 0 | S k => a k end) = rsum (n - 1) a.
Proof.
  intros [|n] a; [reflexivity|]. rewrite rsum_S_first. rewrite Nat.sub_succ, Nat.sub_0_r. rewrite Rplus_0_l. reflexivity.
Qed.
Lemma rsum_cut : forall n (a : nat -> R),
  rsum n (fun i => if (S i <? n)%nat then a i else 0) = rsum (n - 1) a.
Proof.
  intros [|n] a; [reflexivity|]. simpl rsum. rewrite Nat.ltb_irrefl.
  rewrite Nat.sub_0_r, Rplus_0_r. apply rsum_ext. intros i Hi.
  destruct (Nat.ltb_spec (S i) (S n)); [auto|lia].
Qed.

Section Adj.
Variables (n : nat) (wt d u l : nat -> R).
Hypothesis Hbal : forall i, (S i < n)%nat -> wt i * u i = wt (S i) * l i.

Lemma tri_bilinear : forall x y,
  wavg n wt (tri_row n d u l x) y =
  rsum n (fun i => wt i * d i * x i * y i)
  + rsum (n - 1) (fun i => wt i * u i * (x i * y (S i) + x (S i) * y i)).
Proof.
  intros x y. unfold wavg, tri_row.
  transitivity (rsum n (fun i => wt i * d i * x i * y i)
     + (rsum n (fun i => match i with O => 0 | S k => wt (S k) * l k * x k * y (S k) end)
        + rsum n (fun i => if (S i <? n)%nat then wt i * u i * x (S i) * y i else 0))).
  - rewrite <- !rsum_plus. apply rsum_ext. intros i Hi.
    destruct i; destruct (_ <? n)%nat; lra.
  - f_equal. rewrite rsum_shift, rsum_cut, <- rsum_plus. apply rsum_ext.
    intros i Hi. rewrite <- (Hbal i) by lia. lra.
Qed.

Lemma tri_selfadj : forall x y,
  wavg n wt (tri_row n d u l x) y = wavg n wt x (tri_row n d u l y).
Proof.
  intros x y. rewrite (wavg_comm n wt x). rewrite !tri_bilinear.
  f_equal; apply rsum_ext; intros; lra.
Qed.

Lemma wavg_extn : forall f g f' g', (forall i, (i < n)%nat -> f i * g i = f' i * g' i) ->
  wavg n wt f g = wavg n wt f' g'.
Proof. intros. unfold wavg. apply rsum_ext. intros. rewrite H; auto. Qed.

(** Crank-Nicolson step: T = A^-1 (2 - A). *)
Variable T : (nat -> R) -> nat -> R.
Hypothesis HT : forall f i, (i < n)%nat -> tri_row n d u l (T f) i = 2 * f i - tri_row n d u l f i.
Hypothesis HP : forall i, (i < n)%nat -> t_d (computeLU n d u l) i <> 0.

Lemma tri_row_lin : forall a b x y i,
  tri_row n d u l (fun j => a * x j + b * y j) i = a * tri_row n d u l x i + b * tri_row n d u l y i.
Proof. intros. unfold tri_row. destruct i; destruct (_ <? n)%nat; lra. Qed.

Lemma cn_selfadj : forall f g, wavg n wt (T f) g = wavg n wt f (T g).
Proof.
  intros f g. set (t := computeLU n d u l). set (g' := Tridiag.solve t g).
  assert (Eg : forall i, (i < n)%nat -> tri_row n d u l g' i = g i)
    by (intros; apply tridiagonal_solve_correct; auto).
  (* T g = 2 g' - g *)
  assert (Tg : forall i, (i < n)%nat -> T g i = 2 * g' i + (-1) * g i).
  { intros i Hi.
    set (r := fun i => 2 * g i - tri_row n d u l g i).
    destruct (tridiagonal_solve_multiply_inverse n d u l r HP) as [_ [_ U]].
    rewrite (U (T g) (HT g) i Hi).
    rewrite (U (fun j => 2 * g' j + (-1) * g j)); auto.
    intros j Hj. rewrite tri_row_lin, Eg by auto. unfold r. lra. }
  (* <T f, g> = <T f, A g'> = <A T f, g'> = <2 f - A f, g'> *)
  rewrite (wavg_extn (T f) g (T f) (tri_row n d u l g')) by (intros; rewrite Eg; auto).
  rewrite <- tri_selfadj.
  rewrite (wavg_extn (tri_row n d u l (T f)) g' (fun i => 2 * f i - tri_row n d u l f i) g')
    by (intros; rewrite HT; auto).
  transitivity (2 * wavg n wt f g' - wavg n wt (tri_row n d u l f) g').
  { unfold wavg. rewrite <- rsum_scal, <- rsum_minus. apply rsum_ext. intros; lra. }
  rewrite tri_selfadj.
  rewrite (wavg_extn f (tri_row n d u l g') f g) by (intros; rewrite Eg; auto).
  rewrite (wavg_extn f (T g) f (fun i => 2 * g' i + (-1) * g i)) by (intros; rewrite Tg; auto).
  unfold wavg. rewrite <- rsum_scal, <- rsum_minus. apply rsum_ext. intros; lra.
Qed.
End Adj.

(** Iterates of a self-adjoint step. *)
Lemma iter_selfadj : forall n wt (T : (nat -> R) -> nat -> R),
  (forall f g, wavg n wt (T f) g = wavg n wt f (T g)) ->
  forall j k f g, wavg n wt (Nat.iter j T f) (Nat.iter k T g) = wavg n wt f (Nat.iter (j + k) T g).
Proof.
  intros n wt T H. induction j; intros; simpl; auto.
  rewrite H. change (T (Nat.iter k T g)) with (Nat.iter (S k) T g). rewrite IHj.
  replace (j + S k)%nat with (S (j + k)) by lia. auto.
Qed.

Lemma nth_iterSlices : forall n T h j, (j < n)%nat ->
  nth j (iterSlices n T h) zero_field = Nat.iter j T h.
Proof.
  intros. unfold iterSlices. rewrite (nth_indep _ _ (Nat.iter O T h)) by (rewrite map_length, seq_length; auto).
  rewrite (map_nth (fun j => Nat.iter j T h)), seq_nth; auto.
Qed.
Lemma hd_nth0 : forall (l : list field), hd zero_field l = nth O l zero_field.
Proof. destruct l; auto. Qed.
Lemma last_nth : forall (l : list field), last l zero_field = nth (length l - 1) l zero_field.
Proof.
  induction l as [|a l IH]; auto. destruct l as [|b l]; auto.
  change (last (a :: b :: l) zero_field) with (last (b :: l) zero_field). rewrite IH.
  simpl. rewrite Nat.sub_0_r. auto.
Qed.
Lemma iterSlices_length : forall n T h, length (iterSlices n T h) = n.
Proof. intros. unfold iterSlices. rewrite map_length, seq_length; auto. Qed.

(* ---------- the domain ---------- *)

(** Everything the four setters can produce with sensible arguments. *)
Definition valid_domain (d : domain) : Prop :=
  (2 <= d_nx d)%nat /\ d_xMin d < d_xMax d /\
  (d_mode d <> Planar -> (if d_shell d then 0 < d_xMin d else d_xMin d = 0)).

Definition wtRaw (d : domain) (i : nat) : R :=
  let x := d_xMin d / d_dx d + INR i in
  let e := if (i =? 0)%nat then true else (i =? d_nx d - 1)%nat in
  match d_mode d with
  | Planar => if e then 1/2 else 1
  | Cylindrical =>
      if (i =? 0)%nat then (if d_shell d then 1/2 * x else 1/8) else if e then 1/2 * x else x
  | Spherical =>
      if (i =? 0)%nat then (if d_shell d then 1/2 * (x * x) else 1/24)
      else if e then 1/2 * (x * x) else x * x
  end.

Lemma split_sum : forall n (f : nat -> R), (2 <= n)%nat ->
  rsum n f = f O + rsum (n - 2) (fun k => f (S k)) + f (n - 1)%nat.
Proof.
  intros n f H. destruct n as [|[|n]]; try lia. rewrite rsum_S_first.
  simpl. rewrite Nat.sub_0_r. lra.
Qed.

Lemma three_eq : forall a b c a' b' c' : R, a = a' -> b = b' -> c = c' -> a + b + c = a' + b' + c'.
Proof. intros; subst; auto. Qed.

Section D.
Variable d : domain.
Hypothesis HD : valid_domain d.

Lemma dx_pos : 0 < d_dx d.
Proof.
  destruct HD as [Hn [Hx _]]. unfold d_dx. apply Rdiv_lt_0_compat; [lra|].
  apply lt_0_INR. lia.
Qed.
Lemma n1_pos : 1 <= INR (d_nx d - 1).
Proof. destruct HD as [Hn _]. replace 1 with (INR 1) by auto. apply le_INR. lia. Qed.

Lemma avgChecks_true : avgChecks d = true.
Proof.
  destruct HD as [Hn [Hx _]]. unfold avgChecks. assert (P := dx_pos).
  destruct (Rlt_dec 0 (d_dx d)); [|lra].
  destruct (Rle_dec (d_dx d) (d_xMax d - d_xMin d)) as [|N].
  - rewrite !andb_true_r. apply Nat.ltb_lt. lia.
  - exfalso. apply N. assert (Q := n1_pos).
    assert (E : d_xMax d - d_xMin d = d_dx d * INR (d_nx d - 1)).
    { unfold d_dx. field. lra. }
    rewrite E. rewrite <- (Rmult_1_r (d_dx d)) at 1. apply Rmult_le_compat_l; lra.
Qed.

Lemma avgSum_wt : forall f, avgSum d f = rsum (d_nx d) (fun i => wtRaw d i * f i).
Proof.
  intros f. destruct HD as [Hn _]. rewrite split_sum by auto.
  unfold avgSum, wtRaw. cbv zeta. simpl (0 =? 0)%nat. cbv iota.
  rewrite (Nat.eqb_refl (d_nx d - 1)).
  replace (d_nx d - 1 =? 0)%nat with false by (symmetry; apply Nat.eqb_neq; lia).
  destruct (d_mode d).
  - apply three_eq; auto. apply rsum_ext. intros i Hi.
    replace (S i =? d_nx d - 1)%nat with false by (symmetry; apply Nat.eqb_neq; lia). simpl. lra.
  - apply three_eq.
    + simpl INR. destruct (d_shell d); lra.
    + apply rsum_ext. intros i Hi.
      replace (S i =? d_nx d - 1)%nat with false by (symmetry; apply Nat.eqb_neq; lia).
      simpl (S i =? 0)%nat. cbv iota. lra.
    + lra.
  - apply three_eq.
    + simpl INR. destruct (d_shell d); lra.
    + apply rsum_ext. intros i Hi.
      replace (S i =? d_nx d - 1)%nat with false by (symmetry; apply Nat.eqb_neq; lia).
      simpl (S i =? 0)%nat. cbv iota. lra.
    + lra.
Qed.

Lemma avgNorm_wt : avgNorm d = rsum (d_nx d) (wtRaw d).
Proof.
  transitivity (avgSum d (fun _ => 1)).
  - unfold avgNorm, avgSum. destruct HD as [Hn _]. destruct (d_mode d).
    + rewrite rsum_const, !minus_INR by lia. simpl INR. lra.
    + apply three_eq.
      * destruct (d_shell d); lra.
      * apply rsum_ext. intros; lra.
      * lra.
    + apply three_eq.
      * destruct (d_shell d); lra.
      * apply rsum_ext. intros; lra.
      * lra.
  - rewrite avgSum_wt. apply rsum_ext. intros; lra.
Qed.

Lemma x0_nonneg : d_mode d <> Planar -> 0 <= d_xMin d / d_dx d /\ (d_shell d = true -> 0 < d_xMin d / d_dx d)
   /\ (d_shell d = false -> d_xMin d / d_dx d = 0).
Proof.
  intros M. destruct HD as [_ [_ H]]. specialize (H M). assert (P := dx_pos).
  destruct (d_shell d).
  - assert (0 < d_xMin d / d_dx d) by (apply Rdiv_lt_0_compat; auto).
    repeat split; intros; try lra; try discriminate.
  - rewrite H. unfold Rdiv. rewrite Rmult_0_l. repeat split; intros; try lra; discriminate.
Qed.

Lemma wtRaw_pos : forall i, 0 < wtRaw d i.
Proof.
  intros i. unfold wtRaw. cbv zeta.
  assert (I : 0 <= INR i) by apply pos_INR.
  assert (I1 : (i =? 0)%nat = false -> 1 <= INR i).
  { intros E. apply Nat.eqb_neq in E. replace 1 with (INR 1) by auto. apply le_INR. lia. }
  destruct (d_mode d) eqn:M.
  - destruct (i =? 0)%nat; [lra|]. destruct (i =? d_nx d - 1)%nat; lra.
  - destruct (x0_nonneg ltac:(congruence)) as [A [B C]].
    destruct (i =? 0)%nat eqn:E.
    + destruct (d_shell d); [|lra]. specialize (B eq_refl). lra.
    + specialize (I1 eq_refl). destruct (i =? d_nx d - 1)%nat; lra.
  - destruct (x0_nonneg ltac:(congruence)) as [A [B C]].
    destruct (i =? 0)%nat eqn:E.
    + destruct (d_shell d); [|lra]. specialize (B eq_refl).
      assert (0 < (d_xMin d / d_dx d + INR i) * (d_xMin d / d_dx d + INR i)) by (apply Rmult_lt_0_compat; lra). lra.
    + specialize (I1 eq_refl).
      assert (0 < (d_xMin d / d_dx d + INR i) * (d_xMin d / d_dx d + INR i)) by (apply Rmult_lt_0_compat; lra).
      destruct (i =? d_nx d - 1)%nat; lra.
Qed.

Lemma avgNorm_pos : 0 < avgNorm d.
Proof. rewrite avgNorm_wt. apply rsum_pos; [destruct HD; lia|]. intros; apply wtRaw_pos. Qed.

Definition wtN (i : nat) : R := wtRaw d i / avgNorm d.
Lemma spatialAvg_wt : forall f g, spatialAvg d (fun i => f i * g i) = wavg (d_nx d) wtN f g.
Proof.
  intros. unfold spatialAvg. rewrite avgSum_wt. unfold wavg, wtN, Rdiv.
  rewrite <- rsum_scal_r. apply rsum_ext. intros. lra.
Qed.
Lemma spatialAvg_scal : forall c f, spatialAvg d (fun i => f i * c) = spatialAvg d f * c.
Proof.
  intros. unfold spatialAvg. rewrite !avgSum_wt. unfold Rdiv.
  rewrite (rsum_ext _ _ (fun i => wtRaw d i * f i * c)) by (intros; lra). rewrite rsum_scal_r. lra.
Qed.
Lemma spatialAvg_plus : forall f g, spatialAvg d (fun i => f i + g i) = spatialAvg d f + spatialAvg d g.
Proof.
  intros. unfold spatialAvg. rewrite !avgSum_wt. unfold Rdiv.
  rewrite (rsum_ext _ _ (fun i => wtRaw d i * f i + wtRaw d i * g i)) by (intros; lra). rewrite rsum_plus. lra.
Qed.
Lemma spatialAvg_rsum : forall n (f : nat -> field),
  spatialAvg d (fun i => rsum n (fun k => f k i)) = rsum n (fun k => spatialAvg d (f k)).
Proof.
  induction n; intros; simpl.
  - unfold spatialAvg. rewrite avgSum_wt. rewrite (rsum_ext _ _ (fun _ => 0)) by (intros; lra).
    rewrite rsum_zero. unfold Rdiv; lra.
  - rewrite spatialAvg_plus, IHn. auto.
Qed.

(** Balance condition of the matrix with respect to the averaging weights. *)
Variables (ds kuhn : R) (w : field).

Lemma rowX_eq : forall i, rowX d i = d_dx d * (d_xMin d / d_dx d + INR i).
Proof. intros. unfold rowX. assert (P := dx_pos). field. lra. Qed.
Lemma xMax_eq : d_xMax d = d_dx d * (d_xMin d / d_dx d + INR (d_nx d - 1)).
Proof.
  assert (P := dx_pos). assert (Q := n1_pos).
  transitivity (d_xMin d + d_dx d * INR (d_nx d - 1)); [|field; lra].
  unfold d_dx. field. lra.
Qed.

Lemma balance : forall i, (S i < d_nx d)%nat ->
  wtN i * matU d ds kuhn i = wtN (S i) * matL d ds kuhn i.
Proof.
  intros i Hi. unfold wtN, Rdiv. rewrite !(Rmult_comm (wtRaw d _)), !Rmult_assoc. f_equal.
  assert (P := dx_pos).
  assert (RX := rowX_eq). assert (XM := xMax_eq). assert (XZ := x0_nonneg).
  assert (XN : d_xMin d = d_dx d * (d_xMin d / d_dx d)) by (field; lra).
  unfold matU, matL, wtRaw. cbv zeta.
  unfold rmLast, rpInt, rmInt, rpFirst. rewrite !RX, !XM.
  generalize (c1 d ds kuhn). intros C.
  set (x0 := d_xMin d / d_dx d) in *. set (dx := d_dx d) in *. set (xm := d_xMin d) in *.
  clearbody x0 dx xm. clear RX XM.
  assert (B1 : (i =? d_nx d - 2)%nat = (S i =? d_nx d - 1)%nat).
  { apply eq_true_iff_eq. rewrite !Nat.eqb_eq. lia. }
  rewrite B1. simpl (S i =? 0)%nat. cbv iota.
  assert (B2 : (i =? d_nx d - 1)%nat = false) by (apply Nat.eqb_neq; lia).
  rewrite B2.
  assert (SI : INR (S i) = INR i + 1) by apply S_INR.
  unfold sq.
  destruct (d_mode d) eqn:M.
  - (* planar *)
    destruct (i =? 0)%nat; destruct (S i =? d_nx d - 1)%nat; lra.
  - destruct (XZ ltac:(congruence)) as [A [S0 C0]].
    destruct (Nat.eqb_spec i 0) as [->|Ni].
    + simpl INR in SI. 
      destruct (d_shell d).
      * specialize (S0 eq_refl).
        rewrite XN.
        destruct (Nat.eqb_spec 1 (d_nx d - 1)) as [E|E]; rewrite <- ?E; simpl INR; field; lra.
      * specialize (C0 eq_refl). rewrite C0.
        destruct (Nat.eqb_spec 1 (d_nx d - 1)) as [E|E]; rewrite <- ?E; simpl INR; field; lra.
    + assert (Ii : 1 <= INR i) by (replace 1 with (INR 1) by auto; apply le_INR; lia).
      destruct (Nat.eqb_spec (S i) (d_nx d - 1)) as [E|E]; rewrite <- ?E; rewrite ?SI; field; lra.
  - destruct (XZ ltac:(congruence)) as [A [S0 C0]].
    destruct (Nat.eqb_spec i 0) as [->|Ni].
    + simpl INR in SI. 
      destruct (d_shell d).
      * specialize (S0 eq_refl).
        rewrite XN.
        destruct (Nat.eqb_spec 1 (d_nx d - 1)) as [E|E]; rewrite <- ?E; simpl INR; field; lra.
      * specialize (C0 eq_refl). rewrite C0.
        destruct (Nat.eqb_spec 1 (d_nx d - 1)) as [E|E]; rewrite <- ?E; simpl INR; field; lra.
    + assert (Ii : 1 <= INR i) by (replace 1 with (INR 1) by auto; apply le_INR; lia).
      destruct (Nat.eqb_spec (S i) (d_nx d - 1)) as [E|E]; rewrite <- ?E; rewrite ?SI; field; lra.
Qed.

Definition pivots_ok : Prop :=
  forall i, (i < d_nx d)%nat -> t_d (r1dLU d ds kuhn w) i <> 0.

Lemma step_spec : pivots_ok -> forall f i, (i < d_nx d)%nat ->
  tri_row (d_nx d) (matD d ds kuhn w) (matU d ds kuhn) (matL d ds kuhn) (r1dStep d ds kuhn w f) i =
  2 * f i - tri_row (d_nx d) (matD d ds kuhn w) (matU d ds kuhn) (matL d ds kuhn) f i.
Proof.
  intros HP f i Hi. unfold r1dStep, r1dLU. rewrite tridiagonal_solve_correct by auto.
  unfold stepV, tri_row, matDB, matUB, matLB, matD. destruct HD as [Hn _].
  destruct i as [|k].
  - simpl (0 =? 0)%nat. cbv iota. destruct (Nat.ltb_spec 1 (d_nx d)); [|lia]. lra.
  - simpl (S k =? 0)%nat. cbv iota. replace (S k - 1)%nat with k by lia.
    destruct (Nat.eqb_spec (S k) (d_nx d - 1)); destruct (Nat.ltb_spec (S (S k)) (d_nx d)); try lia; lra.
Qed.

Lemma step_selfadj : pivots_ok -> forall f g,
  wavg (d_nx d) wtN (r1dStep d ds kuhn w f) g = wavg (d_nx d) wtN f (r1dStep d ds kuhn w g).
Proof.
  intros HP. apply cn_selfadj with (d := matD d ds kuhn w) (u := matU d ds kuhn) (l := matL d ds kuhn).
  - apply balance.
  - apply step_spec; auto.
  - exact HP.
Qed.

(** Diagonal dominance: sufficient condition for nonzero pivots. *)
Lemma c1_nonneg : 0 <= ds -> 0 <= c1 d ds kuhn.
Proof.
  intros H. unfold c1, halfDs.
  assert (0 <= (kuhn / d_dx d) * (kuhn / d_dx d)) by apply (Rle_0_sqr (kuhn / d_dx d)).
  replace (1/2 * ds * (kuhn / d_dx d) * (kuhn / d_dx d) / 6)
     with (1/12 * (ds * ((kuhn / d_dx d) * (kuhn / d_dx d)))) by (generalize (kuhn / d_dx d); intros; field).
  apply Rmult_le_pos; [lra|]. apply Rmult_le_pos; auto.
Qed.

Lemma sq_nonneg : forall x, 0 <= x -> 0 <= sq d x.
Proof. intros. unfold sq. destruct (d_mode d); auto. apply Rmult_le_pos; auto. Qed.

Lemma pivots_dominant : 0 <= ds -> (forall i, (i < d_nx d)%nat -> -2 < ds * w i) -> pivots_ok.
Proof.
  intros Hds Hw. unfold pivots_ok, r1dLU. apply tridiagonal_dominant_pivots.
  intros i Hi. assert (C := c1_nonneg Hds). assert (P := dx_pos). destruct HD as [Hn [Hx HM]].
  assert (W : 0 < 1 + halfDs ds * w i) by (unfold halfDs; specialize (Hw i Hi); lra).
  assert (RI : forall k, (0 < k)%nat -> d_mode d <> Planar -> 0 <= rmInt d ds kuhn k /\ 0 <= rpInt d ds kuhn k).
  { intros k Hk M. assert (I : 1 <= INR k) by (replace 1 with (INR 1) by auto; apply le_INR; lia).
    destruct (x0_nonneg M) as [A _].
    assert (X : d_dx d <= rowX d k).
    { rewrite rowX_eq. rewrite <- (Rmult_1_r (d_dx d)) at 1. apply Rmult_le_compat_l; lra. }
    assert (Y : 0 <= 1/2 * d_dx d / rowX d k <= 1/2).
    { split. apply Rmult_le_pos; [lra|]. left; apply Rinv_0_lt_compat; lra.
      apply Rmult_le_reg_r with (rowX d k); [lra|]. unfold Rdiv. rewrite Rmult_assoc, Rinv_l by lra. lra. }
    unfold rmInt, rpInt. split; apply Rmult_le_pos; auto; apply sq_nonneg; lra. }
  assert (RL : d_mode d <> Planar -> 0 <= rmLast d ds kuhn).
  { intros M. destruct (x0_nonneg M) as [A _].
    assert (X : d_dx d <= d_xMax d).
    { rewrite xMax_eq. assert (Q := n1_pos). rewrite <- (Rmult_1_r (d_dx d)) at 1. apply Rmult_le_compat_l; lra. }
    assert (Y : 0 <= 1/2 * d_dx d / d_xMax d <= 1/2).
    { split. apply Rmult_le_pos; [lra|]. left; apply Rinv_0_lt_compat; lra.
      apply Rmult_le_reg_r with (d_xMax d); [lra|]. unfold Rdiv. rewrite Rmult_assoc, Rinv_l by lra. lra. }
    unfold rmLast. apply Rmult_le_pos; auto. apply sq_nonneg; lra. }
  assert (RF : d_mode d <> Planar -> 0 <= rpFirst d ds kuhn).
  { intros M. specialize (HM M). unfold rpFirst. apply Rmult_le_pos; auto.
    destruct (d_shell d).
    - apply sq_nonneg. assert (0 < 1/2 * d_dx d / d_xMin d) by (apply Rdiv_lt_0_compat; lra). lra.
    - destruct (d_mode d); lra. }
  unfold matD. set (W' := halfDs ds * w i) in *. unfold diagTerm, matU, matL.
  destruct (d_mode d) eqn:M.
  - rewrite (Rabs_right (W' + 2 * c1 d ds kuhn + 1)) by lra.
    destruct i as [|k].
    + destruct (1 <? d_nx d)%nat; simpl; [|lra].
      rewrite Rabs_Ropp, Rabs_right; lra.
    + simpl (S k =? 0)%nat. cbv iota.
      destruct (Nat.ltb_spec (S (S k)) (d_nx d)); destruct (Nat.eqb_spec k (d_nx d - 2)); try lia;
        rewrite !Rabs_Ropp, !Rabs_right; lra.
  - assert (MN : Cylindrical <> Planar) by congruence.
    specialize (RL MN). specialize (RF MN). assert (RI' := fun k Hk => RI k Hk MN).
    destruct i as [|k].
    + simpl (0 =? 0)%nat. cbv iota. rewrite (Rabs_right (W' + 2 * rpFirst d ds kuhn + 1)) by lra.
      destruct (1 <? d_nx d)%nat; [|lra]. rewrite Rabs_Ropp, Rabs_right; lra.
    + simpl (S k =? 0)%nat. cbv iota. destruct (RI' (S k) ltac:(lia)) as [R1 R2].
      destruct (Nat.ltb_spec (S (S k)) (d_nx d)); destruct (Nat.eqb_spec k (d_nx d - 2));
        destruct (Nat.eqb_spec (S k) (d_nx d - 1)); try lia; rewrite ?Rabs_Ropp, !Rabs_right; lra.
  - assert (MN : Spherical <> Planar) by congruence.
    specialize (RL MN). specialize (RF MN). assert (RI' := fun k Hk => RI k Hk MN).
    destruct i as [|k].
    + simpl (0 =? 0)%nat. cbv iota. rewrite (Rabs_right (W' + 2 * rpFirst d ds kuhn + 1)) by lra.
      destruct (1 <? d_nx d)%nat; [|lra]. rewrite Rabs_Ropp, Rabs_right; lra.
    + simpl (S k =? 0)%nat. cbv iota. destruct (RI' (S k) ltac:(lia)) as [R1 R2].
      destruct (Nat.ltb_spec (S (S k)) (d_nx d)); destruct (Nat.eqb_spec k (d_nx d - 2));
        destruct (Nat.eqb_spec (S k) (d_nx d - 1)); try lia; rewrite ?Rabs_Ropp, !Rabs_right; lra.
Qed.

End D.
