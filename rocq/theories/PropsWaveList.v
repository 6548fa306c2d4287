(** C68: the wavevector data that a WaveList reports as available belong to the
    current unit cell, and |k|^2 is even. *)
From Coq Require Import Reals List Arith ZArith Bool Lia Lra.
From Verif Require Import Base RSum MeshSpec Mesh MeshProofs UnitCell UnitCellProofs ShiftMin PropsShiftMin Fft FftProofs
  WaveListSpec WaveList PropsUnitCell PropsConvergence.
Import ListNotations.
Local Open Scope R_scope.

Lemma length2_norm2 : forall D k v, length2 D k v = norm2 D k v.
Proof. reflexivity. Qed.
Lemma alias_image : forall D d v u, alias D d v u <-> exists s, is_image D v d s u.
Proof.
  intros D d v u. split.
  - intros H. revert H. unfold alias, is_image. induction D as [|D IH]; intros H. { exists (fun _ => 0%Z). intros; lia. }
    destruct IH as [s Hs]. { intros i Hi. apply H. lia. } destruct (H D ltac:(lia)) as [z Hz].
    exists (fun i => if (i =? D)%nat then z else s i). intros i Hi. destruct (Nat.eqb_spec i D); [subst; auto|]. apply Hs. lia.
  - intros [s H] i Hi. exists (s i). now apply H.
Qed.
Lemma length2_ext : forall D k u v, (forall i, (i < D)%nat -> u i = v i) -> length2 D k u = length2 D k v.
Proof.
  intros D k u v H. unfold length2. apply rsum_ext. intros j _. f_equal. apply rsum_ext. intros i Hi. now rewrite H.
Qed.

(* ---------- cells without variable angles ---------- *)
Definition posParams (l : lattice) (p : nat -> R) : Prop := forall i, (i < nParam l)%nat -> 0 < p i.
(** Sums over groups of components with positive coefficients. *)
Lemma separable_min : forall D d (G : nat) (grp : nat -> nat) (q : nat -> (nat -> Z) -> R) (a a' : nat -> R) (f f' : (nat -> Z) -> R) v u,
  (forall g u u', (g < G)%nat -> (forall i, (i < D)%nat -> grp i = g -> u i = u' i) -> q g u = q g u') ->
  (forall g, (g < G)%nat -> 0 < a g) -> (forall g, (g < G)%nat -> 0 < a' g) ->
  (forall u, f u = rsum G (fun g => a g * q g u)) -> (forall u, f' u = rsum G (fun g => a' g * q g u)) ->
  alias D d v u -> (forall w, alias D d v w -> f u <= f w) -> forall w, alias D d v w -> f' u <= f' w.
Proof.
  intros D d G grp q a a' f f' v u HQ PA PA' F F' HA HM w HW.
  assert (Q : forall g, (g < G)%nat -> q g u <= q g w).
  { intros g Hg. set (m := fun i => if (grp i =? g)%nat then w i else u i).
    assert (AM : alias D d v m).
    { intros i Hi. unfold m. destruct (grp i =? g)%nat; [apply HW|apply HA]; auto. }
    assert (X := HM m AM). rewrite !F in X.
    assert (E : rsum G (fun h => a h * q h m) - rsum G (fun h => a h * q h u) = a g * (q g w - q g u)).
    { rewrite <- rsum_minus. rewrite (rsum_ext G _ (fun h => if (h =? g)%nat then a g * (q g w - q g u) else 0)).
      - clear - Hg. induction G; [lia|]. cbn [rsum]. destruct (Nat.eqb_spec G g).
        + subst. rewrite (rsum_ext g _ (fun _ => 0)); [rewrite rsum_zero; ring|]. intros i Hi. destruct (Nat.eqb_spec i g); [lia|auto].
        + rewrite IHG by lia. ring.
      - intros h Hh. destruct (Nat.eqb_spec h g).
        + subst. rewrite (HQ g m w Hg); [ring|]. intros i _ Hi. unfold m. now rewrite Hi, Nat.eqb_refl.
        + rewrite (HQ h m u Hh); [ring|]. intros i _ Hi. unfold m. destruct (Nat.eqb_spec (grp i) g); [congruence|auto]. }
    assert (Y : 0 <= a g * (q g w - q g u)) by lra. assert (P := PA g Hg).
    destruct (Rle_lt_dec (q g u) (q g w)); auto. nra. }
  rewrite !F'. apply rsum_le. intros g Hg. apply Rmult_le_compat_l; auto. left. auto.
Qed.

Definition sqZ (z : Z) : R := IZR z * IZR z.
Definition hexq (x y : Z) : R := sqZ x + IZR x * IZR y + sqZ y.
(** The group of each component, the function of each group and its coefficient. *)
Definition latGroups (l : lattice) : nat := match l with Hexagonal2 => 1 | Hexagonal3 => 2 | _ => dim l end.
Definition latGrp (l : lattice) (i : nat) : nat := match l with Hexagonal2 => 0 | Hexagonal3 => i - 1 | _ => i end.
Definition latQ (l : lattice) (g : nat) (u : nat -> Z) : R :=
  match l, g with
  | Hexagonal2, _ | Hexagonal3, O => hexq (u 0%nat) (u 1%nat)
  | Hexagonal3, _ => sqZ (u 2%nat)
  | _, _ => sqZ (u g)
  end.
Definition latCoef (l : lattice) (p : nat -> R) (g : nat) : R :=
  match l with
  | Hexagonal2 => (twoPi / p 0%nat) ^ 2 * (4 / 3)
  | Hexagonal3 => match g with O => (twoPi / p 0%nat) ^ 2 * (4 / 3) | _ => (twoPi / p 1%nat) ^ 2 end
  | Tetragonal => match g with 2%nat => (twoPi / p 1%nat) ^ 2 | _ => (twoPi / p 0%nat) ^ 2 end
  | Rectangular | Orthorhombic => (twoPi / p g) ^ 2
  | _ => (twoPi / p 0%nat) ^ 2
  end.
Lemma sqrt3 : sqrt 3 * sqrt 3 = 3. Proof. apply sqrt_sqrt. lra. Qed.
Lemma sqrt3_pos : 0 < sqrt 3. Proof. apply sqrt_lt_R0. lra. Qed.
Lemma lat_norm : forall l p u, hasVariableAngle l = false -> posParams l p ->
  length2 (dim l) (kBasis l p) u = rsum (latGroups l) (fun g => latCoef l p g * latQ l g u).
Proof.
  intros l p u HV HP. unfold posParams in HP. assert (S1 := sqrt3). assert (S2 := sqrt3_pos).
  destruct l; try discriminate; cbn [nParam] in HP;
    assert (P0 := HP 0%nat ltac:(lia)); try assert (P1 := HP 1%nat ltac:(lia)); try assert (P2 := HP 2%nat ltac:(lia));
    cbn [dim latGroups latCoef latQ]; unfold length2;
    cbv beta iota zeta delta [kBasis kWrites get2 e2 fold_left Nat.eqb andb rsum latQ sqZ hexq pow]; try (field; lra).
  - set (s := sqrt 3) in *. set (x := IZR (u 0%nat)). set (y := IZR (u 1%nat)).
    replace (twoPi / (s * p 0%nat)) with (twoPi / p 0%nat * s / 3).
    2:{ apply (Rmult_eq_reg_r (3 * s)); [|nra]. replace (twoPi / (s * p 0%nat) * (3 * s)) with (3 * (twoPi / p 0%nat)) by (field; lra).
        replace (twoPi / p 0%nat * s / 3 * (3 * s)) with (twoPi / p 0%nat * (s * s)) by (field; lra). rewrite S1. ring. }
    replace (twoPi / (1 / 2 * s * p 0%nat)) with (2 * (twoPi / p 0%nat * s / 3)).
    2:{ apply (Rmult_eq_reg_r (3 * s)); [|nra]. replace (twoPi / (1 / 2 * s * p 0%nat) * (3 * s)) with (6 * (twoPi / p 0%nat)) by (field; lra).
        replace (2 * (twoPi / p 0%nat * s / 3) * (3 * s)) with (2 * (twoPi / p 0%nat) * (s * s)) by (field; lra). rewrite S1. ring. }
    set (t := twoPi / p 0%nat). transitivity (t * t * x * x + t * t * (s * s) / 9 * (x + 2 * y) * (x + 2 * y)); [field|].
    rewrite S1. field.
  - set (s := sqrt 3) in *. set (x := IZR (u 0%nat)). set (y := IZR (u 1%nat)). set (z := IZR (u 2%nat)).
    replace (twoPi / (s * p 0%nat)) with (twoPi / p 0%nat * s / 3).
    2:{ apply (Rmult_eq_reg_r (3 * s)); [|nra]. replace (twoPi / (s * p 0%nat) * (3 * s)) with (3 * (twoPi / p 0%nat)) by (field; lra).
        replace (twoPi / p 0%nat * s / 3 * (3 * s)) with (twoPi / p 0%nat * (s * s)) by (field; lra). rewrite S1. ring. }
    replace (twoPi / (1 / 2 * s * p 0%nat)) with (2 * (twoPi / p 0%nat * s / 3)).
    2:{ apply (Rmult_eq_reg_r (3 * s)); [|nra]. replace (twoPi / (1 / 2 * s * p 0%nat) * (3 * s)) with (6 * (twoPi / p 0%nat)) by (field; lra).
        replace (2 * (twoPi / p 0%nat * s / 3) * (3 * s)) with (2 * (twoPi / p 0%nat) * (s * s)) by (field; lra). rewrite S1. ring. }
    set (t := twoPi / p 0%nat). set (c := twoPi / p 1%nat).
    transitivity (t * t * x * x + t * t * (s * s) / 9 * (x + 2 * y) * (x + 2 * y) + c * c * z * z); [field|].
    rewrite S1. field.
Qed.
Lemma latCoef_pos : forall l p g, posParams l p -> (g < latGroups l)%nat -> hasVariableAngle l = false -> 0 < latCoef l p g.
Proof.
  intros l p g HP Hg HV. unfold posParams in HP.
  assert (Q : forall i, (i < nParam l)%nat -> 0 < (twoPi / p i) ^ 2).
  { intros i Hi. apply pow_lt. apply Rdiv_lt_0_compat; auto. unfold twoPi. assert (X := PI_RGT_0). lra. }
  destruct l; try discriminate; cbn [latCoef latGroups dim nParam] in *; try (apply Q; lia).
  - assert (X := Q 0%nat ltac:(lia)). lra.
  - destruct g as [|[|[|g]]]; apply Q; lia.
  - destruct g as [|g]; [|apply Q; lia]. assert (X := Q 0%nat ltac:(lia)). lra.
Qed.
(** Shortest waves do not depend on lengths. *)
Lemma shortest_indep : forall l p p' d v u, hasVariableAngle l = false -> posParams l p -> posParams l p' ->
  shortest (dim l) (kBasis l p) d v u -> shortest (dim l) (kBasis l p') d v u.
Proof.
  intros l p p' d v u HV HP HP' [HA HM]. split; auto.
  apply (separable_min (dim l) d (latGroups l) (latGrp l) (latQ l) (latCoef l p) (latCoef l p') (length2 (dim l) (kBasis l p))); auto.
  - intros g w w' Hg H. destruct l; try discriminate; cbn [latQ latGrp latGroups dim] in *;
      try (rewrite H by lia; reflexivity).
    + destruct g; [|lia]. unfold hexq. rewrite (H 0%nat), (H 1%nat) by lia. reflexivity.
    + destruct g as [|[|g]]; [| |lia]. { unfold hexq. rewrite (H 0%nat), (H 1%nat) by lia. reflexivity. }
      rewrite (H 2%nat) by lia. reflexivity.
  - intros. now apply latCoef_pos.
  - intros. now apply latCoef_pos.
  - intros. now apply lat_norm.
  - intros. now apply lat_norm.
Qed.

(* ---------- freshness ---------- *)
Lemma kBasis_ext : forall l p p', (forall i, (i < nParam l)%nat -> p i = p' i) -> kBasis l p = kBasis l p'.
Proof.
  intros l p p' H.
  destruct l; cbn [nParam] in H;
  assert (H0 := H 0%nat ltac:(lia));
  try assert (H1 := H 1%nat ltac:(lia)); try assert (H2 := H 2%nat ltac:(lia)); try assert (H3 := H 3%nat ltac:(lia));
  try assert (H4 := H 4%nat ltac:(lia)); try assert (H5 := H 5%nat ltac:(lia));
  unfold kBasis; cbn [kWrites]; unfold rhTheta; rewrite ?H0, ?H1, ?H2, ?H3, ?H4, ?H5; reflexivity.
Qed.
(** The parameters in a list. *)
Definition params (ps : list R) (i : nat) : R := nth i ps 0.
(** The search of shiftToMinimum finds a shortest image of every wave. *)
Definition searchOk (l : lattice) (p : nat -> R) (dims : list Z) : Prop :=
  forall v, in_box dims v ->
    shortest (dim l) (kBasis l p) (vecOf dims) (vecOf v) (shiftToMinimum (dim l) (vecOf v) (vecOf dims) (kBasis l p)).
(** What is reported as available belongs to the parameters p. *)
Record fresh (l : lattice) (dims : list Z) (p : nat -> R) (w : wavelist) : Prop := {
  fr_min : forall M m, getMinImages w = Ok M -> (m < nK dims)%nat ->
    shortest (dim l) (kBasis l p) (vecOf dims) (vecOf (gridPos (computeKMesh dims) m)) (M m);
  fr_ksq : forall K m, getKSq w = Ok K -> (m < nK dims)%nat ->
    (exists u, alias (dim l) (vecOf dims) (vecOf (gridPos (computeKMesh dims) m)) u /\ K m = length2 (dim l) (kBasis l p) u) /\
    (forall u, alias (dim l) (vecOf dims) (vecOf (gridPos (computeKMesh dims) m)) u -> K m <= length2 (dim l) (kBasis l p) u);
  fr_dksq : forall dK i m, getdKSq w = Ok dK -> (i < nParam l)%nat -> (m < nK dims)%nat ->
    exists M, getMinImages w = Ok M /\
    dK i m = (if hasImplicitInverse (gridPos (computeKMesh dims) m) dims then 2 else 1)
             * dksq (dim l) (dkkBasis l p) (M m) i
}.

Record wlInv (l : lattice) (dims : list Z) (s : ucell * wavelist) : Prop := {
  wi_lat : uLat (fst s) = Some l;
  wi_D : uD (fst s) = dim l;
  wi_N : uN (fst s) = nParam l;
  wi_cell : uInit (fst s) = true -> uK (fst s) = kBasis l (uP (fst s)) /\ uDkk (fst s) = dkkBasis l (uP (fst s)) /\
    posParams l (uP (fst s)) /\ searchOk l (uP (fst s)) dims;
  wi_ptr : wPtr (snd s) = true;
  wi_alloc : wAlloc (snd s) = true;
  wi_dims : wDims (snd s) = dims;
  wi_min : wHasMin (snd s) = true -> uInit (fst s) = true /\ forall m, (m < nK dims)%nat ->
    shortest (dim l) (kBasis l (uP (fst s))) (vecOf dims) (vecOf (gridPos (computeKMesh dims) m)) (wMin (snd s) m);
  wi_k : wHasK (snd s) = true -> wHasMin (snd s) = true /\ forall m, (m < nK dims)%nat ->
    wK (snd s) m = ksq (dim l) (kBasis l (uP (fst s))) (wMin (snd s) m);
  wi_dk : wHasDK (snd s) = true -> wHasMin (snd s) = true /\ forall i m, (i < nParam l)%nat -> (m < nK dims)%nat ->
    wDK (snd s) i m = (if hasImplicitInverse (gridPos (computeKMesh dims) m) dims then 2 else 1)
             * dksq (dim l) (dkkBasis l (uP (fst s))) (wMin (snd s) m) i
}.

Section Fresh.
Variables (l : lattice) (dims : list Z).
Hypothesis HP : positive dims.
Hypothesis HL : length dims = dim l.

Lemma kbox_box : forall p, in_box (computeKMesh dims) p -> in_box dims p.
Proof.
  clear HL. unfold in_box. induction dims as [|d [|e ds] IH]; intros p H; cbn [computeKMesh] in H.
  - inversion H; constructor.
  - inversion H as [|? x ? p' Hx Hp]; subst. inversion Hp; subst. constructor; [|constructor].
    inversion HP; subst. rewrite Z.quot_div_nonneg in Hx by lia. assert (Y := Z_div_mod_eq_full d 2). assert (Z := Z.mod_pos_bound d 2). lia.
  - inversion H as [|? x ? p' Hx Hp]; subst. constructor; auto. apply IH; auto. inversion HP; auto.
Qed.
Lemma kpos_in_box : forall m, (m < nK dims)%nat -> in_box dims (gridPos (computeKMesh dims) m).
Proof.
  intros m Hm. apply kbox_box. apply gridPos_in_box; auto. now apply kmesh_positive.
Qed.

Lemma inv_min : forall c w w', wlInv l dims (c, w) -> computeMinimumImages w c = Ok w' ->
  wlInv l dims (c, w') /\ wHasMin w' = true /\ (wHasMin w = false -> wHasK w' = true) /\ wHasDK w' = wHasDK w.
Proof.
  intros c w w' I H. assert (I0 := I). destruct I as [I1 I2 I3 I4 I5 I6 I7 I8 I9 I10]. cbn [fst snd] in *.
  unfold computeMinimumImages in H. destruct (wHasMin w) eqn:E.
  - inversion H as [EW]; subst w'. clear - I0 E. split; [exact I0|]. split; [exact E|]. split; [intros X; congruence|reflexivity].
  - rewrite I6 in H. cbn [check bind] in H. unfold cellOk in H. rewrite I1 in H.
    destruct (uInit c) eqn:EI; [|discriminate]. cbn [check bind] in H. inversion H; subst w'; clear H.
    destruct (I4 eq_refl) as [K1 [K2 [K3 K4]]].
    split; [|cbn [wHasMin wHasK wHasDK]; auto].
    assert (MI : forall m, (m < nK dims)%nat -> fillTo (nK (wDims w)) (minImageOf (wDims w) c) (wMin w) m
       = shiftToMinimum (dim l) (vecOf (gridPos (computeKMesh dims) m)) (vecOf dims) (kBasis l (uP c))).
    { intros m Hm. unfold fillTo, minImageOf. rewrite I7, I2, K1. apply Nat.ltb_lt in Hm. now rewrite Hm. }
    constructor; cbn [fst snd wPtr wAlloc wHasMin wHasK wHasDK wDims wMin wK wDK]; auto.
    + intros _. split; auto. intros m Hm. rewrite MI by auto. apply K4. now apply kpos_in_box.
    + intros _. split; auto. intros m Hm. unfold fillTo at 1. rewrite I7 at 1. assert (X := Hm). apply Nat.ltb_lt in X. rewrite X, I2, K1. reflexivity.
    + intros Q. destruct (I10 Q) as [F _]. discriminate.
Qed.
Lemma inv_k : forall c w w', wlInv l dims (c, w) -> computeKSq w c = Ok w' -> wlInv l dims (c, w') /\ wHasK w' = true.
Proof.
  intros c w w' I H. unfold computeKSq in H. destruct (wHasK w) eqn:EK. { inversion H; subst; auto. }
  destruct (wHasMin w) eqn:E; cbn [negb] in H.
  - destruct I as [I1 I2 I3 I4 I5 I6 I7 I8 I9 I10]. cbn [fst snd] in *.
    rewrite I6 in H. cbn [check bind] in H. rewrite I3 in H. destruct (0 <? nParam l)%nat; [|discriminate]. cbn [check bind] in H.
    unfold cellOk in H. rewrite I1 in H. destruct (uInit c) eqn:EI; [|discriminate]. cbn [check bind] in H. inversion H; subst w'; clear H.
    destruct (I4 eq_refl) as [K1 [K2 [K3 K4]]]. split; [|reflexivity].
    constructor; cbn [fst snd wPtr wAlloc wHasMin wHasK wHasDK wDims wMin wK wDK]; auto.
    + intros _. split; auto. apply (I8 E).
    + intros _. split; auto. intros m Hm. unfold fillTo. rewrite I7, I2, K1. apply Nat.ltb_lt in Hm. now rewrite Hm.
    + intros Q. split; auto. apply (I10 Q).
  - destruct (inv_min c w w' I H) as [J1 [J2 [J3 J4]]]. split; auto.
Qed.
Lemma inv_dk : forall c w w', wlInv l dims (c, w) -> computedKSq w c = Ok w' -> wlInv l dims (c, w') /\ wHasDK w' = true.
Proof.
  intros c w w' I H. unfold computedKSq in H. destruct (wHasDK w) eqn:EK. { inversion H; subst; auto. }
  assert (J : exists w1, wlInv l dims (c, w1) /\ wHasMin w1 = true /\
    (check (wAlloc w1) ;; check (0 <? uN c)%nat ;; check (cellOk c) ;;
    Ok (mkWaveList (wPtr w1) (wAlloc w1) (wHasMin w1) (wHasK w1) true (wDims w1) (wMin w1) (wK w1)
        (fun i => if (i <? uN c)%nat
           then fillTo (nK (wDims w1)) (fun m => let d := dksq (uD c) (uDkk c) (wMin w1 m) i in
                  if hasImplicitInverse (gridPos (computeKMesh (wDims w1)) m) (wDims w1) then (d * 2)%R else d) (wDK w1 i)
           else wDK w1 i))) = Ok w').
  { destruct (wHasMin w) eqn:E; cbn [negb] in H.
    - exists w. cbn [bind] in H. auto.
    - destruct (computeMinimumImages w c) as [w1| | |] eqn:E1; try discriminate. cbn [bind] in H.
      destruct (inv_min c w w1 I E1) as [J1 [J2 _]]. exists w1. auto. }
  clear H EK I. destruct J as [w1 [I [E H]]].
  destruct I as [I1 I2 I3 I4 I5 I6 I7 I8 I9 I10]. cbn [fst snd] in *.
  rewrite I6 in H. cbn [check bind] in H. rewrite I3 in H. destruct (0 <? nParam l)%nat; [|discriminate]. cbn [check bind] in H.
  unfold cellOk in H. rewrite I1 in H. destruct (uInit c) eqn:EI; [|discriminate]. cbn [check bind] in H. inversion H; subst w'; clear H.
  destruct (I4 eq_refl) as [K1 [K2 [K3 K4]]]. split; [|reflexivity].
  constructor; cbn [fst snd wPtr wAlloc wHasMin wHasK wHasDK wDims wMin wK wDK]; auto.
  1: { intros _. split; auto. apply (I8 E). }
  intros _. split; auto. intros i m Hi Hm. apply Nat.ltb_lt in Hi. rewrite Hi. unfold fillTo. rewrite I7, I2, K2.
  apply Nat.ltb_lt in Hm. rewrite Hm. cbv zeta. destruct (hasImplicitInverse _ _); ring.
Qed.
Lemma posParams_ext : forall p p', (forall i, (i < nParam l)%nat -> p i = p' i) -> posParams l p -> posParams l p'.
Proof. intros p p' H HPp i Hi. rewrite <- H; auto. Qed.
Lemma searchOk_ext : forall p p', (forall i, (i < nParam l)%nat -> p i = p' i) -> searchOk l p dims -> searchOk l p' dims.
Proof. intros p p' H. unfold searchOk. now rewrite (kBasis_ext l p p' H). Qed.

Lemma inv_params : forall c w c' w' ps, wlInv l dims (c, w) -> posParams l (params ps) -> searchOk l (params ps) dims ->
  setParameters c ps = Ok c' -> clearUnitCellData w c' = Ok w' ->
  wlInv l dims (c', w') /\ uInit c' = true /\ forall i, (i < nParam l)%nat -> uP c' i = params ps i.
Proof.
  intros c w c' w' ps I Q1 Q2 H1 H2. destruct I as [I1 I2 I3 I4 I5 I6 I7 I8 I9 I10]. cbn [fst snd] in *.
  unfold setParameters in H1. destruct (length ps =? uN c)%nat; [|discriminate]. cbn [check bind] in H1.
  unfold setLattice in H1. cbn [withParams uLat uN uD uP] in H1. rewrite I1 in H1. rewrite I3, Nat.eqb_refl in H1. cbn [check bind] in H1.
  inversion H1; subst c'; clear H1.
  assert (PE : forall i, (i < nParam l)%nat -> putParams (nParam l) ps (uP c) i = params ps i).
  { intros i Hi. unfold putParams, params. apply Nat.ltb_lt in Hi. now rewrite Hi. }
  assert (G1 : posParams l (putParams (nParam l) ps (uP c))) by (apply (posParams_ext (params ps)); auto; intros; symmetry; auto).
  assert (G2 : searchOk l (putParams (nParam l) ps (uP c)) dims) by (apply (searchOk_ext (params ps)); auto; intros; symmetry; auto).
  unfold clearUnitCellData in H2. rewrite I5 in H2. cbn [uLat] in H2. inversion H2; subst w'; clear H2.
  split; [|split; auto]. constructor; cbn [fst snd uLat uD uN uP uInit uK uDkk wPtr wAlloc wHasMin wHasK wHasDK wDims wMin wK wDK]; auto; try discriminate.
  - intros _. split; auto. split; auto. unfold dkkBasis, dkBasis. now rewrite I2.
  - intros HM. destruct (hasVariableAngle l) eqn:EV; [discriminate|]. destruct (I8 HM) as [J1 J2]. split; auto.
    intros m Hm. destruct (I4 J1) as [_ [_ [K3 _]]]. apply (shortest_indep l (uP c)); auto.
Qed.

Lemma inv_start : forall junk M K DK c w, setLat (newCell (dim l) junk) l = Ok c ->
  allocate (newWaveList M K DK) dims c = Ok w -> wlInv l dims (c, w).
Proof.
  intros junk M K DK c w H1 H2. unfold setLat in H1. cbn [newCell uLat bind] in H1. inversion H1; subst c; clear H1.
  unfold allocate in H2. destruct (0 <? gridSize dims)%Z; [|discriminate]. cbn [check bind uN] in H2.
  destruct (0 <? nParam l)%nat; [|discriminate]. cbn [check bind newWaveList wAlloc negb wHasMin wHasK wHasDK wMin wK wDK] in H2.
  unfold clearUnitCellData in H2. cbn [wPtr uLat bind] in H2. inversion H2; subst w; clear H2.
  constructor; cbn [fst snd uLat uD uN uP uInit wPtr wAlloc wHasMin wHasK wHasDK wDims newCell]; auto; try discriminate.
  destruct (hasVariableAngle l); discriminate.
Qed.
Lemma inv_step : forall s o s', wlInv l dims s -> (forall ps, o = WParams ps -> posParams l (params ps) /\ searchOk l (params ps) dims) ->
  wl_step s o = Ok s' -> wlInv l dims s'.
Proof.
  intros [c w] o s' I HQ H. destruct o as [ps| | |]; cbn [wl_step] in H.
  - destruct (HQ ps eq_refl) as [Q1 Q2]. destruct (setParameters c ps) as [c'| | |] eqn:E1; try discriminate. cbn [bind] in H.
    destruct (clearUnitCellData w c') as [w'| | |] eqn:E2; try discriminate. cbn [bind] in H. inversion H; subst.
    apply (inv_params c w c' w' ps); auto.
  - destruct (computeMinimumImages w c) as [w'| | |] eqn:E2; try discriminate. cbn [bind] in H. inversion H; subst. apply (inv_min c w w' I E2).
  - destruct (computeKSq w c) as [w'| | |] eqn:E2; try discriminate. cbn [bind] in H. inversion H; subst. apply (inv_k c w w' I E2).
  - destruct (computedKSq w c) as [w'| | |] eqn:E2; try discriminate. cbn [bind] in H. inversion H; subst. apply (inv_dk c w w' I E2).
Qed.
Lemma inv_run : forall ops s s', wlInv l dims s -> (forall ps, In (WParams ps) ops -> posParams l (params ps) /\ searchOk l (params ps) dims) ->
  wl_run s ops = Ok s' -> wlInv l dims s'.
Proof.
  induction ops as [|o ops IH]; intros s s' I HQ H; cbn [wl_run] in H. { inversion H; now subst. }
  destruct (wl_step s o) as [s1| | |] eqn:E; try discriminate. cbn [bind] in H. apply (IH s1); auto.
  - apply (inv_step s o); auto. intros ps ->. apply HQ. now left.
  - intros ps Hps. apply HQ. now right.
Qed.
Lemma inv_fresh : forall c w, wlInv l dims (c, w) -> fresh l dims (uP c) w.
Proof.
  intros c w I. destruct I as [I1 I2 I3 I4 I5 I6 I7 I8 I9 I10]. cbn [fst snd] in *. constructor.
  - intros M m H Hm. unfold getMinImages in H. destruct (wHasMin w); [|discriminate]. cbn [check bind] in H. inversion H; subst. now apply I8.
  - intros K m H Hm. unfold getKSq in H. destruct (wHasK w); [|discriminate]. cbn [check bind] in H. inversion H; subst.
    destruct (I9 eq_refl) as [J1 J2]. destruct (I8 J1) as [_ J3]. destruct (J3 m Hm) as [A B].
    rewrite J2, ksq_norm2 by auto. split; [exists (wMin w m); auto|auto].
  - intros K i m H Hi Hm. unfold getdKSq in H. destruct (wHasDK w); [|discriminate]. cbn [check bind] in H. inversion H; subst.
    destruct (I10 eq_refl) as [J1 J2]. exists (wMin w). unfold getMinImages. rewrite J1. auto.
Qed.
End Fresh.

(* ---------- the function on the full grid is even ---------- *)
Definition waveLength2 (l : lattice) (p : nat -> R) (dims v : list Z) : R :=
  length2 (dim l) (kBasis l p) (shiftToMinimum (dim l) (vecOf v) (vecOf dims) (kBasis l p)).
Lemma length2_opp : forall D k u, length2 D k (fun i => - u i)%Z = length2 D k u.
Proof.
  intros D k u. unfold length2. apply rsum_ext. intros j _.
  rewrite (rsum_ext D _ (fun i => - (k i j * IZR (u i)))) by (intros i _; rewrite opp_IZR; ring). rewrite rsum_opp. ring.
Qed.
Lemma negmod_alias : forall dims v, in_box dims v -> forall i, exists s, vecOf (negmod dims v) i = (- vecOf v i + s * vecOf dims i)%Z.
Proof.
  intros dims v H. induction H as [|d x ds v' Hx Hv IH]; intros i; unfold vecOf in *; cbn [negmod].
  - exists 0%Z. destruct i; reflexivity.
  - destruct i as [|i]; cbn [nth]; [|apply IH]. exists (- (- x / d))%Z. assert (X := Z_div_mod_eq_full (- x) d). lia.
Qed.
Lemma waveLength2_even : forall l p dims v, searchOk l p dims -> in_box dims v ->
  waveLength2 l p dims (negmod dims v) = waveLength2 l p dims v.
Proof.
  intros l p dims v HS HB. assert (HN := negmod_in_box dims v HB).
  destruct (HS v HB) as [A1 M1]. destruct (HS _ HN) as [A2 M2]. fold (waveLength2 l p dims v) in M1. fold (waveLength2 l p dims (negmod dims v)) in M2.
  assert (NA := negmod_alias dims v HB).
  apply Rle_antisym.
  - unfold waveLength2 at 2. rewrite <- length2_opp. apply M2. intros i Hi. destruct (A1 i Hi) as [s ->]. destruct (NA i) as [t ->].
    exists (- s - t)%Z. ring.
  - unfold waveLength2 at 2. rewrite <- length2_opp. apply M1. intros i Hi. destruct (A2 i Hi) as [s ->]. destruct (NA i) as [t ->].
    exists (- s - t)%Z. ring.
Qed.

(* ---------- lattices for which the search is known to succeed ---------- *)
Lemma vecOf_box : forall dims v i, in_box dims v -> (i < length dims)%nat -> (0 <= vecOf v i < vecOf dims i)%Z.
Proof.
  intros dims v i H. revert i. induction H as [|d x ds v' Hx Hv IH]; intros i Hi; cbn [length] in Hi; [lia|].
  destruct i; unfold vecOf; cbn [nth]; auto. apply IH. lia.
Qed.
Lemma vecOf_vec : forall dims v, in_box dims v -> vec (length dims) (vecOf v).
Proof.
  intros dims v H i Hi. unfold vecOf. apply nth_overflow. rewrite (in_box_length _ _ H). auto.
Qed.
Lemma searchOk_1d : forall p n, (0 < n)%Z -> searchOk Lamellar p [n].
Proof.
  intros p n Hn v HB. assert (B := vecOf_box [n] v 0 HB ltac:(cbn; lia)). cbn [dim].
  change (vecOf [n] 0%nat) with n in B.
  assert (X := shiftToMinimum_1d (vecOf v) (vecOf [n]) (kBasis Lamellar p)). change (vecOf [n] 0%nat) with n in X.
  specialize (X Hn ltac:(lia)).
  cbv zeta in X. destruct X as [_ [X _]]. destruct (shiftToMinimum_image 1 (vecOf v) (vecOf [n]) (kBasis Lamellar p) ltac:(lia) (vecOf_vec [n] v HB)) as [s [_ [S2 _]]].
  split. { apply alias_image. eauto. } intros u HU. apply alias_image in HU. destruct HU as [t Ht]. apply (X t u Ht).
Qed.
Definition spaced (l : lattice) (p : nat -> R) (dims : list Z) : Prop :=
  forall x y, (forall i, (i < dim l)%nat -> exists s, (x i = y i + s * vecOf dims i)%Z) ->
    length2 (dim l) (kBasis l p) x = length2 (dim l) (kBasis l p) y \/
    Rabs (length2 (dim l) (kBasis l p) x - length2 (dim l) (kBasis l p) y) > epsilon.
Lemma image_diff : forall D v d s t x y, is_image D v d s x -> is_image D v d t y ->
  forall i, (i < D)%nat -> exists r, (x i = y i + r * d i)%Z.
Proof. intros D v d s t x y Hx Hy i Hi. exists (s i - t i)%Z. rewrite (Hx i Hi), (Hy i Hi). ring. Qed.
Lemma searchOk_orthogonal : forall l p dims, length dims = dim l -> (2 <= dim l)%nat -> positive dims ->
  (forall i j, (i < dim l)%nat -> (j < dim l)%nat -> i <> j -> kBasis l p i j = 0) -> spaced l p dims -> searchOk l p dims.
Proof.
  intros l p dims HL HD HP HO HG v HB.
  assert (VV := vecOf_vec dims v HB). rewrite HL in VV.
  destruct (shiftToMinimum_orthogonal (dim l) (vecOf v) (vecOf dims) (kBasis l p) HD VV HO) as [M _].
  - intros i Hi. assert (X := vecOf_box dims v i HB ltac:(lia)). lia.
  - intros x y s t Hx Hy. apply HG. eapply image_diff; eauto.
  - destruct (shiftToMinimum_image (dim l) (vecOf v) (vecOf dims) (kBasis l p) ltac:(lia) VV) as [s [_ [S2 _]]].
    split. { apply alias_image. eauto. } intros u HU. apply alias_image in HU. destruct HU as [t Ht]. apply (M t u Ht).
Qed.
(** Integer multiples of a length are spaced. *)
Lemma spaced_int : forall l p dims a (N : (nat -> Z) -> Z), epsilon < a ->
  (forall u, length2 (dim l) (kBasis l p) u = a * IZR (N u)) -> spaced l p dims.
Proof.
  intros l p dims a N Ha HN x y _. rewrite !HN. destruct (Z.eq_dec (N x) (N y)) as [->|E]; [left; reflexivity|right].
  replace (a * IZR (N x) - a * IZR (N y)) with (a * IZR (N x - N y)) by (rewrite minus_IZR; ring).
  assert (P := eps_pos). rewrite Rabs_mult, (Rabs_pos_eq a) by lra. rewrite <- abs_IZR.
  assert (1 <= IZR (Z.abs (N x - N y))) by (apply IZR_le; lia). nra.
Qed.
Lemma searchOk_cubic : forall l p dims, l = Square \/ l = Cubic -> length dims = dim l -> positive dims -> 0 < p 0%nat ->
  epsilon < (2 * PI / p 0%nat) ^ 2 -> searchOk l p dims.
Proof.
  intros l p dims Hl HL HP Hp He. assert (PP : posParams l p).
  { destruct Hl as [-> | ->]; intros i Hi; cbn [nParam] in Hi; replace i with 0%nat by lia; auto. }
  apply searchOk_orthogonal; auto.
  - destruct Hl as [-> | ->]; cbn; lia.
  - intros i j Hi Hj Hij. destruct Hl as [-> | ->]; cbn [dim] in Hi, Hj;
      destruct i as [|[|[|i]]]; try lia; destruct j as [|[|[|j]]]; try lia; reflexivity.
  - destruct Hl as [-> | ->].
    + apply (spaced_int Square p dims ((2 * PI / p 0%nat) ^ 2) (fun u => u 0%nat * u 0%nat + u 1%nat * u 1%nat)%Z); auto.
      intros u. rewrite lat_norm by auto. cbn [latGroups dim rsum latCoef latQ]. unfold sqZ. rewrite plus_IZR, !mult_IZR. unfold twoPi. ring.
    + apply (spaced_int Cubic p dims ((2 * PI / p 0%nat) ^ 2) (fun u => u 0%nat * u 0%nat + u 1%nat * u 1%nat + u 2%nat * u 2%nat)%Z); auto.
      intros u. rewrite lat_norm by auto. cbn [latGroups dim rsum latCoef latQ]. unfold sqZ. rewrite !plus_IZR, !mult_IZR. unfold twoPi. ring.
Qed.

Definition hexN (u : nat -> Z) : Z := (u 0%nat * u 0%nat + u 0%nat * u 1%nat + u 1%nat * u 1%nat)%Z.
Lemma hex_length2 : forall p u, 0 < p 0%nat -> length2 2 (kBasis Hexagonal2 p) u = (2 * PI / p 0%nat) ^ 2 * (4 / 3) * IZR (hexN u).
Proof.
  intros p u Hp. assert (PP : posParams Hexagonal2 p). { intros i Hi. cbn [nParam] in Hi. replace i with 0%nat by lia; auto. }
  assert (X := lat_norm Hexagonal2 p u eq_refl PP). cbn [dim latGroups rsum latCoef latQ] in X. rewrite X. unfold hexq, sqZ, hexN, twoPi.
  rewrite !plus_IZR, !mult_IZR. ring.
Qed.
Lemma hexN_pos : forall u, (0 <= hexN u)%Z.
Proof. intros u. unfold hexN. nia. Qed.
(** On a square mesh every class of waves has a shortest member within the window. *)
Lemma hex_reduce : forall n, (0 < n)%Z -> forall (B : nat) u, (hexN u < Z.of_nat B)%Z ->
  exists u', (forall i, exists s, u' i = u i + s * (if (i <? 2)%nat then n else 0))%Z /\ (hexN u' <= hexN u)%Z /\
    (Z.abs (u' 0%nat) <= n)%Z /\ (Z.abs (u' 1%nat) <= n)%Z.
Proof.
  intros n Hn. induction B as [|B IH]; intros u HB. { assert (X := hexN_pos u). lia. }
  assert (STEP : forall a b, (hexN (fun i => u i + match i with 0%nat => a * n | 1%nat => b * n | _ => 0 end) < hexN u)%Z ->
    exists u', (forall i, exists s, u' i = u i + s * (if (i <? 2)%nat then n else 0))%Z /\ (hexN u' <= hexN u)%Z /\
    (Z.abs (u' 0%nat) <= n)%Z /\ (Z.abs (u' 1%nat) <= n)%Z).
  { intros a b H. set (u1 := (fun i => u i + match i with 0%nat => a * n | 1%nat => b * n | _ => 0 end)%Z) in *.
    destruct (IH u1 ltac:(lia)) as [u' [A1 [A2 A3]]]. exists u'. split; [|split; [lia|auto]].
    intros i. destruct (A1 i) as [s Hs]. rewrite Hs. unfold u1. destruct i as [|[|i]]; cbn [Nat.ltb Nat.leb].
    - exists (a + s)%Z. ring.
    - exists (b + s)%Z. ring.
    - exists 0%Z. ring. }
  destruct (Z_lt_dec n (2 * u 0%nat + u 1%nat)). { apply (STEP (-1) 0)%Z. unfold hexN. nia. }
  destruct (Z_lt_dec (2 * u 0%nat + u 1%nat) (- n)). { apply (STEP 1 0)%Z. unfold hexN. nia. }
  destruct (Z_lt_dec n (2 * u 1%nat + u 0%nat)). { apply (STEP 0 (-1))%Z. unfold hexN. nia. }
  destruct (Z_lt_dec (2 * u 1%nat + u 0%nat) (- n)). { apply (STEP 0 1)%Z. unfold hexN. nia. }
  exists u. split; [intros i; exists 0%Z; ring|]. split; [lia|]. lia.
Qed.
Lemma searchOk_hexagonal : forall p n, (0 < n)%Z -> 0 < p 0%nat -> epsilon < (2 * PI / p 0%nat) ^ 2 * (4 / 3) ->
  searchOk Hexagonal2 p [n; n].
Proof.
  intros p n Hn Hp He v HB. cbn [dim].
  assert (VV := vecOf_vec [n; n] v HB). cbn [length] in VV.
  assert (B0 := vecOf_box [n; n] v 0 HB ltac:(cbn; lia)). assert (B1 := vecOf_box [n; n] v 1 HB ltac:(cbn; lia)).
  change (vecOf [n; n] 0%nat) with n in B0. change (vecOf [n; n] 1%nat) with n in B1.
  assert (SP := spaced_int Hexagonal2 p [n; n] _ hexN He (fun u => hex_length2 p u Hp)).
  destruct (shiftToMinimum_image 2 (vecOf v) (vecOf [n; n]) (kBasis Hexagonal2 p) ltac:(lia) VV) as [s [_ [S2 _]]].
  split. { apply alias_image. eauto. }
  intros u HU.
  destruct (hex_reduce n Hn (S (Z.to_nat (hexN u))) u) as [u' [A1 [A2 [A3 A4]]]]. { assert (X := hexN_pos u). lia. }
  set (w := fun i => if (i <? 2)%nat then u' i else 0%Z).
  assert (W : alias 2 (vecOf [n; n]) (vecOf v) w).
  { intros i Hi. unfold w. assert (L := Hi). apply Nat.ltb_lt in L. rewrite L. destruct (HU i Hi) as [a Ha]. destruct (A1 i) as [b Hb]. rewrite L in Hb.
    exists (a + b)%Z. rewrite Hb, Ha. destruct i as [|[|i]]; [| |lia]; unfold vecOf; cbn [nth]; ring. }
  apply alias_image in W. destruct W as [t Ht].
  apply Rle_trans with (length2 2 (kBasis Hexagonal2 p) w).
  - apply (shiftToMinimum_exact 2 (vecOf v) (vecOf [n; n]) (kBasis Hexagonal2 p) ltac:(lia) VV) with (s := t); auto.
    + intros x y s1 t1 _ _ Hx Hy. apply SP. eapply image_diff; eauto.
    + intros i Hi. assert (X := Ht i Hi). unfold w in X. assert (L := Hi). apply Nat.ltb_lt in L. rewrite L in X.
      destruct i as [|[|i]]; [| |lia]; unfold vecOf in X at 2; cbn [nth] in X; nia.
    + intros i Hi. unfold w. apply Nat.ltb_ge in Hi. now rewrite Hi.
  - rewrite !hex_length2 by auto. apply Rmult_le_compat_l. { assert (X := eps_pos). lra. } apply IZR_le.
    replace (hexN w) with (hexN u') by reflexivity. auto.
Qed.

(* ---------- theorems ---------- *)
(** The state of a system after the lattice was read and the wave list allocated. *)
Definition started (l : lattice) (dims : list Z) (s : ucell * wavelist) : Prop :=
  exists junk M K DK, setLat (newCell (dim l) junk) l = Ok (fst s) /\ allocate (newWaveList M K DK) dims (fst s) = Ok (snd s).

(** After any sequence of parameter changes and requests, everything the wave list
    reports as available belongs to the present unit cell. *)
Theorem C68_fresh : forall l dims ops s0 c w, positive dims -> length dims = dim l -> started l dims s0 ->
  (forall ps, In (WParams ps) ops -> posParams l (params ps) /\ searchOk l (params ps) dims) ->
  wl_run s0 ops = Ok (c, w) -> fresh l dims (uP c) w.
Proof.
  intros l dims ops [c0 w0] c w HP HL [junk [M [K [DK [S1 S2]]]]] HQ HR. cbn [fst snd] in *.
  apply (inv_fresh l dims); auto. apply (inv_run l dims HP ops (c0, w0)); auto. apply (inv_start l dims junk M K DK); auto.
Qed.
(** The values are available after a request, and a request can only fail while the
    parameters were never set. *)
Theorem C68_available : forall l dims ops s0 s, positive dims -> length dims = dim l -> started l dims s0 ->
  (forall ps, In (WParams ps) ops -> posParams l (params ps) /\ searchOk l (params ps) dims) ->
  wl_run s0 ops = Ok s -> (exists ps, In (WParams ps) ops) ->
  (exists s1 K, wl_step s WKSq = Ok s1 /\ fst s1 = fst s /\ getKSq (snd s1) = Ok K) /\
  (exists s1 dK, wl_step s WDKSq = Ok s1 /\ fst s1 = fst s /\ getdKSq (snd s1) = Ok dK).
Proof.
  intros l dims ops s0 s HP HL HS HQ HR HX.
  assert (I : wlInv l dims s /\ uInit (fst s) = true).
  { assert (I0 : wlInv l dims s0).
    { destruct s0 as [c0 w0]. destruct HS as [junk [M [K [DK [S1 S2]]]]]. apply (inv_start l dims junk M K DK); auto. }
    clear HS. revert s0 I0 HQ HR HX. 
    assert (KEEP : forall s1 o s2, wlInv l dims s1 -> (forall ps, o = WParams ps -> posParams l (params ps) /\ searchOk l (params ps) dims) ->
      wl_step s1 o = Ok s2 -> (uInit (fst s1) = true \/ exists ps, o = WParams ps) -> uInit (fst s2) = true).
    { intros [c1 w1] o s2 I HQ HS HU. destruct o as [ps| | |]; cbn [wl_step] in HS.
      - destruct (setParameters c1 ps) as [c'| | |] eqn:E1; try discriminate. cbn [bind] in HS.
        destruct (clearUnitCellData w1 c') as [w'| | |] eqn:E2; try discriminate. cbn [bind] in HS. inversion HS; subst.
        destruct (HQ ps eq_refl). destruct (inv_params l dims c1 w1 c' w' ps); auto. tauto.
      - destruct HU as [HU|[ps HU]]; [|discriminate]. destruct (computeMinimumImages w1 c1); try discriminate. cbn [bind] in HS. inversion HS; now subst.
      - destruct HU as [HU|[ps HU]]; [|discriminate]. destruct (computeKSq w1 c1); try discriminate. cbn [bind] in HS. inversion HS; now subst.
      - destruct HU as [HU|[ps HU]]; [|discriminate]. destruct (computedKSq w1 c1); try discriminate. cbn [bind] in HS. inversion HS; now subst. }
    assert (G : forall ops s0, wlInv l dims s0 -> (forall ps, In (WParams ps) ops -> posParams l (params ps) /\ searchOk l (params ps) dims) ->
      wl_run s0 ops = Ok s -> (uInit (fst s0) = true \/ exists ps, In (WParams ps) ops) -> wlInv l dims s /\ uInit (fst s) = true).
    { clear ops. induction ops as [|o ops IH]; intros s0 I HQ HR HX; cbn [wl_run] in HR.
      - inversion HR; subst. destruct HX as [HX|[ps []]]. auto.
      - destruct (wl_step s0 o) as [s1| | |] eqn:E; try discriminate. cbn [bind] in HR. apply (IH s1); auto.
        + apply (inv_step l dims HP s0 o); auto. intros ps ->. apply HQ. now left.
        + intros ps Hps. apply HQ. now right.
        + destruct HX as [HX|[ps [HX|HX]]].
          * left. apply (KEEP s0 o s1); auto. intros ps ->. apply HQ. now left.
          * left. apply (KEEP s0 o s1); eauto. intros ps' ->. apply HQ. now left.
          * right. eauto. }
    intros s0 I0 HQ HR HX. apply (G ops s0); auto. }
  destruct I as [I EI]. destruct s as [c w]. cbn [fst snd] in *.
  assert (N : (0 < nParam l)%nat) by (destruct l; cbn; lia). apply Nat.ltb_lt in N.
  assert (OK : cellOk c = true). { unfold cellOk. assert (X := wi_lat _ _ _ I). cbn [fst] in X. rewrite X. exact EI. }
  assert (AL := wi_alloc _ _ _ I). assert (NN := wi_N _ _ _ I). cbn [fst snd] in *.
  assert (M : exists w1, computeMinimumImages w c = Ok w1).
  { unfold computeMinimumImages. destruct (wHasMin w); eauto. rewrite AL, OK. cbn [check bind]. eauto. }
  split.
  - assert (K : exists w1, computeKSq w c = Ok w1).
    { unfold computeKSq. destruct (wHasK w); eauto. destruct (wHasMin w); cbn [negb]; auto. rewrite AL, NN, N, OK. cbn [check bind]. eauto. }
    destruct K as [w1 K]. destruct (inv_k l dims HP c w w1 I K) as [_ H]. exists (c, w1), (wK w1). cbn [wl_step fst snd]. rewrite K. cbn [bind].
    unfold getKSq. rewrite H. auto.
  - assert (K : exists w1, computedKSq w c = Ok w1).
    { unfold computedKSq. destruct (wHasDK w); eauto. destruct (wHasMin w); cbn [negb].
      - cbn [bind]. rewrite AL, NN, N, OK. cbn [check bind]. eauto.
      - destruct M as [w1 M]. rewrite M. cbn [bind]. destruct (inv_min l dims HP c w w1 I M) as [J _].
        assert (A1 := wi_alloc _ _ _ J). cbn [snd] in A1. rewrite A1, NN, N, OK. cbn [check bind]. eauto. }
    destruct K as [w1 K]. destruct (inv_dk l dims HP c w w1 I K) as [_ H]. exists (c, w1), (wDK w1). cbn [wl_step fst snd]. rewrite K. cbn [bind].
    unfold getdKSq. rewrite H. auto.
Qed.
(** For cells with fixed angles the stored derivatives are those of |k|^2 for the
    stored minimum images, times the number of waves an element is meant to stand for. *)
Theorem C68_derivatives : forall l dims p w dK i m, hasVariableAngle l = false -> posParams l p ->
  fresh l dims p w -> getdKSq w = Ok dK -> (i < nParam l)%nat -> (m < nK dims)%nat ->
  exists u d, shortest (dim l) (kBasis l p) (vecOf dims) (vecOf (gridPos (computeKMesh dims) m)) u /\
    partial_derivative (fun q => length2 (dim l) (kBasis l q) u) p i d /\
    dK i m = (if hasImplicitInverse (gridPos (computeKMesh dims) m) dims then 2 else 1) * d.
Proof.
  intros l dims p w dK i m HV HP [F1 F2 F3] HD Hi Hm. destruct (F3 dK i m HD Hi Hm) as [M [HM E]].
  exists (M m), (dksq (dim l) (dkkBasis l p) (M m) i). split; [apply F1; auto|]. split; auto.
  assert (V : volume l p <> 0).
  { unfold posParams in HP. assert (S2 := sqrt3_pos).
    destruct l; try discriminate; cbn [nParam] in HP; assert (P0 := HP 0%nat ltac:(lia)); try assert (P1 := HP 1%nat ltac:(lia)); try assert (P2 := HP 2%nat ltac:(lia));
      rewrite unit_cell_volume_formula by exact Logic.I; apply Rgt_not_eq; repeat apply Rmult_lt_0_compat; try apply pow_lt; lra. }
  assert (X := proj2 (dksq_correct_partial l p i (M m) Hi V ltac:(destruct l; try discriminate; auto))).
  unfold partial_derivative in *. revert X. apply Derive.is_derive_ext. intros t. apply ksq_norm2.
Qed.
(** |k|^2 on the half grid is that of an even function on the full grid, as required by
    the results on the periodic solver. *)
Theorem C68_even : forall l dims p w K, positive dims -> fresh l dims p w -> searchOk l p dims -> getKSq w = Ok K ->
  evenWaves dims (waveLength2 l p dims) K.
Proof.
  intros l dims p w K HP [_ F2 _] HS HK. split; [intros v Hv; now apply waveLength2_even|].
  intros m Hm. destruct (F2 K m HK Hm) as [[u [A E]] B]. destruct (HS _ (kpos_in_box dims HP m Hm)) as [A' B'].
  fold (waveLength2 l p dims (gridPos (computeKMesh dims) m)) in B'.
  apply Rle_antisym; [apply B; auto|]. rewrite E. auto.
Qed.
(** Cells for which the search always succeeds. *)
Theorem C68_search_succeeds : forall l p dims, positive dims ->
  match l with
  | Lamellar => length dims = 1%nat
  | Square | Cubic => length dims = dim l /\ 0 < p 0%nat /\ epsilon < (2 * PI / p 0%nat) ^ 2
  | Hexagonal2 => (exists n, dims = [n; n]) /\ 0 < p 0%nat /\ epsilon < (2 * PI / p 0%nat) ^ 2 * (4 / 3)
  | Rectangular | Tetragonal | Orthorhombic => length dims = dim l /\ spaced l p dims
  | _ => False
  end -> searchOk l p dims.
Proof.
  intros l p dims HP H. destruct l; try contradiction.
  - destruct dims as [|n [|]]; try discriminate. apply searchOk_1d. now inversion HP.
  - destruct H as [H1 [H2 H3]]. apply searchOk_cubic; auto.
  - destruct H as [H1 H2]. apply searchOk_orthogonal; auto. intros i j Hi Hj Hij. cbn [dim] in Hi, Hj.
    destruct i as [|[|i]]; try lia; destruct j as [|[|j]]; try lia; reflexivity.
  - destruct H as [[n ->] [H2 H3]]. apply searchOk_hexagonal; auto. now inversion HP.
  - destruct H as [H1 [H2 H3]]. apply searchOk_cubic; auto.
  - destruct H as [H1 H2]. apply searchOk_orthogonal; auto. { cbn; lia. } intros i j Hi Hj Hij. cbn [dim] in Hi, Hj.
    destruct i as [|[|[|i]]]; try lia; destruct j as [|[|[|j]]]; try lia; reflexivity.
  - destruct H as [H1 H2]. apply searchOk_orthogonal; auto. { cbn; lia. } intros i j Hi Hj Hij. cbn [dim] in Hi, Hj.
    destruct i as [|[|[|i]]]; try lia; destruct j as [|[|[|j]]]; try lia; reflexivity.
Qed.

(* ---------- a mesh on which the search fails ---------- *)
Definition refDims : list Z := [3; 48]%Z.
(** Smallest hexN among the shifts of v within the window. *)
Definition windowMin (v : nat -> Z) (b : Z) : bool :=
  forallb (fun s1 => forallb (fun s2 => (b <=? hexN (fun i => match i with 0%nat => v 0%nat + s1 * 3 | _ => v 1%nat + s2 * 48 end))%Z) range2) range2.
Lemma small_in : forall z, (-2 <= z <= 2)%Z -> In z range2.
Proof. intros z H. cbn. lia. Qed.
Lemma window_exact : forall p v b s, 0 < p 0%nat -> epsilon < (2 * PI / p 0%nat) ^ 2 * (4 / 3) -> length v = 2%nat ->
  windowMin (vecOf v) b = true -> small_shift 2 s ->
  hexN (fun i => vecOf v i + s i * vecOf refDims i)%Z = b ->
  waveLength2 Hexagonal2 p refDims v = (2 * PI / p 0%nat) ^ 2 * (4 / 3) * IZR b.
Proof.
  intros p v b s Hp He HL HW HS HB. unfold waveLength2. cbn [dim].
  assert (VV : vec 2 (vecOf v)). { intros i Hi. unfold vecOf. apply nth_overflow. lia. }
  assert (SP := spaced_int Hexagonal2 p refDims _ hexN He (fun u => hex_length2 p u Hp)).
  assert (A0 : 0 < (2 * PI / p 0%nat) ^ 2 * (4 / 3)) by (assert (X := eps_pos); lra).
  apply Rle_antisym.
  - set (w := fun i => if (i <? 2)%nat then (vecOf v i + s i * vecOf refDims i)%Z else 0%Z).
    apply Rle_trans with (length2 2 (kBasis Hexagonal2 p) w).
    + apply (shiftToMinimum_exact 2 (vecOf v) (vecOf refDims) (kBasis Hexagonal2 p) ltac:(lia) VV) with (s := s); auto.
      * intros x y s1 t1 _ _ Hx Hy. apply SP. eapply image_diff; eauto.
      * intros i Hi. unfold w. apply Nat.ltb_lt in Hi. now rewrite Hi.
      * intros i Hi. unfold w. apply Nat.ltb_ge in Hi. now rewrite Hi.
    + rewrite hex_length2 by auto. rewrite <- HB. apply Req_le. reflexivity.
  - destruct (shiftToMinimum_image 2 (vecOf v) (vecOf refDims) (kBasis Hexagonal2 p) ltac:(lia) VV) as [t [T1 [T2 _]]].
    rewrite hex_length2 by auto. apply Rmult_le_compat_l; [lra|]. apply IZR_le.
    unfold windowMin in HW. rewrite forallb_forall in HW. specialize (HW (t 0%nat) (small_in _ (T1 0%nat ltac:(lia)))).
    rewrite forallb_forall in HW. specialize (HW (t 1%nat) (small_in _ (T1 1%nat ltac:(lia)))). apply Z.leb_le in HW.
    eapply Z.le_trans; [exact HW|]. unfold hexN. rewrite (T2 0%nat), (T2 1%nat) by lia. unfold vecOf, refDims. cbn [nth]. lia.
Qed.
Definition refParam (i : nat) : R := 1.
Lemma refParam_big : epsilon < (2 * PI / 1) ^ 2 * (4 / 3).
Proof. unfold epsilon. assert (X := PI2_3_2). assert (Y : 1 < 2 * PI / 1) by lra. nra. Qed.
Definition refJunk (i : nat) : R := 0.
Definition refStart : ucell * wavelist :=
  let c := mkUcell 2 (Some Hexagonal2) 1 refJunk false (fun _ _ => 0) (fun _ _ => 0) (fun _ _ _ => 0) (fun _ _ _ => 0) (fun _ _ _ => 0) (fun _ _ _ => 0) in
  (c, mkWaveList true true false false false refDims (fun _ _ => 0%Z) (fun _ => 0) (fun _ _ => 0)).
Lemma ref_started : started Hexagonal2 refDims refStart.
Proof. exists refJunk, (fun _ _ => 0%Z), (fun _ => 0), (fun _ _ => 0). split; reflexivity. Qed.
(** The mesh is accepted, the inverse waves (1,24) and (2,24) get different lengths, and
    the length stored for the former is not the smallest. *)
Theorem C68_even_refuted : exists (c : ucell) (w : wavelist) (K : nat -> R) (m1 m2 : nat) (u : nat -> Z),
  wl_run refStart [WParams [1]; WKSq] = Ok (c, w) /\ getKSq w = Ok K /\ (m1 < nK refDims)%nat /\ (m2 < nK refDims)%nat /\
  gridPos (computeKMesh refDims) m2 = negmod refDims (gridPos (computeKMesh refDims) m1) /\ K m1 <> K m2 /\
  alias 2 (vecOf refDims) (vecOf (gridPos (computeKMesh refDims) m1)) u /\ length2 2 (kBasis Hexagonal2 (uP c)) u < K m1.
Proof.
  destruct (wl_run refStart [WParams [1]; WKSq]) as [[c w]| | |] eqn:E.
  2:{ exfalso. clear - E. unfold refStart in E. cbn in E. discriminate. }
  2:{ exfalso. clear - E. unfold refStart in E. cbn in E. discriminate. }
  2:{ exfalso. clear - E. unfold refStart in E. cbn in E. discriminate. }
  cbn [wl_run wl_step refStart] in E.
  unfold setParameters in E. cbn [length uN Nat.eqb check bind] in E. unfold setLattice, withParams in E.
  cbn [uD uLat uN uP uR uK uDr uDk uDrr uDkk nParam Nat.eqb check bind] in E.
  unfold clearUnitCellData in E. cbn [wPtr uLat bind hasVariableAngle wAlloc wHasMin wDims wMin wK wDK] in E.
  unfold computeKSq in E. cbn [wHasK wHasMin negb] in E. unfold computeMinimumImages in E. cbn [wHasMin wAlloc check bind cellOk uLat uInit] in E.
  apply (f_equal (fun o => match o with Ok x => x | _ => refStart end)) in E. 
  assert (EC := f_equal fst E). assert (EW := f_equal snd E). cbn [fst snd] in EC, EW. clear E.
  exists c, w, (wK w), 49%nat, 74%nat, (fun i => match i with 0%nat => 13 | _ => -24 end)%Z.
  assert (P0 : uP c 0%nat = 1) by (rewrite <- EC; reflexivity).
  assert (BIG : epsilon < (2 * PI / uP c 0%nat) ^ 2 * (4 / 3)) by (rewrite P0; apply refParam_big).
  assert (POS : 0 < uP c 0%nat) by (rewrite P0; lra).
  assert (KV : forall m, (m < nK refDims)%nat -> wK w m = waveLength2 Hexagonal2 (uP c) refDims (gridPos (computeKMesh refDims) m)).
  { intros m Hm. rewrite <- EC, <- EW. cbn [wK wDims uP]. unfold fillTo. apply Nat.ltb_lt in Hm. rewrite Hm. unfold waveLength2, minImageOf. cbn [uD uK dim].
    rewrite ksq_norm2. reflexivity. }
  assert (G1 : gridPos (computeKMesh refDims) 49 = [1; 24]%Z) by (vm_compute; reflexivity).
  assert (G2 : gridPos (computeKMesh refDims) 74 = [2; 24]%Z) by (vm_compute; reflexivity).
  assert (NK : nK refDims = 75%nat) by (vm_compute; reflexivity).
  assert (L1 : wK w 49%nat = (2 * PI / uP c 0%nat) ^ 2 * (4 / 3) * IZR 457).
  { rewrite KV by (rewrite NK; lia). rewrite G1. apply (window_exact (uP c) [1; 24]%Z 457 (fun i => match i with 0%nat => 2 | _ => -1 end)%Z); auto.
    intros i Hi. destruct i; lia. }
  assert (L2 : wK w 74%nat = (2 * PI / uP c 0%nat) ^ 2 * (4 / 3) * IZR 448).
  { rewrite KV by (rewrite NK; lia). rewrite G2. apply (window_exact (uP c) [2; 24]%Z 448 (fun i => match i with 0%nat => 2 | _ => -1 end)%Z); auto.
    intros i Hi. destruct i; lia. }
  assert (A0 : 0 < (2 * PI / uP c 0%nat) ^ 2 * (4 / 3)) by (assert (X := eps_pos); lra).
  split; [reflexivity|]. split. { rewrite <- EW. reflexivity. } rewrite NK. split; [lia|]. split; [lia|].
  split. { rewrite G1, G2. vm_compute. reflexivity. }
  split. { rewrite L1, L2. lra. }
  split. { rewrite G1. intros i Hi. destruct i as [|[|i]]; [exists 4%Z; vm_compute; reflexivity|exists (-1)%Z; vm_compute; reflexivity|lia]. }
  rewrite hex_length2 by auto. rewrite L1. apply Rmult_lt_compat_l; auto. apply IZR_lt. vm_compute. reflexivity.
Qed.

(* ---------- concrete cases ---------- *)
Definition exStart : ucell * wavelist :=
  let c := mkUcell 2 (Some Hexagonal2) 1 refJunk false (fun _ _ => 0) (fun _ _ => 0) (fun _ _ _ => 0) (fun _ _ _ => 0) (fun _ _ _ => 0) (fun _ _ _ => 0) in
  (c, mkWaveList true true false false false [4; 4]%Z (fun _ _ => 0%Z) (fun _ => 0) (fun _ _ => 0)).
Definition exOps : list wl_op := [WParams [1]; WKSq; WParams [2]; WDKSq; WKSq].
Example C68_hexagonal : exists c w K dK,
  positive [4; 4]%Z /\ started Hexagonal2 [4; 4]%Z exStart /\
  (forall ps, In (WParams ps) exOps -> posParams Hexagonal2 (params ps) /\ searchOk Hexagonal2 (params ps) [4; 4]%Z) /\
  wl_run exStart exOps = Ok (c, w) /\ getKSq w = Ok K /\ getdKSq w = Ok dK /\ fresh Hexagonal2 [4; 4]%Z (uP c) w /\
  evenWaves [4; 4]%Z (waveLength2 Hexagonal2 (uP c) [4; 4]%Z) K /\ uP c 0%nat = 2.
Proof.
  assert (P4 : positive [4; 4]%Z) by (repeat constructor).
  assert (ST : started Hexagonal2 [4; 4]%Z exStart).
  { exists refJunk, (fun _ _ => 0%Z), (fun _ => 0), (fun _ _ => 0). split; reflexivity. }
  assert (Y : 1 < 2 * PI / 2) by (assert (X := PI2_3_2); lra).
  assert (HQ : forall ps, In (WParams ps) exOps -> posParams Hexagonal2 (params ps) /\ searchOk Hexagonal2 (params ps) [4; 4]%Z).
  { intros ps H. unfold exOps in H. cbn [In] in H.
    assert (E : ps = [1] \/ ps = [2]). { destruct H as [H|[H|[H|[H|[H|[]]]]]]; try discriminate; inversion H; auto. }
    split.
    - intros i Hi. cbn [nParam] in Hi. replace i with 0%nat by lia. destruct E as [-> | ->]; unfold params; cbn [nth]; lra.
    - apply C68_search_succeeds; auto. split; [eexists; reflexivity|]. unfold epsilon. destruct E as [-> | ->]; unfold params; cbn [nth].
      + split; [lra|]. replace (2 * PI / 1) with (2 * (2 * PI / 2)) by field. nra.
      + split; [lra|]. nra. }
  destruct (wl_run exStart exOps) as [[c w]| | |] eqn:E.
  2:{ exfalso. clear - E. unfold exStart, exOps in E. cbn in E. discriminate. }
  2:{ exfalso. clear - E. unfold exStart, exOps in E. cbn in E. discriminate. }
  2:{ exfalso. clear - E. unfold exStart, exOps in E. cbn in E. discriminate. }
  assert (F : fresh Hexagonal2 [4; 4]%Z (uP c) w) by (apply (C68_fresh Hexagonal2 [4; 4]%Z exOps exStart); auto).
  assert (U : uP c = putParams 1 [2] (putParams 1 [1] refJunk) /\ wHasK w = true /\ wHasDK w = true).
  { clear - E. unfold exStart, exOps in E. cbn [wl_run wl_step] in E.
    unfold setParameters in E. cbn [length uN Nat.eqb check bind] in E. unfold setLattice, withParams in E.
    cbn [uD uLat uN uP uR uK uDr uDk uDrr uDkk nParam Nat.eqb check bind] in E.
    unfold clearUnitCellData in E. cbn [wPtr uLat bind hasVariableAngle wAlloc wHasMin wDims wMin wK wDK] in E.
    unfold computeKSq in E. cbn [wHasK wHasMin negb] in E. unfold computeMinimumImages in E. cbn [wHasMin wAlloc check bind cellOk uLat uInit] in E.
    cbn [uN Nat.ltb Nat.leb length uD uLat uP Nat.eqb check bind wPtr wHasMin] in E.
    unfold computedKSq in E. cbn [wHasDK wHasMin negb bind wAlloc check uN Nat.ltb Nat.leb cellOk uLat uInit wHasK] in E.
    apply (f_equal (fun o => match o with Ok x => x | _ => exStart end)) in E.
    assert (EC := f_equal fst E). assert (EW := f_equal snd E). cbn [fst snd] in EC, EW.
    split; [rewrite <- EC; reflexivity|]. split; rewrite <- EW; reflexivity. }
  destruct U as [U1 [U2 U3]].
  exists c, w, (wK w), (wDK w). split; auto. split; auto. split; auto. split; [reflexivity|].
  assert (G : getKSq w = Ok (wK w)) by (unfold getKSq; now rewrite U2).
  split; auto. split. { unfold getdKSq. now rewrite U3. } split; auto.
  assert (U0 : uP c 0%nat = 2) by (rewrite U1; reflexivity). split; auto.
  apply (C68_even Hexagonal2 [4; 4]%Z (uP c) w); auto.
  apply C68_search_succeeds; auto. split; [eexists; reflexivity|]. rewrite U0. unfold epsilon. split; [lra|]. nra.
Qed.

(** Why the images are discarded when the cell has variable angles: the shortest
    image of (1,1) on a 2 x 2 mesh depends on the angle of a rhombic cell. *)
Definition rh (g : R) (i : nat) : R := match i with 0%nat => 1 | _ => g end.
Lemma rh_length2 : forall g u, sin g <> 0 -> length2 2 (kBasis Rhombic (rh g)) u
  = (2 * PI) ^ 2 / (sin g) ^ 2 * (IZR (u 0%nat) ^ 2 + IZR (u 1%nat) ^ 2 - 2 * cos g * IZR (u 0%nat) * IZR (u 1%nat)).
Proof.
  intros g u H. unfold length2. cbv beta iota zeta delta [kBasis kWrites get2 e2 fold_left Nat.eqb andb rsum rh].
  assert (X := sin2_cos2 g). unfold Rsqr in X. unfold twoPi.
  set (x := IZR (u 0%nat)). set (y := IZR (u 1%nat)). set (s := sin g) in *. set (c := cos g) in *.
  replace ((2 * PI) ^ 2 / s ^ 2 * (x ^ 2 + y ^ 2 - 2 * c * x * y)) with ((2 * PI) ^ 2 / s ^ 2 * ((s * s + c * c) * x ^ 2 + y ^ 2 - 2 * c * x * y)) by (rewrite X; ring).
  field. auto.
Qed.
Definition one (i : nat) : Z := 1%Z.
Theorem C68_images_depend_on_angle :
  posParams Rhombic (rh (PI / 3)) /\ posParams Rhombic (rh (2 * (PI / 3))) /\
  shortest 2 (kBasis Rhombic (rh (PI / 3))) (vecOf [2; 2]%Z) one one /\
  ~ shortest 2 (kBasis Rhombic (rh (2 * (PI / 3)))) (vecOf [2; 2]%Z) one one.
Proof.
  assert (PP := PI_RGT_0). assert (S3 := sqrt3_pos).
  assert (PC : forall g, 0 < g -> posParams Rhombic (rh g)).
  { intros g Hg i Hi. unfold rh. destruct i; lra. }
  assert (S1 : 0 < sin (PI / 3)) by (rewrite sin_PI3; lra).
  assert (S2 : 0 < sin (2 * (PI / 3))) by (rewrite sin_2PI3; lra).
  assert (POS : forall s, 0 < s -> 0 < (2 * PI) ^ 2 / s ^ 2).
  { intros s Hs. apply Rdiv_lt_0_compat; apply pow_lt; lra. }
  split; [apply PC; lra|]. split; [apply PC; lra|]. split.
  - split. { intros i Hi. exists 0%Z. ring. }
    intros u HU. rewrite !rh_length2 by lra. rewrite cos_PI3. apply Rmult_le_compat_l; [left; now apply POS|].
    destruct (HU 0%nat ltac:(lia)) as [a Ha]. destruct (HU 1%nat ltac:(lia)) as [b Hb].
    change (vecOf [2; 2]%Z 0%nat) with 2%Z in Ha. change (vecOf [2; 2]%Z 1%nat) with 2%Z in Hb. unfold one in *.
    assert (Y1 : (1 <= u 1%nat * u 1%nat)%Z) by (assert (u 1%nat <> 0)%Z by lia; nia).
    assert (Y2 := Z.square_nonneg (2 * u 0%nat - u 1%nat)).
    assert (Z : (1 <= u 0%nat * u 0%nat + u 1%nat * u 1%nat - u 0%nat * u 1%nat)%Z) by lia.
    apply IZR_le in Z. rewrite minus_IZR, plus_IZR, !mult_IZR in Z. lra.
  - intros [_ H]. specialize (H (fun i => match i with 0%nat => 1 | _ => -1 end)%Z).
    assert (A : alias 2 (vecOf [2; 2]%Z) one (fun i => match i with 0%nat => 1 | _ => -1 end)%Z).
    { intros i Hi. destruct i as [|[|i]]; [exists 0%Z|exists (-1)%Z|lia]; reflexivity. }
    specialize (H A). rewrite !rh_length2 in H by lra. apply Rmult_le_reg_l in H; [|now apply POS].
    rewrite cos_2PI3 in H. unfold one in H. lra.
Qed.

Print Assumptions C68_fresh.
Print Assumptions C68_available.
Print Assumptions C68_derivatives.
Print Assumptions C68_even.
Print Assumptions C68_search_succeeds.
Print Assumptions C68_even_refuted.
Print Assumptions C68_images_depend_on_angle.
