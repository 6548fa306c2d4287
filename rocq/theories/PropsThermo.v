(** C65: the free energy and pressure that a system reports. *)
From Coq Require Import Reals Bool Arith Lia Lra.
From Coquelicot Require Import Coquelicot.
From Coq Require Import List.
From Verif Require Import Base RSum Species UnitCellProofs Interaction FloryHuggins PropsFloryHuggins ThermoSpec Thermo.
Import ListNotations.
Local Open Scope R_scope.

(** The species of both kinds in one list, and the external field, zero if none. *)
Definition allSpecies (t : thermoIn) (i : nat) : speciesData :=
  if (i <? tNp t)%nat then tPol t i else tSol t (i - tNp t)%nat.
Definition external (t : thermoIn) (i k : nat) : R := if tHasH t then tH t i k else 0.

(** Basis coefficients a, b represent the fields f, g in an orthonormal basis. *)
Definition represents (n nb : nat) (a b f g : nat -> R) : Prop :=
  average n (fun k => f k * g k) = rsum nb (fun k => a k * b k).

(** No species or pair of monomer types is so scarce or interacts so weakly that
    it is skipped without being absent. *)
Definition noneSkipped (t : thermoIn) : Prop :=
  (forall i, (i < tNp t + tNs t)%nat -> dPhi (allSpecies t i) = 0 \/ / 10 ^ 8 < dPhi (allSpecies t i)) /\
  (forall i j, (i < tNm t)%nat -> (j < tNm t)%nat -> tChi t i j = 0 \/ / 10 ^ 9 < Rabs (tChi t i j)).

Lemma e8 : / 100000000 = / 10 ^ 8. Proof. f_equal. ring. Qed.
Lemma e9 : / 1000000000 = / 10 ^ 9. Proof. f_equal. ring. Qed.

Lemma rsum_split : forall n m (f g : nat -> R),
  rsum n f + rsum m g = rsum (n + m) (fun i => if (i <? n)%nat then f i else g (i - n)%nat).
Proof.
  intros n m f g. rewrite rsum_add. f_equal; apply rsum_ext; intros i I.
  - now rewrite (proj2 (Nat.ltb_lt i n) I).
  - replace (n + i <? n)%nat with false by (symmetry; apply Nat.ltb_ge; lia). f_equal. lia.
Qed.

Lemma pairs_sym : forall nm chi p, (forall i j, (i < nm)%nat -> (j < nm)%nat -> chi i j = chi j i) ->
  (forall i j, (i < nm)%nat -> (j < nm)%nat -> p i j = p j i) ->
  (forall i j, (i < nm)%nat -> (j < nm)%nat -> chi i j = 0 \/ / 10 ^ 9 < Rabs (chi i j)) ->
  pairSum nm chi p = 1 / 2 * rsum nm (fun i => rsum nm (fun j => chi i j * p i j)).
Proof.
  intros nm chi p CS PS SK. unfold pairSum.
  assert (E : forall i j, (i < nm)%nat -> (j < nm)%nat ->
    (if (i <=? j)%nat then if Rlt_dec (/ 1000000000) (Rabs (chi i j))
       then (if (i =? j)%nat then 1 / 2 * chi i j * p i j else chi i j * p i j) else 0 else 0)
    = (if (i <=? j)%nat then (if (i =? j)%nat then 1 / 2 * (chi i j * p i j) else chi i j * p i j) else 0)).
  { intros i j I J. destruct (i <=? j)%nat; auto. destruct (SK i j I J) as [Z|Z].
    - rewrite Z. destruct (Rlt_dec _ _); destruct (i =? j)%nat; ring.
    - rewrite <- e9 in Z. destruct (Rlt_dec _ _) as [_|N]; [|contradiction]. destruct (i =? j)%nat; ring. }
  rewrite (rsum_ext nm _ (fun i => rsum nm (fun j => if (i <=? j)%nat then (if (i =? j)%nat then 1 / 2 * (chi i j * p i j) else chi i j * p i j) else 0)))
    by (intros i I; apply rsum_ext; intros j J; now apply E).
  set (q := fun i j => chi i j * p i j).
  assert (QS : forall i j, (i < nm)%nat -> (j < nm)%nat -> q i j = q j i) by (intros; unfold q; rewrite CS, PS by auto; auto).
  change (rsum nm (fun i => rsum nm (fun j => if (i <=? j)%nat then (if (i =? j)%nat then 1 / 2 * q i j else q i j) else 0))
    = 1 / 2 * rsum nm (fun i => rsum nm (fun j => q i j))).
  assert (T : rsum nm (fun i => rsum nm (fun j => q i j))
    = rsum nm (fun i => rsum nm (fun j => if (i <=? j)%nat then (if (i =? j)%nat then 1 / 2 * q i j else q i j) else 0))
    + rsum nm (fun i => rsum nm (fun j => if (j <=? i)%nat then (if (j =? i)%nat then 1 / 2 * q j i else q j i) else 0))).
  { rewrite <- rsum_plus. apply rsum_ext. intros i I. rewrite <- rsum_plus. apply rsum_ext. intros j J.
    destruct (Nat.leb_spec i j), (Nat.leb_spec j i), (Nat.eqb_spec i j), (Nat.eqb_spec j i); try lia; subst; try lra.
    rewrite (QS i j) by auto. lra. }
  rewrite (rsum_swap nm nm (fun i j => if (j <=? i)%nat then (if (j =? i)%nat then 1 / 2 * q j i else q j i) else 0)) in T.
  lra.
Qed.

(** What is computed is the free energy of the specification, whichever
    representation of the fields is used. *)
Theorem C65_value : forall t,
  tHasW t = true -> tHasC t = true -> noneSkipped t ->
  (forall i j, (i < tNm t)%nat -> (j < tNm t)%nat -> tChi t i j = tChi t j i) ->
  (tWSym t = true -> forall i j, (i < tNm t)%nat -> (j < tNm t)%nat ->
     represents (tMesh t) (tNb t) (tWb t i) (tCb t j) (tW t i) (tC t j) /\
     represents (tMesh t) (tNb t) (tCb t i) (tCb t j) (tC t i) (tC t j) /\
     (tHSym t = true -> represents (tMesh t) (tNb t) (tHb t i) (tCb t j) (tH t i) (tC t j))) ->
  exists o, thermoCompute t = Ok o /\
    oHelmholtz o = freeEnergy (tMesh t) (tNm t) (tNp t + tNs t) (tChi t) (tPhiTot t) (allSpecies t) (tW t) (external t) (tC t) /\
    oPressure o = pressureOf (tMesh t) (tNm t) (tNp t + tNs t) (tChi t) (tPhiTot t) (allSpecies t) (tW t) (external t) (tC t) /\
    oHelmholtz o = oIdeal o + oExt o + oInter o.
Proof.
  intros t HW HC [SP CH] CS RP. unfold thermoCompute. rewrite HW, HC. cbn [check bind].
  eexists. split; [reflexivity|]. cbn [oHelmholtz oPressure oIdeal oExt oInter].
  assert (SUM : forall (f : speciesData -> R), (forall s, dPhi s = 0 -> f s = 0) ->
    rsum (tNp t) (fun i => if Rlt_dec (/ 100000000) (dPhi (tPol t i)) then f (tPol t i) else 0)
    + rsum (tNs t) (fun i => if Rlt_dec (/ 100000000) (dPhi (tSol t i)) then f (tSol t i) else 0)
    = rsum (tNp t + tNs t) (fun i => f (allSpecies t i))).
  { intros f F0. rewrite rsum_split. apply rsum_ext. intros i I.
    transitivity (if Rlt_dec (/ 100000000) (dPhi (allSpecies t i)) then f (allSpecies t i) else 0).
    { unfold allSpecies. destruct (i <? tNp t)%nat; reflexivity. }
    destruct (Rlt_dec _ _) as [|N]; auto. symmetry. apply F0. destruct (SP i I) as [|L]; auto. rewrite <- e8 in L. contradiction. }
  assert (T : idealSum (tNp t) (tPol t) + idealSum (tNs t) (tSol t) = translational (tNp t + tNs t) (allSpecies t)).
  { unfold idealSum, translational. apply (SUM (fun s => dPhi s * (dMu s - 1) / dSize s)). intros s Z. rewrite Z. unfold Rdiv. ring. }
  assert (M : muSum (tNp t) (tPol t) + muSum (tNs t) (tSol t) = gibbs (tNp t + tNs t) (allSpecies t)).
  { unfold muSum, gibbs. rewrite (SUM (fun s => dMu s * dPhi s / dSize s)).
    - apply rsum_ext. intros. unfold Rdiv. ring.
    - intros s Z. rewrite Z. unfold Rdiv. ring. }
  assert (AVG : forall nm (f : nat -> nat -> R), rsum nm (fun i => average (tMesh t) (f i)) = average (tMesh t) (fun x => rsum nm (fun i => f i x))).
  { intros nm f. unfold average, Rdiv. rewrite rsum_scal_r. f_equal. apply rsum_swap. }
  assert (IP : forall a b, innerProduct (tMesh t) a b / INR (tMesh t) = average (tMesh t) (fun x => a x * b x)) by reflexivity.
  assert (W : (if tWSym t then 0 - rsum (tNm t) (fun i => rsum (tNb t) (fun k => tWb t i k * tCb t i k))
    else (0 - rsum (tNm t) (fun i => innerProduct (tMesh t) (tW t i) (tC t i))) / INR (tMesh t))
    = - average (tMesh t) (fun x => rsum (tNm t) (fun i => tW t i x * tC t i x))).
  { rewrite <- (AVG _ (fun i x => tW t i x * tC t i x)). destruct (tWSym t).
    - rewrite (rsum_ext (tNm t) _ (fun i => average (tMesh t) (fun x => tW t i x * tC t i x))); [ring|].
      intros i I. symmetry. now apply RP.
    - unfold Rdiv. rewrite Rmult_minus_distr_r, Rmult_0_l, <- rsum_scal_r. unfold Rminus. rewrite Rplus_0_l. reflexivity. }
  assert (X : (if tHasH t then (if tWSym t && tHSym t then rsum (tNm t) (fun i => rsum (tNb t) (fun k => tHb t i k * tCb t i k))
       else rsum (tNm t) (fun i => innerProduct (tMesh t) (tH t i) (tC t i)) / INR (tMesh t)) / tPhiTot t else 0)
    = average (tMesh t) (fun x => rsum (tNm t) (fun i => external t i x * tC t i x)) / tPhiTot t).
  { rewrite <- (AVG _ (fun i x => external t i x * tC t i x)). unfold external. destruct (tHasH t).
    - f_equal. destruct (tWSym t && tHSym t)%bool eqn:B.
      + apply andb_true_iff in B. destruct B as [B1 B2]. apply rsum_ext. intros i I. symmetry. now apply RP.
      + unfold Rdiv. rewrite <- rsum_scal_r. reflexivity.
    - rewrite (rsum_ext _ _ (fun _ => 0)); [rewrite rsum_zero; unfold Rdiv; ring|].
      intros i I. unfold average. rewrite (rsum_ext _ _ (fun _ => 0)) by (intros; ring). rewrite rsum_zero. unfold Rdiv. ring. }
  assert (N : (if tWSym t then pairSum (tNm t) (tChi t) (fun i j => rsum (tNb t) (fun k => tCb t i k * tCb t j k))
     else pairSum (tNm t) (tChi t) (fun i j => innerProduct (tMesh t) (tC t i) (tC t j)) / INR (tMesh t))
    = average (tMesh t) (fun x => 1 / 2 * rsum (tNm t) (fun i => rsum (tNm t) (fun j => tChi t i j * tC t i x * tC t j x)))).
  { assert (K : forall p, (forall i j, (i < tNm t)%nat -> (j < tNm t)%nat -> p i j = average (tMesh t) (fun x => tC t i x * tC t j x)) ->
      1 / 2 * rsum (tNm t) (fun i => rsum (tNm t) (fun j => tChi t i j * p i j))
      = average (tMesh t) (fun x => 1 / 2 * rsum (tNm t) (fun i => rsum (tNm t) (fun j => tChi t i j * tC t i x * tC t j x)))).
    { intros p E. generalize (1 / 2). intro hf. unfold average, Rdiv. rewrite rsum_scal, Rmult_assoc. f_equal.
      rewrite (rsum_swap (tMesh t) (tNm t) (fun x i => rsum (tNm t) (fun j => tChi t i j * tC t i x * tC t j x))), <- rsum_scal_r.
      apply rsum_ext. intros i I.
      rewrite (rsum_swap (tMesh t) (tNm t) (fun x j => tChi t i j * tC t i x * tC t j x)), <- rsum_scal_r. apply rsum_ext. intros j J.
      rewrite (E i j I J). unfold average, Rdiv. rewrite <- Rmult_assoc. f_equal. rewrite <- rsum_scal. apply rsum_ext. intros. ring. }
    destruct (tWSym t).
    - rewrite pairs_sym; auto; [|intros i j I J; apply rsum_ext; intros; ring].
      apply K. intros i j I J. symmetry. now apply RP.
    - rewrite pairs_sym; auto; [|intros i j I J; apply rsum_ext; intros; ring].
      rewrite <- (K (fun i j => innerProduct (tMesh t) (tC t i) (tC t j) / INR (tMesh t))) by reflexivity.
      generalize (1 / 2). intro hf. unfold Rdiv. rewrite Rmult_assoc. f_equal. rewrite <- rsum_scal_r. apply rsum_ext. intros i I. rewrite <- rsum_scal_r.
      apply rsum_ext. intros. ring. }
  assert (D : average (tMesh t) (fun x => density (tNm t) (tChi t) (fun i => tW t i x) (fun i => external t i x) (fun i => tC t i x))
    = average (tMesh t) (fun x => rsum (tNm t) (fun i => tW t i x * tC t i x))
      - average (tMesh t) (fun x => rsum (tNm t) (fun i => external t i x * tC t i x))
      - average (tMesh t) (fun x => 1 / 2 * rsum (tNm t) (fun i => rsum (tNm t) (fun j => tChi t i j * tC t i x * tC t j x)))).
  { unfold average, Rdiv. rewrite <- !Rmult_minus_distr_r. f_equal. rewrite <- !rsum_minus. apply rsum_ext. intros x _.
    unfold density, Rdiv. f_equal. rewrite <- rsum_minus. apply rsum_ext. intros. ring. }
  assert (H : idealSum (tNp t) (tPol t) + idealSum (tNs t) (tSol t) +
    (if tWSym t then 0 - rsum (tNm t) (fun i => rsum (tNb t) (fun k => tWb t i k * tCb t i k))
     else (0 - rsum (tNm t) (fun i => innerProduct (tMesh t) (tW t i) (tC t i))) / INR (tMesh t)) / tPhiTot t +
    (if tHasH t then (if tWSym t && tHSym t then rsum (tNm t) (fun i => rsum (tNb t) (fun k => tHb t i k * tCb t i k))
       else rsum (tNm t) (fun i => innerProduct (tMesh t) (tH t i) (tC t i)) / INR (tMesh t)) / tPhiTot t else 0) +
    (if tWSym t then pairSum (tNm t) (tChi t) (fun i j => rsum (tNb t) (fun k => tCb t i k * tCb t j k))
     else pairSum (tNm t) (tChi t) (fun i j => innerProduct (tMesh t) (tC t i) (tC t j)) / INR (tMesh t)) / tPhiTot t
    = freeEnergy (tMesh t) (tNm t) (tNp t + tNs t) (tChi t) (tPhiTot t) (allSpecies t) (tW t) (external t) (tC t)).
  { rewrite W, X, N, T. unfold freeEnergy. rewrite D. unfold Rdiv. ring. }
  split; [exact H|]. split; [|reflexivity].
  rewrite H. unfold pressureOf. rewrite <- M. ring.
Qed.

(** A constant added to all fields changes no free energy, and adds itself to
    the pressure. *)
Theorem C65_shift : forall n nm ns chi P (s s' : nat -> speciesData) w w' h c a,
  (0 < n)%nat -> P <> 0 ->
  (forall i x, w' i x = w i x + a) ->
  (forall i, (i < ns)%nat -> dPhi (s' i) = dPhi (s i) /\ dSize (s' i) = dSize (s i) /\ dSize (s i) <> 0 /\
                             dMu (s' i) = dMu (s i) + a * dSize (s i)) ->
  rsum ns (fun i => dPhi (s i)) = 1 ->
  average n (fun x => rsum nm (fun i => c i x)) = P ->
  freeEnergy n nm ns chi P s' w' h c = freeEnergy n nm ns chi P s w h c /\
  pressureOf n nm ns chi P s' w' h c = pressureOf n nm ns chi P s w h c + a.
Proof.
  intros n nm ns chi P s s' w w' h c a N NZ W S PH C.
  assert (NI : INR n <> 0) by (apply not_0_INR; lia).
  assert (T : translational ns s' = translational ns s + a).
  { unfold translational. rewrite <- (Rmult_1_r a), <- PH, <- rsum_scal, <- rsum_plus. apply rsum_ext. intros i I.
    destruct (S i I) as (-> & -> & Z & ->). field. auto. }
  assert (G : gibbs ns s' = gibbs ns s + a).
  { unfold gibbs. rewrite <- (Rmult_1_r a), <- PH, <- rsum_scal, <- rsum_plus. apply rsum_ext. intros i I.
    destruct (S i I) as (-> & -> & Z & ->). field. auto. }
  assert (D : average n (fun x => density nm chi (fun i => w' i x) (fun i => h i x) (fun i => c i x))
    = average n (fun x => density nm chi (fun i => w i x) (fun i => h i x) (fun i => c i x)) + a * P).
  { rewrite <- C. unfold average, Rdiv. rewrite <- Rmult_assoc, <- Rmult_plus_distr_r. f_equal.
    rewrite <- rsum_scal, <- rsum_plus. apply rsum_ext. intros x _. unfold density.
    rewrite (rsum_ext nm (fun i => (w' i x - h i x) * c i x) (fun i => (w i x - h i x) * c i x + a * c i x))
      by (intros; rewrite W; ring). rewrite rsum_plus, rsum_scal. ring. }
  assert (F : freeEnergy n nm ns chi P s' w' h c = freeEnergy n nm ns chi P s w h c).
  { unfold freeEnergy. rewrite T, D. field. auto. }
  split; auto. unfold pressureOf. rewrite F, G. ring.
Qed.

(** Derivative of the free energy along any path of solutions of the
    self-consistent field equations.  Concentrations and fields may change in any
    way: only explicit changes of the interaction parameters, external fields,
    mask and (through E) of the partition functions at fixed fields count.
      q_s = exp(lq_s) / P is the partition function of species s,
      c responds to w as the derivative of the partition functions,
      the fields satisfy w_i = h_i + sum_j chi_ij c_j + xi, and sum_i c_i = rho. *)
Section Response.
Variables (n nm ns : nat) (phi size : nat -> R).
Variables (chi : nat -> nat -> R -> R) (P : R -> R) (lq : nat -> R -> R) (w h c : nat -> nat -> R -> R) (rho : nat -> R -> R).
Variables (dchi : nat -> nat -> R) (dP : R) (dlq : nat -> R) (dw dh dc : nat -> nat -> R) (drho xi : nat -> R) (E t0 : R).
Definition speciesAt (t : R) (s : nat) : speciesData := mkSpeciesData (phi s) (ln (phi s) - (lq s t - ln (P t))) (size s).
Definition pathEnergy (t : R) : R :=
  freeEnergy n nm ns (fun i j => chi i j t) (P t) (speciesAt t) (fun i x => w i x t) (fun i x => h i x t) (fun i x => c i x t).

Definition smooth : Prop :=
  0 < P t0 /\ is_derive P t0 dP /\
  (forall s, (s < ns)%nat -> is_derive (lq s) t0 (dlq s)) /\
  (forall i j, (i < nm)%nat -> (j < nm)%nat -> is_derive (chi i j) t0 (dchi i j)) /\
  (forall i x, (i < nm)%nat -> (x < n)%nat ->
     is_derive (w i x) t0 (dw i x) /\ is_derive (h i x) t0 (dh i x) /\ is_derive (c i x) t0 (dc i x)) /\
  (forall x, (x < n)%nat -> is_derive (rho x) t0 (drho x)).
Definition responds : Prop :=
  rsum ns (fun s => phi s / size s * dlq s) = - average n (fun x => rsum nm (fun i => c i x t0 * dw i x)) / P t0 + E.
Definition selfConsistent : Prop :=
  (forall i x, (i < nm)%nat -> (x < n)%nat -> w i x t0 = h i x t0 + rsum nm (fun j => chi i j t0 * c j x t0) + xi x) /\
  (forall t x, (x < n)%nat -> rsum nm (fun i => c i x t) = rho x t) /\
  (forall i j, (i < nm)%nat -> (j < nm)%nat -> chi i j t0 = chi j i t0).

Lemma derive_avg : forall (f : nat -> R -> R) df, (forall x, (x < n)%nat -> is_derive (f x) t0 (df x)) ->
  is_derive (fun t => average n (fun x => f x t)) t0 (average n df).
Proof.
  intros f df H. unfold average. unfold Rdiv.
  apply (is_derive_ext (fun t => / INR n * rsum n (fun x => f x t))). { intro t. apply Rmult_comm. }
  replace (rsum n df * / INR n) with (/ INR n * rsum n df) by ring.
  apply (is_derive_scal (fun t => rsum n (fun x => f x t))). now apply is_derive_rsum.
Qed.

Lemma derive_mult : forall (f g : R -> R) df dg, is_derive f t0 df -> is_derive g t0 dg ->
  is_derive (fun t => f t * g t) t0 (df * g t0 + f t0 * dg).
Proof. intros f g df dg F G. apply (is_derive_mult f g t0 df dg F G). intros; apply Rmult_comm. Qed.

Lemma sum_dc : smooth -> selfConsistent -> forall x, (x < n)%nat -> rsum nm (fun i => dc i x) = drho x.
Proof.
  intros (_ & _ & _ & _ & S & RH) (_ & INC & _) x X.
  assert (A : is_derive (fun t => rsum nm (fun i => c i x t)) t0 (rsum nm (fun i => dc i x))).
  { apply is_derive_rsum. intros i I. now apply S. }
  apply (is_derive_ext _ (rho x)) in A; [|intro t; now apply INC].
  rewrite <- (is_derive_unique _ _ _ A). symmetry. rewrite <- (is_derive_unique _ _ _ (RH x X)). reflexivity.
Qed.

Lemma density_derive : smooth -> selfConsistent -> forall x, (x < n)%nat ->
  is_derive (fun t => density nm (fun i j => chi i j t) (fun i => w i x t) (fun i => h i x t) (fun i => c i x t)) t0
    (rsum nm (fun i => (dw i x - dh i x) * c i x t0) + xi x * drho x
     - 1 / 2 * rsum nm (fun i => rsum nm (fun j => dchi i j * c i x t0 * c j x t0))).
Proof.
  intros SM SC x X. assert (SD := sum_dc SM SC x X).
  destruct SM as (_ & _ & _ & CH & S & _). destruct SC as (EQ & _ & SY). unfold density.
  assert (D1 : is_derive (fun t => rsum nm (fun i => (w i x t - h i x t) * c i x t)) t0
     (rsum nm (fun i => (dw i x - dh i x) * c i x t0 + (w i x t0 - h i x t0) * dc i x))).
  { apply (is_derive_rsum nm (fun i t => (w i x t - h i x t) * c i x t)). intros i I. destruct (S i x I X) as (A & B & C).
    apply derive_mult; auto. apply (is_derive_minus (w i x) (h i x)); auto. }
  assert (D2 : is_derive (fun t => rsum nm (fun i => rsum nm (fun j => chi i j t * c i x t * c j x t))) t0
     (rsum nm (fun i => rsum nm (fun j => (dchi i j * c i x t0 + chi i j t0 * dc i x) * c j x t0 + chi i j t0 * c i x t0 * dc j x)))).
  { apply (is_derive_rsum nm (fun i t => rsum nm (fun j => chi i j t * c i x t * c j x t))). intros i I.
    apply (is_derive_rsum nm (fun j t => chi i j t * c i x t * c j x t)). intros j J.
    destruct (S i x I X) as (_ & _ & A). destruct (S j x J X) as (_ & _ & B).
    apply (derive_mult (fun t => chi i j t * c i x t)); auto. apply derive_mult; auto. }
  assert (V : rsum nm (fun i => (dw i x - dh i x) * c i x t0 + (w i x t0 - h i x t0) * dc i x)
     - 1 / 2 * rsum nm (fun i => rsum nm (fun j => (dchi i j * c i x t0 + chi i j t0 * dc i x) * c j x t0 + chi i j t0 * c i x t0 * dc j x))
    = rsum nm (fun i => (dw i x - dh i x) * c i x t0) + xi x * drho x
     - 1 / 2 * rsum nm (fun i => rsum nm (fun j => dchi i j * c i x t0 * c j x t0))).
  { rewrite rsum_plus.
    assert (A : rsum nm (fun i => (w i x t0 - h i x t0) * dc i x)
      = rsum nm (fun i => rsum nm (fun j => chi i j t0 * dc i x * c j x t0)) + xi x * drho x).
    { rewrite <- SD, <- rsum_scal, <- rsum_plus. apply rsum_ext. intros i I. rewrite (EQ i x I X).
      rewrite (rsum_ext nm (fun j => chi i j t0 * dc i x * c j x t0) (fun j => dc i x * (chi i j t0 * c j x t0))) by (intros; ring).
      rewrite rsum_scal. ring. }
    assert (B : rsum nm (fun i => rsum nm (fun j => chi i j t0 * c i x t0 * dc j x))
      = rsum nm (fun i => rsum nm (fun j => chi i j t0 * dc i x * c j x t0))).
    { rewrite rsum_swap. apply rsum_ext. intros i I. apply rsum_ext. intros j J. rewrite (SY j i) by auto. ring. }
    rewrite A.
    rewrite (rsum_ext nm (fun i => rsum nm (fun j => (dchi i j * c i x t0 + chi i j t0 * dc i x) * c j x t0 + chi i j t0 * c i x t0 * dc j x))
       (fun i => rsum nm (fun j => dchi i j * c i x t0 * c j x t0) + rsum nm (fun j => chi i j t0 * dc i x * c j x t0) + rsum nm (fun j => chi i j t0 * c i x t0 * dc j x))).
    2:{ intros i I. rewrite <- !rsum_plus. apply rsum_ext. intros. ring. }
    rewrite !rsum_plus, B. lra. }
  rewrite <- V.
  apply (is_derive_minus (fun t => rsum nm (fun i => (w i x t - h i x t) * c i x t))); auto.
  apply (is_derive_scal (fun t => rsum nm (fun i => rsum nm (fun j => chi i j t * c i x t * c j x t)))); auto.
Qed.

Theorem C65_response : smooth -> responds -> selfConsistent ->
  is_derive pathEnergy t0
    (- E
     + pressureOf n nm ns (fun i j => chi i j t0) (P t0) (speciesAt t0) (fun i x => w i x t0) (fun i x => h i x t0) (fun i x => c i x t0)
       * (dP / P t0)
     + average n (fun x => rsum nm (fun i => dh i x * c i x t0)
                         + 1 / 2 * rsum nm (fun i => rsum nm (fun j => dchi i j * c i x t0 * c j x t0))
                         - xi x * drho x) / P t0).
Proof.
  intros SM RE SC. assert (DD := density_derive SM SC). destruct SM as (PP & HP & HQ & _ & _ & _).
  assert (LP : is_derive (fun t => ln (P t)) t0 (dP / P t0)).
  { replace (dP / P t0) with (dP * / P t0) by reflexivity. apply (is_derive_comp ln P); auto. now apply is_derive_ln. }
  assert (DT : is_derive (fun t => translational ns (speciesAt t)) t0
     (rsum ns (fun s => phi s / size s * (dP / P t0 - dlq s)))).
  { unfold translational, speciesAt. cbn [dPhi dMu dSize].
    apply (is_derive_rsum ns (fun s t => phi s * (ln (phi s) - (lq s t - ln (P t)) - 1) / size s)). intros s S.
    apply (is_derive_ext (fun t => phi s / size s * (ln (P t) - lq s t + (ln (phi s) - 1)))).
    { intro t. match goal with |- ?a = ?b => change (@eq R a b) end. unfold Rdiv. ring. }
    apply (is_derive_scal (fun t => ln (P t) - lq s t + (ln (phi s) - 1))).
    replace (dP / P t0 - dlq s) with ((dP / P t0 - dlq s) + 0) by ring.
    apply (is_derive_plus (fun t => ln (P t) - lq s t)); [|apply @is_derive_const].
    apply (is_derive_minus (fun t => ln (P t)) (lq s)); auto. }
  set (G := fun t => average n (fun x => density nm (fun i j => chi i j t) (fun i => w i x t) (fun i => h i x t) (fun i => c i x t))).
  set (dG := average n (fun x => rsum nm (fun i => (dw i x - dh i x) * c i x t0) + xi x * drho x
     - 1 / 2 * rsum nm (fun i => rsum nm (fun j => dchi i j * c i x t0 * c j x t0)))).
  assert (DG : is_derive G t0 dG) by (apply (derive_avg (fun x t => density nm (fun i j => chi i j t) (fun i => w i x t) (fun i => h i x t) (fun i => c i x t))); auto).
  assert (DQ : is_derive (fun t => G t / P t) t0 ((dG * P t0 - G t0 * dP) / (P t0) ^ 2)).
  { apply (is_derive_div G P); auto. lra. }
  assert (FIN : is_derive pathEnergy t0 (rsum ns (fun s => phi s / size s * (dP / P t0 - dlq s)) - (dG * P t0 - G t0 * dP) / (P t0) ^ 2)).
  { apply (is_derive_minus (fun t => translational ns (speciesAt t)) (fun t => G t / P t)); auto. }
  match goal with |- is_derive _ _ ?v => replace v with (rsum ns (fun s => phi s / size s * (dP / P t0 - dlq s)) - (dG * P t0 - G t0 * dP) / (P t0) ^ 2); auto end.
  assert (A : rsum ns (fun s => phi s / size s * (dP / P t0 - dlq s))
     = rsum ns (fun s => phi s / size s) * (dP / P t0) - rsum ns (fun s => phi s / size s * dlq s)).
  { rewrite <- rsum_scal_r, <- rsum_minus. apply rsum_ext. intros. ring. }
  rewrite A, RE.
  assert (PR : pressureOf n nm ns (fun i j => chi i j t0) (P t0) (speciesAt t0) (fun i x => w i x t0) (fun i x => h i x t0) (fun i x => c i x t0)
     = rsum ns (fun s => phi s / size s) + G t0 / P t0).
  { unfold pressureOf, freeEnergy. fold (G t0).
    assert (B : gibbs ns (speciesAt t0) - translational ns (speciesAt t0) = rsum ns (fun s => phi s / size s)).
    { unfold gibbs, translational. rewrite <- rsum_minus. apply rsum_ext. intros. unfold speciesAt. cbn [dPhi dMu dSize]. unfold Rdiv. ring. }
    rewrite <- B. ring. }
  rewrite PR.
  assert (DGE : dG = average n (fun x => rsum nm (fun i => c i x t0 * dw i x))
    - average n (fun x => rsum nm (fun i => dh i x * c i x t0)
                         + 1 / 2 * rsum nm (fun i => rsum nm (fun j => dchi i j * c i x t0 * c j x t0))
                         - xi x * drho x)).
  { unfold dG, average, Rdiv. rewrite <- Rmult_minus_distr_r, <- rsum_minus. f_equal. apply rsum_ext. intros x _.
    rewrite (rsum_ext nm (fun i => (dw i x - dh i x) * c i x t0) (fun i => c i x t0 * dw i x - dh i x * c i x t0)) by (intros; ring).
    rewrite rsum_minus. ring. }
  rewrite DGE. field. lra.
Qed.
End Response.

(** Solvents respond as required: rpc Solvent::compute gives the concentrations
    that are the derivatives of their partition functions. *)
Theorem C65_solvents : forall n nm ns (ty : nat -> nat) phi size (w : nat -> nat -> R -> R) (dw : nat -> nat -> R) P t0 c,
  (0 < n)%nat -> P <> 0 -> (forall s, (s < ns)%nat -> (ty s < nm)%nat /\ size s <> 0) ->
  (forall i x, (i < nm)%nat -> (x < n)%nat -> is_derive (w i x) t0 (dw i x)) ->
  (forall i x, c i x t0 = rsum ns (fun s => if (ty s =? i)%nat
      then snd (rpcSolvent n (size s) (mkSpecies Closed (phi s) 0 0) (fun y => w (ty s) y t0) P) x else 0)) ->
  exists (lq : nat -> R -> R) dlq,
    (forall s t, (s < ns)%nat -> sp_q (fst (rpcSolvent n (size s) (mkSpecies Closed (phi s) 0 0) (fun y => w (ty s) y t) P)) = exp (lq s t) / P) /\
    (forall s, (s < ns)%nat -> is_derive (lq s) t0 (dlq s)) /\
    responds n nm ns phi size (fun _ => P) c dlq dw 0 t0.
Proof.
  intros n nm ns ty phi size w dw P t0 c N NP TY DW C.
  assert (NI : INR n <> 0) by (apply not_0_INR; lia).
  assert (NI0 : 0 < INR n) by (apply lt_0_INR; lia).
  set (q0 := fun s t => average n (fun x => exp (- size s * w (ty s) x t))).
  assert (Q0 : forall s t, 0 < q0 s t).
  { intros. unfold q0, average. apply Rdiv_lt_0_compat; auto. apply rsum_pos; auto. intros. apply exp_pos. }
  set (dq := fun s => average n (fun x => - size s * dw (ty s) x * exp (- size s * w (ty s) x t0))).
  exists (fun s t => ln (q0 s t)), (fun s => dq s / q0 s t0). split; [|split].
  - intros s t S. rewrite exp_ln by auto. reflexivity.
  - intros s S. destruct (TY s S) as [T1 T2].
    replace (dq s / q0 s t0) with (dq s * / q0 s t0) by reflexivity.
    apply (is_derive_comp ln (q0 s)); [now apply is_derive_ln|].
    unfold q0, dq. apply (derive_avg n t0 (fun x t => exp (- size s * w (ty s) x t))). intros x X.
    apply (is_derive_comp exp (fun t => - size s * w (ty s) x t)); [apply is_derive_exp|].
    apply (is_derive_scal (w (ty s) x)). auto.
  - unfold responds. rewrite Rplus_0_r.
    assert (A : average n (fun x => rsum nm (fun i => c i x t0 * dw i x))
      = rsum ns (fun s => average n (fun x => snd (rpcSolvent n (size s) (mkSpecies Closed (phi s) 0 0) (fun y => w (ty s) y t0) P) x * dw (ty s) x))).
    { unfold average, Rdiv. rewrite rsum_scal_r. f_equal.
      rewrite (rsum_swap ns n). apply rsum_ext. intros x X.
      rewrite (rsum_ext nm _ (fun i => rsum ns (fun s => if (ty s =? i)%nat
          then snd (rpcSolvent n (size s) (mkSpecies Closed (phi s) 0 0) (fun y => w (ty s) y t0) P) x * dw i x else 0))).
      2:{ intros i I. rewrite C, <- rsum_scal_r. apply rsum_ext. intros s S. destruct (ty s =? i)%nat; ring. }
      rewrite rsum_swap. apply rsum_ext. intros s S. destruct (TY s S) as [T1 _].
      rewrite (rsum_single nm (ty s)); auto; [now rewrite Nat.eqb_refl|].
      intros i I NE. destruct (Nat.eqb_spec (ty s) i); [congruence|auto]. }
    rewrite A. unfold Rdiv. rewrite <- rsum_opp, <- rsum_scal_r. apply rsum_ext. intros s S. destruct (TY s S) as [T1 T2].
    assert (E1 : dq s = - size s * average n (fun x => exp (- size s * w (ty s) x t0) * dw (ty s) x)).
    { unfold dq, average, Rdiv. rewrite <- Rmult_assoc, <- rsum_scal. f_equal. apply rsum_ext. intros. ring. }
    assert (E2 : average n (fun x => snd (rpcSolvent n (size s) (mkSpecies Closed (phi s) 0 0) (fun y => w (ty s) y t0) P) x * dw (ty s) x)
       = phi s / (q0 s t0 / P) * average n (fun x => exp (- size s * w (ty s) x t0) * dw (ty s) x)).
    { unfold average. rewrite (rsum_ext n _ (fun x => phi s / (q0 s t0 / P) * (exp (- size s * w (ty s) x t0) * dw (ty s) x))).
      - rewrite rsum_scal. unfold Rdiv. ring.
      - intros x X. unfold rpcSolvent. cbn [setQ sp_ens sp_phi snd]. unfold q0, average. ring. }
    rewrite E1. rewrite E2. assert (Z := Q0 s t0). field. repeat split; auto; lra.
Qed.

(** In a homogeneous state the free energy and pressure are those of
    Flory-Huggins theory (C56), for any pressure field xi. *)
Theorem C65_homogeneous : forall nMon mols chi phi xi n,
  goodMixture nMon mols -> (0 < n)%nat -> rsum (List.length mols) phi = 1 ->
  let s := fun i => mkSpeciesData (phi i) (chemPot nMon chi mols phi xi i) (size mols i) in
  let c := fun i (x : nat) => monomers mols phi i in
  let w := fun i (x : nat) => rsum nMon (fun j => chi i j * monomers mols phi j) + xi in
  freeEnergy n nMon (List.length mols) chi 1 s w (fun _ _ => 0) c = mixtureF nMon chi mols phi /\
  pressureOf n nMon (List.length mols) chi 1 s w (fun _ _ => 0) c
    = xi + rsum (List.length mols) (fun i => phi i / size mols i) + excessF nMon chi (monomers mols phi).
Proof.
  intros nMon mols chi phi xi n M N PH s c w.
  assert (NI : INR n <> 0) by (apply not_0_INR; lia).
  assert (CT : rsum nMon (monomers mols phi) = 1) by (rewrite monomers_total; auto).
  assert (D : average n (fun x => density nMon chi (fun i => w i x) (fun i => 0) (fun i => c i x)) = excessF nMon chi (monomers mols phi) + xi).
  { unfold average, density, w, c. rewrite rsum_const.
    rewrite (rsum_ext nMon _ (fun i => rsum nMon (fun j => chi i j * monomers mols phi i * monomers mols phi j) + xi * monomers mols phi i)).
    - rewrite rsum_plus, rsum_scal, CT. unfold excessF. field. auto.
    - intros i I. rewrite Rminus_0_r, Rmult_plus_distr_r, <- rsum_scal_r. f_equal. apply rsum_ext. intros. ring. }
  assert (T : translational (List.length mols) s = idealF mols phi + 2 * excessF nMon chi (monomers mols phi) + xi).
  { unfold translational, idealF, s. cbn [dPhi dMu dSize]. rewrite <- (excess_sum nMon mols chi phi).
    assert (X : xi = rsum (List.length mols) (fun i => xi * phi i)) by (rewrite rsum_scal, PH; ring).
    match goal with |- _ = ?a + xi => transitivity (a + rsum (List.length mols) (fun i => xi * phi i)); [|f_equal; now symmetry] end.
    rewrite <- !rsum_plus. apply rsum_ext. intros i I.
    unfold chemPot. assert (Z := size_pos nMon mols M i I). field. lra. }
  assert (F : freeEnergy n nMon (List.length mols) chi 1 s w (fun _ _ => 0) c = mixtureF nMon chi mols phi).
  { unfold freeEnergy. rewrite D, T. unfold mixtureF. field. }
  split; auto. unfold pressureOf. rewrite F.
  assert (G : gibbs (List.length mols) s - translational (List.length mols) s = rsum (List.length mols) (fun i => phi i / size mols i)).
  { unfold gibbs, translational. rewrite <- rsum_minus. apply rsum_ext. intros. unfold s. cbn [dPhi dMu dSize]. unfold Rdiv. ring. }
  rewrite <- G, T. unfold mixtureF. ring.
Qed.

(** Two solvents on three points with a mask, unequal concentrations and an
    external field. *)
Definition exThermo : thermoIn :=
  mkThermoIn true true 2 1 (fun _ => mkSpeciesData (1/4) 2 10) 1 (fun _ => mkSpeciesData (3/4) (-1) 1)
    (fun i j => if (i =? j)%nat then 0 else 3) 3
    (fun i k => INR (i + 2 * k)) (fun i k => if (i =? 0)%nat then INR k / 4 else (2 - INR k) / 4) 0 (fun _ _ => 0) (fun _ _ => 0)
    false true (fun i k => INR (i * k)) (fun _ _ => 0) false (1/2).
Example exThermo_ok : noneSkipped exThermo /\
  (forall i j, (i < tNm exThermo)%nat -> (j < tNm exThermo)%nat -> tChi exThermo i j = tChi exThermo j i) /\
  exists o, thermoCompute exThermo = Ok o /\ oExt o = (1/4) / 3 / (1/2).
Proof.
  split; [|split].
  - split.
    + intros i I. right. unfold allSpecies, exThermo; cbn [tNp tPol tSol dPhi]. assert (/ 10 ^ 8 < 1 / 4) by lra.
      destruct (i <? 1)%nat; cbn [dPhi]; lra.
    + intros i j I J. unfold exThermo; cbn [tChi]. destruct (i =? j)%nat; [now left|right]. rewrite Rabs_pos_eq by lra. lra.
  - intros i j _ _. unfold exThermo; cbn [tChi]. rewrite Nat.eqb_sym. reflexivity.
  - eexists. split; [reflexivity|]. unfold exThermo. cbn. unfold innerProduct. cbn. lra.
Qed.

(** A path that meets the three hypotheses of [C65_response]: one solvent behind a
    mask that changes with t, with a growing external field and interaction. *)
Definition exRho (x : nat) (t : R) : R := if (x =? 0)%nat then 1 else exp (- t).
Example exPath : let P := fun t => (1 + exp (- t)) / 2 in
  smooth 2 1 1 (fun _ _ t => t) P (fun _ t => ln ((1 + exp (- t)) / 2)) (fun _ x t => if (x =? 0)%nat then 0 else t)
    (fun _ x t => INR x * t * t) (fun _ => exRho) exRho (fun _ _ => 1) (- 1 / 2) (fun _ => - 1 / 2) (fun _ x => INR x) (fun _ _ => 0)
    (fun _ x => - INR x) (fun x => - INR x) 0 /\
  responds 2 1 1 (fun _ => 1) (fun _ => 1) P (fun _ => exRho) (fun _ => - 1 / 2) (fun _ x => INR x) 0 0 /\
  selfConsistent 2 1 (fun _ _ t => t) (fun _ x t => if (x =? 0)%nat then 0 else t) (fun _ x t => INR x * t * t) (fun _ => exRho) exRho (fun _ => 0) 0.
Proof.
  intro P. assert (E0 : exp (- 0) = 1) by (rewrite Ropp_0; apply exp_0).
  assert (DP : is_derive P 0 (- 1 / 2)).
  { unfold P. auto_derive; auto. rewrite E0. field. }
  assert (DR : forall x, (x < 2)%nat -> is_derive (exRho x) 0 (- INR x)).
  { intros x X. unfold exRho. destruct x as [|[|x]]; [| |lia]; cbn [Nat.eqb INR]; auto_derive; auto; try ring. rewrite E0. ring. }
  split; [|split].
  - unfold smooth. split; [unfold P; rewrite E0; lra|]. split; [exact DP|]. split; [|split; [|split]].
    + intros s _. replace (- 1 / 2) with (- 1 / 2 * / P 0) by (unfold P; rewrite E0; field).
      apply (is_derive_comp ln P); [apply is_derive_ln; unfold P; rewrite E0; lra|exact DP].
    + intros. auto_derive; auto.
    + intros i x _ X. split; [|split].
      * destruct x as [|[|x]]; [| |lia]; cbn [Nat.eqb INR]; auto_derive; auto.
      * auto_derive; auto. ring.
      * now apply DR.
    + intros x X. now apply DR.
  - unfold responds, average, exRho, P. cbn. rewrite E0. field.
  - repeat split.
    + intros i x _ X. cbn. destruct (x =? 0)%nat; ring.
    + intros. cbn. ring.
Qed.

Print Assumptions C65_value.
Print Assumptions C65_shift.
Print Assumptions C65_response.
Print Assumptions C65_solvents.
Print Assumptions C65_homogeneous.
