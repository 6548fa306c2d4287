(** C63: the stress of a film is the derivative of its free energy. *)
From Coq Require Import Reals ZArith Bool Arith Lia Lra.
From Coquelicot Require Import Coquelicot.
From Coq Require Import List.
From Verif Require Import Base RSum UnitCell UnitCellProofs Environment Film FilmSpec FilmProofs FilmStress ThermoSpec Thermo PropsThermo.
Import ListNotations.
Local Open Scope R_scope.

Lemma tanh_derive : forall x, is_derive tanh x (1 - tanh x * tanh x).
Proof.
  intro x. assert (A := exp_pos x). assert (B := exp_pos (- x)).
  apply (is_derive_ext (fun y => (exp y - exp (- y)) / 2 / ((exp y + exp (- y)) / 2))); [reflexivity|].
  unfold tanh, sinh, cosh. auto_derive; [lra|]. field. lra.
Qed.

(** The mask at fixed reduced coordinate changes with the film thickness as the
    stress functions assume. *)
Theorem C63_mask : forall it et c d L, it <> 0 -> 0 < L ->
  is_derive (fun l => maskValue l it et (c * l / d)) L (maskDeriv it (c / d) (maskValue L it et (c * L / d))).
Proof.
  intros it et c d L IT LP.
  set (u := fun l => 4 * ((1 / 2 * (et - l) + l * Rabs (c / d - 1 / 2)) / it)).
  assert (E : forall l, 0 < l -> maskValue l it et (c * l / d) = 1 - 1 / 2 * (1 + tanh (u l))).
  { intros l P. unfold maskValue, u. do 6 f_equal. f_equal.
    replace (c * l / d - l / 2) with (l * (c / d - 1 / 2)) by (unfold Rdiv; ring).
    rewrite Rabs_mult, (Rabs_pos_eq l) by lra. reflexivity. }
  apply (is_derive_ext_loc (fun l => 1 - 1 / 2 * (1 + tanh (u l)))).
  { exists (mkposreal L LP). intros l B. symmetry. apply E.
    apply Rabs_lt_between in B. cbn in B. unfold minus, plus, opp in B; cbn in B. lra. }
  rewrite (E L LP).
  assert (DU : is_derive u L (4 * (Rabs (c / d - 1 / 2) - 1 / 2) / it)).
  { unfold u. auto_derive; auto. field. auto. }
  assert (DT := is_derive_comp tanh u L _ _ (tanh_derive (u L)) DU).
  assert (K : is_derive (fun l => 1 + - (1 / 2) * (1 + tanh (u l))) L
     (0 + - (1 / 2) * (0 + scal (4 * (Rabs (c / d - 1 / 2) - 1 / 2) / it) (1 - tanh (u L) * tanh (u L))))).
  { apply @is_derive_plus; [apply @is_derive_const|].
    apply (is_derive_scal (fun l => 1 + tanh (u l))).
    apply @is_derive_plus; [apply @is_derive_const|exact DT]. }
  apply (is_derive_ext (fun l => 1 + - (1 / 2) * (1 + tanh (u l)))).
  { intro l. match goal with |- ?a = ?b => change (@eq R a b) end. ring. }
  match type of K with is_derive _ _ ?v => match goal with |- is_derive _ _ ?v' => replace v' with v; [exact K|] end end.
  unfold maskDeriv, scal; cbn; unfold mult; cbn. field. auto.
Qed.

(** The external field follows. *)
Theorem C63_external : forall (rho : R -> R) drho d c cb ct L, is_derive rho L drho ->
  is_derive (fun l => hValue d c cb ct (rho l)) L (hDeriv d c cb ct drho).
Proof.
  intros rho drho d c cb ct L D. unfold hValue, hDeriv.
  destruct (c <? d / 2)%nat;
  match goal with |- is_derive _ _ (- (1) * drho * ?a) =>
    apply (is_derive_ext (fun l => a * (1 + - (1) * rho l)));
      [intro l; match goal with |- ?a = ?b => change (@eq R a b) end; ring|];
    replace (- (1) * drho * a) with (a * (0 + - (1) * drho)) by ring;
    apply (is_derive_scal (fun l => 1 + - (1) * rho l));
    apply @is_derive_plus; [apply @is_derive_const|now apply (is_derive_scal rho)] end.
Qed.

(** The system with the i-th lattice parameter replaced by L, and the mask and
    external fields that are generated for it. *)
Definition atLength (w : fsys) (i : nat) (L : R) : fsys :=
  mkFsys (fLat w) (replaced (fP w) i L) (fDims w) (fGroup w) (fNMon w) (fSym w) (fBasis w) (fIsFlex w) (fFlex w) (fMask w) (fH w).
Definition generated (w : fsys) (g : maskGen) (x : extGen) (g' : maskGen) (x' : extGen) (w2 : fsys) (m : nat -> R) (h : nat -> nat -> R) : Prop :=
  exists w1 mk, maskCompute w g = Ok (g', w1) /\ extCompute w1 x = Ok (x', w2) /\ fMask w2 = Some mk /\
    (forall k, (k < meshSize w)%nat -> m k = nth k mk 0) /\
    (forall j k, (j < fNMon w)%nat -> (k < meshSize w)%nat -> h j k = match fH w2 with Some hh => nth k (nth j hh []) 0 | None => 0 end).

Lemma generated_values : forall w g x i L g' x' w2 m h n,
  0 < L -> fullToReduced (fLat w) (mNv g) = Ok (Z.of_nat i) -> xNv x = mNv g -> mNv g = Z.of_nat n ->
  generated (atLength w i L) g x g' x' w2 m h ->
  0 < mIT g /\ (n < 3)%nat /\ meshSize w2 = meshSize w /\ (forall j, dim3 w2 j = dim3 w j) /\ fNMon w2 = fNMon w /\ fLat w2 = fLat w /\ fP w2 i = L /\
  mNv g' = mNv g /\ mIT g' = mIT g /\ mET g' = mET g /\ xNv x' = xNv x /\ xIT x' = xIT x /\ xB x' = xB x /\ xT x' = xT x /\
  isAthermal (fNMon w2) x' = isAthermal (fNMon w) x /\
  exists a, isAthermal (fNMon w) x = Ok a /\ (a = true -> fH w2 = None) /\ (a = false -> fH w2 <> None) /\
  forall k, (k < meshSize w)%nat ->
    m k = maskValue L (mIT g) (mET g) (INR (coord (pointAt w k) n) * L / INR (dim3 w n)) /\
    forall j, (j < fNMon w)%nat -> h j k = if a then 0 else hValue (dim3 w n) (coord (pointAt w k) n) (nth j (xB x) 0) (nth j (xT x) 0) (m k).
Proof.
  intros w g x i L g' x' w2 m h n LP FR XN NV (w1 & mk & MC & XC & MK & MV & HV).
  destruct (maskCompute_ok _ _ _ _ MC) as (L' & n' & NL & NV' & LN & IT & _ & W1 & G').
  assert (n' = n) by lia. subst n'.
  assert (EL : L' = L).
  { unfold normalLength in NL. cbn [atLength fLat fP] in NL. rewrite FR in NL. cbn [bind] in NL.
    replace (0 <=? Z.of_nat i)%Z with true in NL by (symmetry; apply Z.leb_le; lia).
    injection NL as <-. rewrite Nat2Z.id. unfold replaced. now rewrite Nat.eqb_refl. }
  subst L'.
  destruct (extCompute_ok _ _ _ _ XC) as (n'' & XV & _ & _ & _ & _ & X' & C).
  assert (n'' = n) by lia. subst n''.
  set (ml := map (fun c => maskValue L (mIT g) (mET g) (INR (coord c n) * L / INR (dim3 (atLength w i L) n))) (points (dim3 (atLength w i L)))) in *.
  assert (D3 : forall j, dim3 w2 j = dim3 w j).
  { intro j. subst w1. destruct C as [[_ ->]|[_ (m0 & _ & _ & ->)]]; reflexivity. }
  assert (PT : points (dim3 w2) = points (dim3 w)).
  { subst w1. destruct C as [[_ ->]|[_ (m0 & _ & _ & ->)]]; reflexivity. }
  split; [lra|]. split; [assert (T := dim_le3 (fLat (atLength w i L))); unfold fD in LN; lia|].
  split; [unfold meshSize; now rewrite PT|]. split; [exact D3|].
  assert (NM : fNMon w2 = fNMon w /\ fLat w2 = fLat w /\ fP w2 i = L).
  { assert (R : replaced (fP w) i L i = L) by (unfold replaced; now rewrite Nat.eqb_refl).
    subst w1. destruct C as [[_ ->]|[_ (m0 & _ & _ & ->)]]; repeat split; exact R. }
  destruct NM as (NM & LT & PP). split; [auto|]. split; [auto|]. split; [auto|].
  rewrite G', X'. cbn [mNv mIT mET xNv xIT xB xT]. do 7 (split; [reflexivity|]).
  assert (AE : isAthermal (fNMon w1) x = isAthermal (fNMon w) x) by (subst w1; reflexivity).
  split. { rewrite NM. reflexivity. }
  assert (ME : mk = ml).
  { subst w1. destruct C as [[_ W2]|[_ (m0 & _ & _ & W2)]]; rewrite W2 in MK; cbn in MK; congruence. }
  assert (ML : forall k, (k < meshSize w)%nat -> m k = maskValue L (mIT g) (mET g) (INR (coord (pointAt w k) n) * L / INR (dim3 w n))).
  { intros k K. rewrite MV, ME by exact K. unfold ml.
    change (points (dim3 (atLength w i L))) with (points (dim3 w)). change (dim3 (atLength w i L) n) with (dim3 w n).
    rewrite (nth_indep _ 0 (maskValue L (mIT g) (mET g) (INR (coord (0, 0, 0)%nat n) * L / INR (dim3 w n)))) by (rewrite map_length; exact K).
    rewrite (map_nth (fun c => maskValue L (mIT g) (mET g) (INR (coord c n) * L / INR (dim3 w n)))). reflexivity. }
  destruct C as [[A W2]|[A (m0 & M0 & _ & W2)]]; rewrite AE in A.
  - exists true. split; [exact A|]. split; [intros _; rewrite W2; reflexivity|]. split; [discriminate|].
    intros k K. split; [auto|]. intros j J. rewrite HV, W2 by auto. reflexivity.
  - exists false. split; [exact A|]. split; [discriminate|]. split; [intros _; rewrite W2; discriminate|].
    intros k K. split; [auto|]. intros j J. rewrite HV, W2 by auto. cbn [withH fH].
    assert (M1 : m0 = mk) by (rewrite W2 in MK; cbn in MK; congruence).
    assert (D1 : forall q, dim3 w1 q = dim3 w q) by (intro q; subst w1; reflexivity).
    assert (P1 : points (dim3 w1) = points (dim3 w)) by (subst w1; reflexivity).
    assert (N1 : fNMon w1 = fNMon w) by (subst w1; reflexivity).
    rewrite M1, P1, N1, D1.
    set (row := fun j => map (fun cr : nat * nat * nat * R => hValue (dim3 w n) (coord (fst cr) n) (nth j (xB x) 0) (nth j (xT x) 0) (snd cr)) (combine (points (dim3 w)) mk)).
    rewrite (nth_indep _ [] (row 0%nat)) by (rewrite map_length, seq_length; auto).
    change (map _ (seq 0 (fNMon w))) with (map row (seq 0 (fNMon w))).
    rewrite (map_nth row), seq_nth by auto. unfold row.
    assert (LM : List.length mk = meshSize w) by (rewrite ME; unfold ml; rewrite map_length; reflexivity).
    rewrite (nth_indep _ 0 (hValue (dim3 w n) (coord (fst ((0,0,0)%nat, 0)) n) (nth (0 + j) (xB x) 0) (nth (0 + j) (xT x) 0) (snd ((0,0,0)%nat, 0))))
      by (rewrite map_length, combine_length, LM; unfold meshSize in *; lia).
    rewrite (map_nth (fun cr : nat * nat * nat * R => hValue (dim3 w n) (coord (fst cr) n) (nth (0 + j) (xB x) 0) (nth (0 + j) (xT x) 0) (snd cr))).
    rewrite combine_nth by (rewrite LM; reflexivity). cbn [fst snd plus]. now rewrite MV by exact K.
Qed.

Lemma rsum_ext_avg : forall n g f, (forall k, (k < n)%nat -> f k = g k) -> average n f = average n g.
Proof. intros n g f H. unfold average. f_equal. now apply rsum_ext. Qed.
Lemma avg_minus : forall n f g, average n (fun k => f k - g k) = average n f - average n g.
Proof. intros. unfold average, Rdiv. rewrite rsum_minus. ring. Qed.

Lemma derive_pos_unique : forall (f : R -> R) g L a b, 0 < L ->
  is_derive f L a -> is_derive g L b -> (forall l, 0 < l -> f l = g l) -> a = b.
Proof.
  intros f g L a b P F G E.
  rewrite <- (is_derive_unique f L a F). rewrite <- (is_derive_unique g L b G). apply Derive_ext_loc.
  exists (mkposreal L P). intros l B. apply E.
  apply Rabs_lt_between in B. cbn in B. unfold minus, plus, opp in B; cbn in B. lra.
Qed.

(** Along any smooth path of self-consistent solutions in which the film is
    regenerated for each length L of the normal lattice vector, the stress of the
    mixture (-E: the change of the partition functions at fixed fields) plus the
    contributions of both generators is the derivative of the free energy, except
    that the change of the mean of the mask enters as T/L^2. *)
Theorem C63_stress : forall w g x i n L0 (gP : R -> maskGen) (xP : R -> extGen) (wP : R -> fsys)
    ns phi size chi lq (wf h c : nat -> nat -> R -> R) (rho : nat -> R -> R) (P : R -> R)
    dchi dP dlq dw dh dc drho xi E s p,
  0 < L0 -> fullToReduced (fLat w) (mNv g) = Ok (Z.of_nat i) -> mNv g = Z.of_nat n ->
  xNv x = mNv g -> xIT x = mIT g ->
  (forall L, 0 < L -> generated (atLength w i L) g x (gP L) (xP L) (wP L) (fun k => rho k L) (fun j k => h j k L)) ->
  (forall L, P L = average (meshSize w) (fun k => rho k L)) ->
  smooth (meshSize w) (fNMon w) ns chi P lq wf h c rho dchi dP dlq dw dh dc drho L0 ->
  responds (meshSize w) (fNMon w) ns phi size P c dlq dw E L0 ->
  selfConsistent (meshSize w) (fNMon w) chi wf h c rho xi L0 ->
  (forall j k, dchi j k = 0) ->
  (forall j, (j < fNMon w)%nat -> chi 0%nat j L0 = 0 \/ / 10 ^ 6 < Rabs (chi 0%nat j L0)) ->
  p = pressureOf (meshSize w) (fNMon w) ns (fun i j => chi i j L0) (P L0) (speciesAt phi size P lq L0)
        (fun i x => wf i x L0) (fun i x => h i x L0) (fun i x => c i x L0) ->
  s = mkFsol (fun i k => wf i k L0) (fun i k => c i k L0) (fun i j => chi i j L0) p (P L0) ->
  exists a b, maskStress (wP L0) s (gP L0) i = Ok a /\ extStress (wP L0) s (xP L0) i = Ok b /\
    is_derive (pathEnergy (meshSize w) (fNMon w) ns phi size chi P lq wf h c) L0
      (- E + a + b + p / P L0 * (average (meshSize w) drho - mET g / (L0 * L0))).
Proof.
  intros w g x i n L0 gP xP wP ns phi size chi lq wf h c rho P dchi dP dlq dw dh dc drho xi E s p
    LP FR NV XN XI GEN PA SM RE SC DCH TH PE SE.
  assert (DE := C65_response _ _ _ _ _ _ _ _ _ _ _ _ _ _ _ _ _ _ _ _ _ _ SM RE SC). rewrite <- PE in DE.
  destruct SM as (PP & HP & _ & _ & SF & SR). destruct SC as (EQ & INC & SY).
  assert (GV := fun L (H : 0 < L) => generated_values w g x i L _ _ _ _ _ n H FR XN NV (GEN L H)).
  destruct (GV L0 LP) as (IT & N3 & MS & D3 & NM & LT & PL & G1 & G2 & G3 & X1 & X2 & X3 & X4 & AT & a0 & A0 & HN & HS & VAL).
  assert (NMP : (0 < fNMon w)%nat).
  { unfold isAthermal, wallChecks in A0. destruct (Nat.eqb_spec (fNMon w) 0); [discriminate|lia]. }
  assert (VALL : forall L, 0 < L -> forall k, (k < meshSize w)%nat ->
     rho k L = maskValue L (mIT g) (mET g) (INR (coord (pointAt w k) n) * L / INR (dim3 w n)) /\
     forall j, (j < fNMon w)%nat -> h j k L = if a0 then 0 else hValue (dim3 w n) (coord (pointAt w k) n) (nth j (xB x) 0) (nth j (xT x) 0) (rho k L)).
  { intros L H. destruct (GV L H) as (_ & _ & _ & _ & _ & _ & _ & _ & _ & _ & _ & _ & _ & _ & _ & a1 & A1 & _ & _ & V).
    assert (a1 = a0) by congruence. subst a1. exact V. }
  assert (DR : forall k, (k < meshSize w)%nat -> drho k = maskDeriv (mIT g) (INR (coord (pointAt w k) n) / INR (dim3 w n)) (rho k L0)).
  { intros k K. assert (V := VALL L0 LP k K). destruct V as [V _]. rewrite V.
    apply (derive_pos_unique _ _ L0 _ _ LP (SR k K) (C63_mask (mIT g) (mET g) (INR (coord (pointAt w k) n)) (INR (dim3 w n)) L0 ltac:(lra) LP)).
    intros l Hl. now apply VALL. }
  assert (DH : forall j k, (j < fNMon w)%nat -> (k < meshSize w)%nat ->
     dh j k = if a0 then 0 else hDeriv (dim3 w n) (coord (pointAt w k) n) (nth j (xB x) 0) (nth j (xT x) 0) (drho k)).
  { intros j k J K. destruct (SF j k J K) as (_ & F & _). destruct a0.
    - apply (derive_pos_unique (h j k) (fun _ => 0) L0); auto; [apply @is_derive_const|].
      intros l Hl. now apply (VALL l Hl k K).
    - apply (derive_pos_unique (h j k) (fun l => hValue (dim3 w n) (coord (pointAt w k) n) (nth j (xB x) 0) (nth j (xT x) 0) (rho k l)) L0); auto.
      + apply C63_external. auto.
      + intros l Hl. now apply (VALL l Hl k K). }
  assert (NX : (0 < meshSize w)%nat).
  { destruct (meshSize w) eqn:Z; [|lia]. exfalso. rewrite PA in PP. unfold average in PP. cbn in PP. unfold Rdiv in PP. rewrite Rmult_0_l in PP. lra. }
  assert (NI : INR (meshSize w) <> 0) by (apply not_0_INR; lia).
  destruct (GEN L0 LP) as (w1 & mk & _ & _ & MK & MV & HV).
  assert (DA : forall k, (k < meshSize w)%nat -> derivAt (wP L0) (mIT g) n mk k = drho k).
  { intros k K. unfold derivAt. rewrite DR by auto. rewrite D3, MV by exact K. f_equal. do 3 f_equal.
    unfold pointAt. assert (PT : points (dim3 (wP L0)) = points (dim3 w)).
    { unfold points. now rewrite !D3. } now rewrite PT. }
  assert (PTA : forall k, pointAt (wP L0) k = pointAt w k).
  { intro k. unfold pointAt, points. now rewrite !D3. }
  assert (XA : forall k, (k < meshSize w)%nat -> xiAt (wP L0) s k = xi k).
  { intros k K. unfold xiAt. rewrite SE. cbn [sW sC sChi]. rewrite NM.
    rewrite (rsum_ext (fNMon w) _ (fun j => chi 0%nat j L0 * c j k L0)).
    - assert (H0 := HV 0%nat k NMP K). cbn beta in H0. rewrite <- H0. rewrite (EQ 0%nat k) by auto. ring.
    - intros j J. destruct (Rlt_dec _ _) as [|N]; [ring|]. destruct (TH j J) as [Z|Z]; [rewrite Z; ring|].
      exfalso. apply N. replace (/ 1000000) with (/ 10 ^ 6) by (f_equal; ring). exact Z. }
  set (a := p * mET g / (P L0 * L0 * L0) - average (meshSize w) (fun k => xi k * drho k) / P L0).
  set (b := average (meshSize w) (fun k => rsum (fNMon w) (fun j => dh j k * c j k L0)) / P L0).
  exists a, b. split; [|split].
  - unfold maskStress. rewrite LT, G1, FR. cbn [bind]. rewrite Z.eqb_refl. cbn [negb]. rewrite MK.
    unfold index3. rewrite NV. replace ((0 <=? Z.of_nat n) && (Z.of_nat n <? 3))%Z with true
      by (symmetry; apply andb_true_iff; split; [apply Z.leb_le|apply Z.ltb_lt]; lia).
    cbn [bind]. rewrite Nat2Z.id, MS, G2, G3, PL. f_equal. unfold a. rewrite SE. cbn [sPress sPhiTot]. rewrite <- SE. f_equal.
    rewrite (rsum_ext (meshSize w) _ (fun k => xi k * drho k)) by (intros k K; rewrite XA, DA by auto; reflexivity).
    unfold average. field. split; auto. lra.
  - unfold extStress. rewrite AT, A0. cbn [bind]. destruct a0.
    + f_equal. unfold b. rewrite (rsum_ext_avg (meshSize w) (fun _ => 0)). 
      2:{ intros k K. rewrite (rsum_ext _ _ (fun _ => 0)); [apply rsum_zero|]. intros j J. rewrite DH by auto. ring. }
      unfold average. rewrite rsum_zero. unfold Rdiv. ring.
    + rewrite X1, XN, LT, FR. replace (0 <=? mNv g)%Z with true by (symmetry; apply Z.leb_le; lia). cbn [check bind].
      rewrite Z.eqb_refl. cbn [negb]. rewrite X2, XI. rewrite (gtb_true _ _ IT). cbn [check bind]. rewrite MK.
      destruct (fH (wP L0)) as [hh|] eqn:FH; [|exfalso; now apply HS].
      unfold index3. rewrite NV. replace ((0 <=? Z.of_nat n) && (Z.of_nat n <? 3))%Z with true
      by (symmetry; apply andb_true_iff; split; [apply Z.leb_le|apply Z.ltb_lt]; lia).
      cbn [bind]. rewrite Nat2Z.id, MS, NM, D3, X3, X4. f_equal. unfold b. rewrite SE. cbn [sC sPhiTot].
      assert (Q : rsum (fNMon w) (fun j => rsum (meshSize w) (fun k => c j k L0 *
          hDeriv (dim3 w n) (coord (pointAt (wP L0) k) n) (nth j (xB x) 0) (nth j (xT x) 0) (derivAt (wP L0) (mIT g) n mk k)))
        = rsum (meshSize w) (fun k => rsum (fNMon w) (fun j => dh j k * c j k L0))).
      { rewrite rsum_swap. apply rsum_ext. intros k K. apply rsum_ext. intros j J. rewrite DH, PTA, DA by auto. ring. }
      rewrite Q. unfold average. field. split; auto. lra.
  - assert (DP : dP = average (meshSize w) drho).
    { assert (Q := derive_avg (meshSize w) L0 rho drho SR).
      rewrite <- (is_derive_unique _ _ _ HP), <- (is_derive_unique _ _ _ Q). apply Derive_ext. exact PA. }
    match type of DE with is_derive _ _ ?v => match goal with |- is_derive _ _ ?v' => replace v' with v; [exact DE|] end end.
    rewrite DP. unfold a, b.
    rewrite (rsum_ext_avg (meshSize w) (fun k => rsum (fNMon w) (fun j => dh j k * c j k L0) - xi k * drho k)
       (fun k => rsum (fNMon w) (fun j => dh j k * c j k L0)
          + 1 / 2 * rsum (fNMon w) (fun i0 => rsum (fNMon w) (fun j => dchi i0 j * c i0 k L0 * c j k L0)) - xi k * drho k)).
    2:{ intros k K. rewrite (rsum_ext (fNMon w) (fun i0 => rsum (fNMon w) (fun j => dchi i0 j * c i0 k L0 * c j k L0)) (fun _ => 0)).
        - rewrite rsum_zero. ring.
        - intros j J. rewrite (rsum_ext _ _ (fun _ => 0)); [apply rsum_zero|]. intros q Hq. rewrite DCH. ring. }
    rewrite avg_minus. field. split; [lra|]. lra.
Qed.

(** Other lattice parameters get nothing. *)
Theorem C63_others : forall w s g x i id nm, fNMon w = nm -> isAthermal nm x <> Throw -> (0 <= xNv x)%Z ->
  fullToReduced (fLat w) (mNv g) = Ok id -> xNv x = mNv g -> id <> Z.of_nat i ->
  maskStress w s g i = Ok 0 /\ extStress w s x i = Ok 0.
Proof.
  intros w s g x i id nm NM AT XP FR XN NE. unfold maskStress, extStress. rewrite FR. cbn [bind].
  assert (B : (id =? Z.of_nat i)%Z = false) by (now apply Z.eqb_neq). rewrite B. cbn [negb]. split; auto.
  rewrite NM. destruct (isAthermal nm x) as [[]| | |] eqn:A; cbn [bind]; auto; try contradiction.
  - rewrite (proj2 (Z.leb_le _ _) XP). cbn [check bind]. rewrite XN, FR. cbn [bind]. rewrite B. reflexivity.
  - unfold isAthermal, wallChecks in A. repeat destruct (Nat.eqb _ _); cbn in A; discriminate.
  - unfold isAthermal, wallChecks in A. repeat destruct (Nat.eqb _ _); cbn in A; discriminate.
Qed.

(** If s is the derivative of the free energy F per monomer with respect to the
    length L of the normal vector, the modified stress is that of the excess
    free energy of the film, (L - T) (F - fBulk) for T the excluded thickness. *)
Theorem C63_modified : forall w g i L F s fb m, fullToReduced (fLat w) (mNv g) = Ok (Z.of_nat i) ->
  fMask w = Some m -> mFBulk g = Some fb -> fP w i = L -> is_derive F L s ->
  exists r, maskModify w (F L) g i s = Ok r /\ is_derive (fun l => (l - mET g) * (F l - fb)) L r.
Proof.
  intros w g i L F s fb m FR M FB LE D. exists (s * (L - mET g) + (F L - fb)). split.
  - unfold maskModify. rewrite FR. cbn [bind]. rewrite Z.eqb_refl, M, FB, LE. reflexivity.
  - replace (s * (L - mET g) + (F L - fb)) with (1 * (F L - fb) + (L - mET g) * s) by ring.
    apply (derive_mult L (fun l => l - mET g) (fun l => F l - fb)).
    + auto_derive; auto.
    + replace s with (s - 0) by ring. apply (is_derive_minus F (fun _ => fb)); [exact D|apply @is_derive_const].
Qed.

(** A one-dimensional film of thickness L on four grid points, one solvent and
    walls of different affinity. *)
Definition film3 : fsys := mkFsys Lamellar (fun _ => 2) (fun _ => 4%nat) [] 1 false false true [true] None None.
Definition mask3 : maskGen := mkMaskGen 0 (1/5) (2/5) (Some 1) (fun _ => 0).
Definition walls3 : extGen := mkExtGen 0 (1/5) (2/5) [1] [2] None (fun _ => 0).

Definition rho3 (k : nat) (L : R) : R := maskValue L (1/5) (2/5) (INR (coord (pointAt film3 k) 0) * L / INR 4).
Definition h3 (j k : nat) (L : R) : R := hValue 4 (coord (pointAt film3 k) 0) 1 2 (rho3 k L).
Definition drho3 (k : nat) : R := maskDeriv (1/5) (INR (coord (pointAt film3 k) 0) / INR 4) (rho3 k 2).
Definition ml3 (L : R) : list R := [rho3 0 L; rho3 1 L; rho3 2 L; rho3 3 L].
Definition hl3 (L : R) : list (list R) := [[h3 0 0 L; h3 0 1 L; h3 0 2 L; h3 0 3 L]].
Definition g3 (L : R) : maskGen := mkMaskGen 0 (1/5) (2/5) (Some 1) (rBasis Lamellar (replaced (fun _ => 2) 0 L) 0%nat).
Definition x3 (L : R) : extGen := mkExtGen 0 (1/5) (2/5) [1] [2] (Some ([1], [2])) (rBasis Lamellar (replaced (fun _ => 2) 0 L) 0%nat).
Definition w3 (L : R) : fsys := withH (Some (hl3 L)) (withMask (Some (ml3 L)) (atLength film3 0 L)).
Definition P3 (L : R) : R := average 4 (fun k => rho3 k L).
Definition dP3 : R := average 4 drho3.

Lemma film3_generated : forall L, generated (atLength film3 0 L) mask3 walls3 (g3 L) (x3 L) (w3 L) (fun k => rho3 k L) (fun j k => h3 j k L).
Proof.
  intro L. assert (A := gtb_true (1/5) 0 ltac:(lra)). assert (B := gtb_true (2/5) (1/5) ltac:(lra)).
  exists (withMask (Some (ml3 L)) (atLength film3 0 L)), (ml3 L).
  split; [|split; [|split; [reflexivity|split]]].
  - unfold maskCompute. cbn [mask3 mIT mET mNv mFBulk]. rewrite A, B. cbn [check bind Z.leb Z.compare atLength film3 fSym negb orb].
    reflexivity.
  - assert (E : isAthermal (fNMon (withMask (Some (ml3 L)) (atLength film3 0 L))) walls3 = Ok false).
    { unfold isAthermal, wallChecks. cbn -[geb]. rewrite (geb_true (Rabs 1) eps7); [reflexivity|].
      rewrite Rabs_R1. unfold eps7. lra. }
    unfold extCompute. rewrite E. reflexivity.
  - intros k K. cbn in K. destruct k as [|[|[|[|]]]]; [reflexivity..|lia].
  - intros j k J K. cbn in J, K. destruct j; [|lia]. destruct k as [|[|[|[|]]]]; [reflexivity..|lia].
Qed.

(** The solution of the field equations for this film is known: the solvent
    follows the mask. *)
Definition wf3 (j k : nat) (L : R) : R := - ln (rho3 k L).
Definition dw3 (j k : nat) : R := - (drho3 k / rho3 k 2).
Definition xi3 (k : nat) : R := wf3 0 k 2 - h3 0 k 2 - 3 * rho3 k 2.
Definition lq3 (s : nat) (L : R) : R := ln (P3 L).
Definition dh3 (j k : nat) : R := hDeriv 4 (coord (pointAt film3 k) 0) 1 2 (drho3 k).

Lemma rho3_pos : forall k L, 0 < rho3 k L.
Proof. intros. unfold rho3. apply maskValue_range. Qed.
Lemma P3_pos : forall L, 0 < P3 L.
Proof. intro L. unfold P3, average. apply Rdiv_lt_0_compat; [|cbn; lra]. apply rsum_pos; [lia|]. intros. apply rho3_pos. Qed.
Lemma rho3_derive : forall k, is_derive (rho3 k) 2 (drho3 k).
Proof. intro k. unfold rho3, drho3. apply C63_mask; lra. Qed.
Lemma P3_derive : is_derive P3 2 dP3.
Proof. unfold P3, dP3. apply (derive_avg 4 2 rho3 drho3). intros. apply rho3_derive. Qed.

Example C63_case :
  0 < 2 /\ fullToReduced (fLat film3) (mNv mask3) = Ok (Z.of_nat 0) /\ mNv mask3 = Z.of_nat 0 /\ xNv walls3 = mNv mask3 /\ xIT walls3 = mIT mask3 /\
  (forall L, 0 < L -> generated (atLength film3 0 L) mask3 walls3 (g3 L) (x3 L) (w3 L) (fun k => rho3 k L) (fun j k => h3 j k L)) /\
  (forall L, P3 L = average (meshSize film3) (fun k => rho3 k L)) /\
  smooth (meshSize film3) (fNMon film3) 1 (fun _ _ _ => 3) P3 lq3 wf3 h3 (fun _ => rho3) rho3
    (fun _ _ => 0) dP3 (fun _ => dP3 / P3 2) dw3 dh3 (fun _ => drho3) drho3 2 /\
  responds (meshSize film3) (fNMon film3) 1 (fun _ => 1) (fun _ => 1) P3 (fun _ => rho3) (fun _ => dP3 / P3 2) dw3 0 2 /\
  selfConsistent (meshSize film3) (fNMon film3) (fun _ _ _ => 3) wf3 h3 (fun _ => rho3) rho3 xi3 2 /\
  (forall j, (j < fNMon film3)%nat -> 3 = 0 \/ / 10 ^ 6 < Rabs 3).
Proof.
  split; [lra|]. do 4 (split; [reflexivity|]). split; [intros; apply film3_generated|]. split; [reflexivity|].
  change (meshSize film3) with 4%nat. change (fNMon film3) with 1%nat. split; [|split; [|split]].
  - unfold smooth. split; [apply P3_pos|]. split; [apply P3_derive|]. split; [|split; [|split]].
    + intros s _. apply (is_derive_comp ln P3); [apply is_derive_ln, P3_pos|apply P3_derive].
    + intros. apply @is_derive_const.
    + intros i x _ X. split; [|split].
      * unfold wf3, dw3. apply @is_derive_opp. apply (is_derive_comp ln (rho3 x)); [apply is_derive_ln, rho3_pos|apply rho3_derive].
      * unfold h3, dh3. apply C63_external. apply rho3_derive.
      * apply rho3_derive.
    + intros x _. apply rho3_derive.
  - unfold responds. cbn [rsum]. rewrite (rsum_ext_avg 4 (fun x => -1 * drho3 x)).
    + unfold average at 1. rewrite rsum_scal. unfold dP3, average. assert (Z := P3_pos 2). generalize dependent (P3 2). intros p Z.
      assert (I4 : INR 4 <> 0) by (cbn; lra). generalize dependent (INR 4). intros q I4. field. split; lra.
    + intros k _. unfold dw3. assert (Z := rho3_pos k 2). cbn [rsum]. field. lra.
  - unfold selfConsistent. split; [|split].
    + intros i x I X. assert (i = 0%nat) by lia. subst i. unfold xi3. cbn [rsum]. unfold h3, wf3. ring.
    + intros t x _. cbn [rsum]. ring.
    + reflexivity.
  - intros. right. rewrite Rabs_pos_eq by lra. lra.
Qed.

(** The mean of the mask does not change as T/L^2: on this grid the mean of its
    derivative is less than 1/50, while T/L^2 is 1/10. *)
Lemma sech_bound : forall u (n : nat), INR n <= Rabs u -> (1 - tanh u * tanh u) * (2 ^ n * 2 ^ n) <= 4.
Proof.
  intros u n N.
  assert (E : forall v, 0 <= v -> INR n <= v -> 2 ^ n <= exp v).
  { intros v V NV. apply Rle_trans with (exp (INR n)).
    - clear. induction n as [|n IH]; [cbn; rewrite exp_0; lra|].
      rewrite S_INR, exp_plus. cbn [pow]. assert (1 + 1 <= exp 1) by (left; apply exp_ineq1; lra).
      assert (0 < 2 ^ n) by (apply pow_lt; lra). rewrite Rmult_comm. apply Rmult_le_compat; lra.
    - destruct (Req_dec (INR n) v) as [->|]; [lra|]. left. apply exp_increasing. lra. }
  assert (S : 2 ^ n <= exp u + exp (- u)).
  { assert (A := exp_pos u). assert (B := exp_pos (- u)). destruct (Rle_dec 0 u).
    - rewrite Rabs_pos_eq in N by auto. assert (Z := E u r N). lra.
    - rewrite Rabs_left in N by lra. assert (Z := E (- u) ltac:(lra) N). lra. }
  assert (A := exp_pos u). assert (B := exp_pos (- u)).
  assert (T : 1 - tanh u * tanh u = 4 / ((exp u + exp (- u)) * (exp u + exp (- u)))).
  { assert (M : exp u * exp (- u) = 1) by (rewrite <- exp_plus, Rplus_opp_r; apply exp_0).
    unfold tanh, sinh, cosh. replace 4 with (4 * (exp u * exp (- u))) by (rewrite M; ring). field. lra. }
  rewrite T. assert (P : 0 < 2 ^ n) by (apply pow_lt; lra).
  apply Rmult_le_reg_r with ((exp u + exp (- u)) * (exp u + exp (- u))); [nra|].
  replace (4 / ((exp u + exp (- u)) * (exp u + exp (- u))) * (2 ^ n * 2 ^ n) * ((exp u + exp (- u)) * (exp u + exp (- u))))
    with (4 * (2 ^ n * 2 ^ n)) by (field; nra). nra.
Qed.

Lemma drho3_bound : forall d, 1/4 <= d <= 3/4 ->
  0 <= maskDeriv (1/5) d (maskValue 2 (1/5) (2/5) (d * 2)) <= 1/40.
Proof.
  intros d D. unfold maskDeriv, maskValue.
  set (u := 4 * ((1 / 2 * (2 / 5 - 2) + Rabs (d * 2 - 2 / 2)) / (1 / 5))).
  assert (AD : Rabs (d * 2 - 2 / 2) = 2 * Rabs (d - 1 / 2)).
  { replace (d * 2 - 2 / 2) with (2 * (d - 1 / 2)) by field. rewrite Rabs_mult, (Rabs_pos_eq 2) by lra. reflexivity. }
  assert (DB : 0 <= Rabs (d - 1 / 2) <= 1 / 4) by (split; [apply Rabs_pos|apply Rabs_le; lra]).
  assert (U : INR 6 <= Rabs u).
  { rewrite Rabs_left; [|unfold u; rewrite AD; lra]. cbn. unfold u. rewrite AD. lra. }
  assert (S := sech_bound u 6 U). cbn in S. assert (T := tanh_bounds u).
  assert (0 <= 1 - tanh u * tanh u) by nra.
  replace ((1 - 1 / 2 * (1 + tanh u)) * (1 - 1 / 2 * (1 + tanh u) - 1) * 8 * (Rabs (d - 1 / 2) - 1 / 2) / (1 / 5))
    with ((1 - tanh u * tanh u) * (10 * (1 / 2 - Rabs (d - 1 / 2)))) by field.
  split; [apply Rmult_le_pos; lra|]. nra.
Qed.

Theorem C63_mean_refuted : average (meshSize film3) drho3 <= 1/50 /\ mET mask3 / (2 * 2) = 1/10.
Proof.
  split; [|cbn; lra]. change (meshSize film3) with 4%nat.
  assert (V : forall k a, INR (coord (pointAt film3 k) 0) = a -> drho3 k = maskDeriv (1/5) (a / 4) (maskValue 2 (1/5) (2/5) (a / 4 * 2))).
  { intros k a A. unfold drho3, rho3. rewrite A. replace (INR 4) with 4 by (cbn; ring). f_equal. f_equal. field. }
  unfold average. cbn [rsum]. rewrite (V 0%nat 0), (V 1%nat 1), (V 2%nat 2), (V 3%nat 3) by (cbn; ring).
  assert (Z0 : maskDeriv (1 / 5) (0 / 4) (maskValue 2 (1 / 5) (2 / 5) (0 / 4 * 2)) = 0).
  { unfold maskDeriv. replace (0 / 4 - 1 / 2) with (- (1 / 2)) by field. rewrite Rabs_Ropp, Rabs_pos_eq by lra. unfold Rdiv. ring. }
  rewrite Z0. assert (B1 := drho3_bound (1/4) ltac:(lra)). assert (B2 := drho3_bound (2/4) ltac:(lra)). assert (B3 := drho3_bound (3/4) ltac:(lra)).
  replace (INR 4) with 4 by (cbn; ring). lra.
Qed.

Print Assumptions C63_mask.
Print Assumptions C63_external.
Print Assumptions C63_stress.
Print Assumptions C63_others.
Print Assumptions C63_modified.
Print Assumptions C63_mean_refuted.
