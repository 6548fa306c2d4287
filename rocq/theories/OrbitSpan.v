(** The symmetric fields are those spanned by the basis. *)
From Coq Require Import ZArith QArith Qcanon Qreals Reals Lra Lia List Bool Sorting.Permutation.
From Coquelicot Require Import Complex.
From Verif Require Import Base RSum MeshSpec Mesh MeshProofs PropsMesh Fft FftProofs PropsFft FieldIo FieldIoProofs Symmetry SymmetryProofs SymmetryAlg PropsSymmetry Basis BasisSpec BasisProofs BasisValid PropsBasis OrbitSpec OrbitPhase OrbitFourier OrbitConj.
From Coq Require Import List.
Import ListNotations.
Local Open Scope Z_scope.
Local Open Scope list_scope.

(** Fourier components of a field on the grid, as FFT::forwardTransform computes them *)
Definition kgrid (dims : list Z) (f : list Z -> R) : list C := map (fftForward dims (fun r => f (gridPos dims r))) (seq 0 (nK dims)).

Lemma nth_vNeg : forall p i, nth i (vNeg p) 0 = - nth i p 0.
Proof. intros. unfold vNeg. apply (map_nth Z.opp p 0 i). Qed.
Lemma pairing_sym : forall dims p r, pairing dims p r = pairing dims r p.
Proof. intros. unfold pairing. apply rsum_ext. intros. unfold Rdiv. ring. Qed.
Lemma pairing_neg : forall dims p r, pairing dims (vNeg p) r = (- pairing dims p r)%R.
Proof.
  intros. unfold pairing. rewrite <- rsum_opp. apply rsum_ext. intros i Hi. rewrite nth_vNeg, opp_IZR. ring.
Qed.
Definition neg (dims p : list Z) : list Z := fst (shift dims (vNeg p)).
Lemma vNeg_length : forall p, length (vNeg p) = length p. Proof. intros. apply map_length. Qed.
Lemma neg_facts : forall dims p, positive dims -> in_box dims p -> in_box dims (neg dims p) /\ cong dims (vNeg p) (neg dims p).
Proof. intros dims p HP Hp. apply (shift_cong dims HP). rewrite vNeg_length. apply in_box_length. auto. Qed.
Lemma turn_neg : forall dims p r, positive dims -> in_box dims p -> turn (pairing dims (neg dims p) r) = Cconj (turn (pairing dims p r)).
Proof.
  intros dims p r HP Hp. rewrite <- turn_opp, <- pairing_neg. apply turn_mod. apply pairing_cong; auto. apply neg_facts; auto.
Qed.
Lemma neg_inj : forall dims p q, positive dims -> in_box dims p -> in_box dims q -> neg dims p = neg dims q -> p = q.
Proof.
  intros dims p q HP Hp Hq E. apply (box_unique dims); auto. destruct (neg_facts dims p HP Hp) as [_ A], (neg_facts dims q HP Hq) as [_ B]. rewrite E in A. intros i Hi.
  destruct (A i Hi) as [x X], (B i Hi) as [y Y]. exists (y - x). rewrite nth_vNeg in X, Y. lia.
Qed.
Lemma csum_conj : forall dims h, Cconj (csum dims h) = csum dims (fun p => Cconj (h p)).
Proof.
  intros. unfold csum, Cconj. cbn [fst snd]. f_equal. replace (- msum dims (fun p => snd (h p)))%R with (-1 * msum dims (fun p => snd (h p)))%R by ring. rewrite <- msum_scal. apply msum_ext. intros. ring.
Qed.
Lemma Cconj_RtoC : forall x, Cconj (RtoC x) = RtoC x. Proof. intros. unfold Cconj, RtoC. cbn. f_equal. ring. Qed.
Lemma spectrum_neg : forall dims f p, positive dims -> in_box dims p -> spectrum dims f (neg dims p) = Cconj (spectrum dims f p).
Proof.
  intros dims f p HP Hp. unfold spectrum. rewrite Cconj_mult, Cconj_RtoC, csum_conj. f_equal. apply csum_ext. intros r Hr.
  rewrite Cconj_mult, Cconj_RtoC. f_equal. rewrite !turn_opp. rewrite (turn_neg dims p r HP Hp). reflexivity.
Qed.
(** Components of the field of given components *)
Lemma spectrum_synth : forall dims K p, positive dims -> in_box dims p -> (forall q, in_box dims q -> K (neg dims q) = Cconj (K q)) ->
  spectrum dims (fun r => fst (synth dims K r)) p = K p.
Proof.
  intros dims K p HP Hp HK.
  assert (RE : forall r, RtoC (fst (synth dims K r)) = synth dims K r).
  { intros r. assert (E : Cconj (synth dims K r) = synth dims K r).
    { unfold synth. rewrite csum_conj. rewrite <- (csum_bij dims (neg dims) (fun q => Cmult (K q) (turn (pairing dims q r)))); auto.
      - apply csum_ext. intros q Hq. rewrite (HK q Hq), (turn_neg dims q r HP Hq), Cconj_mult. reflexivity.
      - intros q Hq. apply neg_facts; auto.
      - intros q q' Hq Hq' E. apply (neg_inj dims); auto. }
    destruct (synth dims K r) as [u v]. unfold Cconj in E. cbn [fst snd] in *. injection E as E. unfold RtoC. f_equal. lra. }
  unfold spectrum. rewrite (csum_ext dims _ (fun r => csum dims (fun q => Cmult (K q) (turn (pairing dims r q - pairing dims r p))))).
  2:{ intros r Hr. rewrite RE. unfold synth. rewrite Cmult_comm, <- csum_scal. apply csum_ext. intros q Hq. unfold Rminus. rewrite turn_plus, (pairing_sym dims r q), (pairing_sym dims r p). ring. }
  rewrite (csum_swap dims HP). rewrite (csum_ext dims _ (fun q => Cmult (K q) (if list_eq_dec Z.eq_dec q p then RtoC (vol dims) else RtoC 0))).
  2:{ intros q Hq. rewrite csum_scal, (csum_turn dims HP) by auto. reflexivity. }
  pose proof (csum_pick dims HP (fun q => Cmult (K q) (RtoC (vol dims))) p Hp) as G.
  rewrite (csum_ext dims _ (fun q => if list_eq_dec Z.eq_dec q p then Cmult (K q) (RtoC (vol dims)) else RtoC 0)).
  2:{ intros q Hq. destruct (list_eq_dec Z.eq_dec q p); [reflexivity|ring]. }
  rewrite G. pose proof (vol_pos dims HP) as V. assert (U : Cmult (RtoC (/ vol dims)) (RtoC (vol dims)) = RtoC 1) by (unfold Cmult, RtoC; cbn [fst snd]; f_equal; field; lra).
  transitivity (Cmult (K p) (Cmult (RtoC (/ vol dims)) (RtoC (vol dims)))); [ring|]. rewrite U. ring.
Qed.
(** Entries of the k-grid *)
Lemma forward_spectrum : forall dims f k, positive dims -> dims <> [] -> (k < nK dims)%nat ->
  fftForward dims (fun r => f (gridPos dims r)) k = spectrum dims f (gridPos (computeKMesh dims) k).
Proof.
  intros dims f k HP Hne Hk. destruct (INR_nR dims HP) as [EN PN]. unfold fftForward, spectrum, theta.
  assert (LK : length (gridPos (computeKMesh dims) k) = length dims).
  { rewrite <- (proj2 (dftDims_last dims Hne)). apply (in_box_length (computeKMesh dims)). apply gridPos_in_box; [apply kmesh_positive; auto|exact Hk]. }
  set (p := gridPos (computeKMesh dims) k) in *.
  assert (PH : forall r, (r < nR dims)%nat -> phase dims p (gridPos dims r) = (2 * PI * pairing dims p (gridPos dims r))%R).
  { intros r Hr. apply phase_pairing; auto. apply in_box_length. apply gridPos_in_box; auto. }
  unfold csum, Cmult, RtoC, vol. cbn [fst snd]. rewrite EN. rewrite <- !nR_msum by auto. f_equal.
  - rewrite (rsum_ext (nR dims) (fun r => _ - _)%R (fun r => f (gridPos dims r) * cos (phase dims p (gridPos dims r)))%R).
    + unfold Rdiv. ring.
    + intros r Hr. rewrite turn_opp, (PH r Hr). unfold turn, Cconj. cbn [fst snd]. ring.
  - rewrite (rsum_ext (nR dims) (fun r => f (gridPos dims r) * snd (turn _) + _)%R (fun r => - (f (gridPos dims r) * sin (phase dims p (gridPos dims r))))%R).
    + rewrite rsum_opp. unfold Rdiv. ring.
    + intros r Hr. rewrite turn_opp, (PH r Hr). unfold turn, Cconj. cbn [fst snd]. ring.
Qed.
Lemma kmesh_same : forall dims, computeKMesh dims = dftDims dims.
Proof. reflexivity. Qed.

Section Span.
Variable b : basis.
Variable g : list symm.
Let dims := dimensions (bMesh b).
Let D := length dims.
Hypothesis G : goodBasis b.
Hypothesis HA : admits dims g.
Hypothesis HD : (1 <= D <= 3)%nat.
Hypothesis HG : space_group D g.
Hypothesis HN : Forall (normal D) g.
Hypothesis HC : conjugate b.
Hypothesis Hclosed : forall i w j w' s, wAt b i w -> wAt b j w' -> In s g -> turns dims s (wDft w) (wDft w') -> wStar w' = wStar w.
Hypothesis Htrans : forall i w j w', wAt b i w -> wAt b j w' -> wStar w' = wStar w -> exists s, In s g /\ turns dims s (wDft w) (wDft w').
Hypothesis Hcoeff : forall i w j w' s st, wAt b i w -> wAt b j w' -> In s g -> turns dims s (wDft w) (wDft w') -> sAt b (wStar w) st -> sCancel st = false ->
  wCoeff w' = Cmult (wCoeff w) (turn (shiftPhase dims s (wDft w))).
Hypothesis Hcancel : forall is s, sAt b is s -> sCancel s = true -> exists i w h, wAt b i w /\ wStar w = is /\ In h g /\ turns dims h (wDft w) (wDft w) /\ turn (shiftPhase dims h (wDft w)) <> RtoC 1.
Variable dm : mesh.
Hypothesis HDM : setDimensions (halfDims b) = Ok dm.

Lemma sp_pos : positive dims. Proof. apply (proj1 (mesh_constructible _ (gb_ne b G))). eexists. apply (gb_mesh b G). Qed.
Lemma covered : forall p, in_box dims p -> exists i w, wAt b i w /\ wDft w = p.
Proof.
  intros p Hp. assert (IN : In p (map wDft (bWaves b))).
  { apply (@NoDup_length_incl _ _ (points dims) (gb_nodup b G)).
    - unfold points. rewrite !map_length, seq_length. unfold nR. rewrite gridSize_prodZ.
      destruct (mesh_rank_position_bijection _ _ (gb_ne b G) (gb_mesh b G)) as [_ [S0 _]]. pose proof (gb_nwave b G) as W. unfold dims. lia.
    - intros q Hq. apply in_map_iff in Hq. destruct Hq as [w [<- Hw]]. apply points_in; [apply sp_pos|]. apply (gb_box b G). auto.
    - apply points_in; auto. apply sp_pos. }
  apply in_map_iff in IN. destruct IN as [w [E Hw]]. apply In_nth_error in Hw. destruct Hw as [n Hn]. exists (Z.of_nat n), w. split; auto. split; [lia|]. rewrite Nat2Z.id. auto.
Qed.
Lemma wbox : forall i w, wAt b i w -> in_box dims (wDft w). Proof. intros i w Hw. apply (gb_box b G). eapply wAt_in; eauto. Qed.
Lemma half_facts : computeKMesh dims = halfDims b /\ dims <> [] /\ size dm = Z.of_nat (nK dims) /\ forall p, in_box (halfDims b) p -> 0 <= rank dm p < size dm /\ gridPos (halfDims b) (Z.to_nat (rank dm p)) = p.
Proof.
  assert (E : computeKMesh dims = halfDims b) by apply kmesh_same. destruct (mesh_rank_position_bijection _ dm (dftDims_ne _ (gb_ne b G)) HDM) as [A [B [C1 _]]].
  split; auto. split; [apply (gb_ne b G)|]. assert (PK : positive (halfDims b)) by (rewrite <- E; apply kmesh_positive; apply sp_pos). split.
  - unfold nK. rewrite gridSize_prodZ, E, B. pose proof (prodZ_pos _ PK). fold (halfDims b). lia.
  - intros p Hp. destruct (C1 p Hp) as [P1 P2]. split; auto. unfold gridPos. rewrite Z2Nat.id by lia.
    unfold setDimensions in HDM. destruct (all_positive (halfDims b)); [|discriminate]. injection HDM as <-. exact P2.
Qed.
Lemma stored_kgrid : forall f i w, wAt b i w -> wImplicit w = false -> stored dm (kgrid dims f) w = spectrum dims f (wDft w).
Proof.
  intros f i w Hw HI. destruct half_facts as [E [N0 [SZ R]]].
  destruct (R (wDft w)) as [R1 R2].
  { apply dft_box; [apply (wbox i); auto|]. pose proof (gb_implicit b G w (wAt_in _ _ _ Hw)) as [I1 I2]. apply Z.nlt_ge. intros X. specialize (I2 X). congruence. }
  unfold stored, kgrid. assert (L : (Z.to_nat (rank dm (wDft w)) < nK dims)%nat) by lia.
  rewrite (nth_indep _ _ (fftForward dims (fun r => f (gridPos dims r)) 0%nat)) by (rewrite map_length, seq_length; auto). rewrite map_nth, seq_nth by auto. cbn [plus].
  rewrite forward_spectrum by (auto; apply sp_pos). rewrite E, R2. reflexivity.
Qed.
Lemma kgrid_length : forall f, Z.of_nat (length (kgrid dims f)) = size dm.
Proof. intros f. destruct half_facts as [_ [_ [-> _]]]. unfold kgrid. rewrite map_length, seq_length. reflexivity. Qed.
Lemma full_kgrid : forall f i w z, wAt b i w -> full b dm (kgrid dims f) w z -> z = spectrum dims f (wDft w).
Proof.
  intros f i w z Hw HF. unfold full in HF. destruct (wImplicit w) eqn:EI.
  - destruct HF as [w' [Hw' ->]]. destruct (gb_inv b G _ _ Hw) as [w2 [W1 [W2 [W3 W4]]]]. rewrite (wAt_fun _ _ _ _ Hw' W1). destruct W4 as [W4|W4]; [congruence|].
    rewrite (stored_kgrid f _ _ W1 W4), W3. change (mShift (bMesh b) (vNeg (wDft w))) with (neg dims (wDft w)). rewrite spectrum_neg by (try apply sp_pos; apply (wbox i); auto). apply Cconj_conj.
  - subst z. eapply stored_kgrid; eauto.
Qed.
(** A list of k-grid components is determined by those of the explicit waves. *)
Lemma kgrid_ext : forall k k', Z.of_nat (length k) = size dm -> Z.of_nat (length k') = size dm ->
  (forall i w, wAt b i w -> wImplicit w = false -> stored dm k w = stored dm k' w) -> k = k'.
Proof.
  intros k k' L L' HS. destruct (mesh_rank_position_bijection _ dm (dftDims_ne _ (gb_ne b G)) HDM) as [_ [_ [_ B]]].
  apply (nth_ext _ _ (RtoC 0) (RtoC 0)); [lia|]. intros n Hn. destruct (B (Z.of_nat n) ltac:(lia)) as [B1 B2]. set (p := position dm (Z.of_nat n)) in *.
  assert (PB : in_box dims p /\ last p 0 <= Z.quot (last dims 0) 2).
  { clear - B1 G. generalize dependent p. clear n. intros p B1. pose proof sp_pos as PS. pose proof (gb_ne b G) as NE. fold dims in NE, B1. destruct (snoc_cases dims NE) as [ds [n En]]. rewrite En in *. rewrite <- kmesh_same, computeKMesh_snoc in B1.
    apply in_box_snoc in B1. destruct B1 as (p' & l & -> & P1 & P2). rewrite !last_last. split; [|lia]. apply in_box_snoc. do 2 eexists. split; [reflexivity|]. split; auto.
    assert (0 < n) by (apply Forall_app in PS; destruct PS as [_ PS]; inversion PS; auto). pose proof (Z.quot_lt n 2). destruct (Z.eq_dec n 1) as [->|]; [cbn in P2; lia|]. rewrite Z.quot_div_nonneg in * by lia.
    assert (n / 2 < n) by (apply Z.div_lt; lia). lia. }
  destruct PB as [PB PL]. destruct (covered p PB) as (i & w & Hw & E).
  assert (EI : wImplicit w = false). { destruct (wImplicit w) eqn:EI; auto. apply (gb_implicit b G w (wAt_in _ _ _ Hw)) in EI. fold dims in EI. rewrite E in EI. lia. }
  specialize (HS i w Hw EI). unfold stored in HS. rewrite E, B2, Nat2Z.id in HS. exact HS.
Qed.

(** *** Symmetric fields have components *)
Definition qOf (f : list Z -> R) (is : Z) : C :=
  match nth_error (bStars b) (Z.to_nat is) with
  | Some s => match nth_error (bWaves b) (Z.to_nat (sBegin s)) with Some w => Cdiv (spectrum dims f (wDft w)) (wCoeff w) | None => RtoC 0 end
  | None => RtoC 0 end.
Lemma span_symmetric : forall f, invariant dims g f -> symmetric b dm (kgrid dims f) (qOf f).
Proof.
  intros f HF i w s z Hw Hs Hz. rewrite (full_kgrid f i w z Hw Hz). pose proof (spectrum_covariant dims g sp_pos HA HD HG HN f HF) as CV.
  destruct (sCancel s) eqn:EC.
  - destruct (Hcancel _ s Hs EC) as (j & w0 & h & J1 & J2 & J3 & J4 & J5).
    assert (Z0 : spectrum dims f (wDft w0) = RtoC 0).
    { pose proof (CV h _ _ J3 (wbox _ _ J1) (wbox _ _ J1) J4) as E. set (x := spectrum dims f (wDft w0)) in *. set (t := turn (shiftPhase dims h (wDft w0))) in *.
      assert (P : Cmult (Cminus t (RtoC 1)) x = RtoC 0) by (transitivity (Cminus (Cmult x t) x); [ring|]; rewrite <- E; ring).
      destruct (Ceq_dec x (RtoC 0)) as [|NX]; auto. exfalso. apply J5. apply (Cmult_cancel t (RtoC 1) x NX). replace (Cmult t x) with (Cplus (Cmult (Cminus t (RtoC 1)) x) x) by ring. rewrite P. ring. }
    destruct (Htrans j w0 i w J1 Hw (eq_sym J2)) as [h' [H1 H2]]. rewrite (CV h' _ _ H1 (wbox _ _ J1) (wbox _ _ Hw) H2), Z0. ring.
  - destruct (gb_wave b G _ _ Hw) as [s' [Hs' HR]]. rewrite (sAt_fun _ _ _ _ Hs' Hs) in HR. destruct (gb_star b G _ s (sBegin s) Hs ltac:(lia)) as [w0 [Hw0 St]].
    unfold qOf. rewrite (proj2 Hs), (proj2 Hw0).
    destruct (Htrans _ _ _ _ Hw0 Hw (eq_sym St)) as [h [H1 H2]]. rewrite (CV h _ _ H1 (wbox _ _ Hw0) (wbox _ _ Hw) H2).
    assert (Hs3 : sAt b (wStar w0) s) by (rewrite St; auto).
    rewrite (Hcoeff _ _ _ _ h s Hw0 Hw H1 H2 Hs3 EC). assert (NE : wCoeff w0 <> RtoC 0) by (eapply (coeff_ne b G); eauto).
    unfold Cdiv. set (x := spectrum dims f (wDft w0)). set (c := wCoeff w0) in *. set (t := turn _).
    transitivity (Cmult (Cmult x t) (Cmult (Cinv c) c)); [rewrite (Cmult_comm (Cinv c) c), Cinv_r by auto; ring|ring].
Qed.
Lemma span_real : forall f, real b dm (kgrid dims f).
Proof.
  intros f i w w' Hw Hw' EI EI'. rewrite (stored_kgrid f i w Hw EI), (stored_kgrid f _ w' Hw' EI'). destruct (gb_inv b G _ _ Hw) as [w2 [W1 [W2 [W3 W4]]]].
  rewrite (wAt_fun _ _ _ _ Hw' W1), W3. change (mShift (bMesh b) (vNeg (wDft w))) with (neg dims (wDft w)). apply spectrum_neg; [apply sp_pos|apply (wbox i); auto].
Qed.
Lemma span_forward : forall f, invariant dims g f -> exists x, Z.of_nat (length x) = bNBasis b /\
  (forall out, Z.of_nat (length out) = size dm -> convertBasisToKGrid x out b (halfDims b) = Ok (kgrid dims f)) /\
  (forall out, Z.of_nat (length out) = bNBasis b -> convertKGridToBasis (kgrid dims f) out b (halfDims b) = Ok x).
Proof.
  intros f HF. pose proof (span_symmetric f HF) as HS. pose proof (span_real f) as HR.
  destruct (coefficients b G HC dm (kgrid dims f) (qOf f) HS HR 0 0 0 (bStars b) (gb_layout b G) [] [] eq_refl eq_refl eq_refl) as [x [X1 X2]]. cbn [app] in X2. rewrite Z.sub_0_r in X1.
  assert (V : forall i w s, wAt b i w -> sAt b (wStar w) s -> wImplicit w = false -> stored dm (kgrid dims f) w = Cmult (component x s) (wCoeff w)).
  { intros i w s Hw Hs HI. rewrite (HS i w s (stored dm (kgrid dims f) w) Hw Hs ltac:(unfold full; rewrite HI; reflexivity)).
    destruct (sCancel s) eqn:EC.
    - unfold component. rewrite EC. ring.
    - rewrite (X2 (wStar w) s) by (auto; apply Hs). reflexivity. }
  exists x. split; auto. split.
  - intros out HO. destruct (C25_fourier b dm x out G HDM X1 HO) as [k [K1 [K2 K3]]]. rewrite K1. f_equal. apply kgrid_ext; auto; [apply kgrid_length|].
    intros i w Hw HI. destruct (gb_wave b G _ _ Hw) as [s [Hs _]]. rewrite (K3 i w s Hw Hs HI). symmetry. apply (V i w s); auto.
  - intros out HO. apply (back b dm); auto; [apply kgrid_length|]. intros. eapply V; eauto.
Qed.

(** *** Components belong to symmetric fields *)
Lemma covariant_all : forall (K : list Z -> C) x, (forall i w s, wAt b i w -> sAt b (wStar w) s -> K (wDft w) = Cmult (component x s) (wCoeff w)) -> covariant dims g K.
Proof.
  intros K x HK h p p' Hh Hp Hp' HT. destruct (covered p Hp) as (i & w & Hw & <-). destruct (covered p' Hp') as (j & w' & Hw' & <-).
  destruct (gb_wave b G _ _ Hw) as [s [Hs _]]. pose proof (Hclosed _ _ _ _ _ Hw Hw' Hh HT) as ST. assert (Hs' : sAt b (wStar w') s) by (rewrite ST; auto).
  rewrite (HK i w s Hw Hs), (HK j w' s Hw' Hs'). destruct (sCancel s) eqn:EC.
  - unfold component. rewrite EC. ring.
  - rewrite (Hcoeff _ _ _ _ h s Hw Hw' Hh HT Hs EC). ring.
Qed.
Lemma span_backward : forall f x out, Z.of_nat (length x) = bNBasis b -> Z.of_nat (length out) = size dm ->
  convertBasisToKGrid x out b (halfDims b) = Ok (kgrid dims f) -> invariant dims g f.
Proof.
  intros f x out HX HO HV. apply (invariant_covariant dims g sp_pos HA HD HG HN). apply (covariant_all _ x).
  destruct (C25_fourier b dm x out G HDM HX HO) as [k [K1 [K2 K3]]]. rewrite HV in K1. injection K1 as <-. intros i w s Hw Hs.
  destruct (wImplicit w) eqn:EI.
  - destruct (gb_inv b G _ _ Hw) as [w' [W1 [W2 [W3 W4]]]]. destruct W4 as [W4|W4]; [congruence|]. destruct (gb_wave b G _ _ W1) as [s' [Hs' _]].
    pose proof (K3 _ _ _ W1 Hs' W4) as E. rewrite (stored_kgrid f _ _ W1 W4), W3 in E. change (mShift (bMesh b) (vNeg (wDft w))) with (neg dims (wDft w)) in E.
    rewrite spectrum_neg in E by (try apply sp_pos; apply (wbox i); auto). apply (f_equal Cconj) in E. rewrite Cconj_conj in E. rewrite E.
    pose proof (gb_partner b G _ _ _ _ _ Hs Hw eq_refl W1) as ST. rewrite ST in Hs'. destruct (partner _ _ _ _ G Hs Hs') as [_ [_ P]]. rewrite P, (HC _ _ _ Hw W1), Cconj_mult, !Cconj_conj. reflexivity.
  - rewrite <- (stored_kgrid f i w Hw EI). apply (K3 i w s); auto.
Qed.
Definition waveOf (p : list Z) : option wave := find (fun w => if list_eq_dec Z.eq_dec (wDft w) p then true else false) (bWaves b).
Definition kOf (x : list R) (p : list Z) : C :=
  match waveOf p with
  | Some w => match nth_error (bStars b) (Z.to_nat (wStar w)) with Some s => Cmult (component x s) (wCoeff w) | None => RtoC 0 end
  | None => RtoC 0 end.
Lemma kOf_wave : forall x i w s, wAt b i w -> sAt b (wStar w) s -> kOf x (wDft w) = Cmult (component x s) (wCoeff w).
Proof.
  intros x i w s Hw Hs. unfold kOf. assert (E : waveOf (wDft w) = Some w).
  { unfold waveOf. destruct (find _ (bWaves b)) as [w'|] eqn:EF.
    - apply find_some in EF. destruct EF as [F1 F2]. destruct (list_eq_dec Z.eq_dec (wDft w') (wDft w)) as [F3|]; [|discriminate]. apply In_nth_error in F1. destruct F1 as [n F1].
      assert (Hw' : wAt b (Z.of_nat n) w') by (split; [lia|rewrite Nat2Z.id; auto]). f_equal. apply (OrbitFacts.nodup_waves b _ _ _ _ G Hw' Hw F3).
    - pose proof (find_none _ _ EF w (wAt_in _ _ _ Hw)) as X. cbv beta in X. destruct (list_eq_dec Z.eq_dec (wDft w) (wDft w)); [discriminate|congruence]. }
  rewrite E. destruct Hs as [_ ->]. reflexivity.
Qed.
Lemma span_fields : forall x, Z.of_nat (length x) = bNBasis b -> exists f, invariant dims g f /\
  (forall out, Z.of_nat (length out) = size dm -> convertBasisToKGrid x out b (halfDims b) = Ok (kgrid dims f)).
Proof.
  intros x HX. exists (fun r => fst (synth dims (kOf x) r)).
  assert (CV : covariant dims g (kOf x)) by (apply (covariant_all _ x); intros; eapply kOf_wave; eauto).
  assert (HM : forall q, in_box dims q -> kOf x (neg dims q) = Cconj (kOf x q)).
  { intros q Hq. destruct (covered q Hq) as (i & w & Hw & <-). destruct (gb_inv b G _ _ Hw) as [w' [W1 [W2 [W3 W4]]]]. destruct (gb_wave b G _ _ W1) as [s' [Hs' _]]. destruct (gb_wave b G _ _ Hw) as [s [Hs _]].
    change (mShift (bMesh b) (vNeg (wDft w))) with (neg dims (wDft w)) in W3. rewrite <- W3. rewrite (kOf_wave x _ _ _ W1 Hs'), (kOf_wave x _ _ _ Hw Hs).
    pose proof (gb_partner b G _ _ _ _ _ Hs Hw eq_refl W1) as ST. rewrite ST in Hs'. destruct (partner _ _ _ _ G Hs Hs') as [_ [_ P]]. rewrite P, (HC _ _ _ Hw W1), Cconj_mult. reflexivity. }
  split.
  - intros h r r' Hh Hr Hr' M. rewrite (synth_invariant dims g sp_pos HA HD HG HN (kOf x) CV h r r' Hh M). reflexivity.
  - intros out HO. destruct (C25_fourier b dm x out G HDM HX HO) as [k [K1 [K2 K3]]]. rewrite K1. f_equal. apply kgrid_ext; auto; [apply kgrid_length|].
    intros i w Hw HI. destruct (gb_wave b G _ _ Hw) as [s [Hs _]]. rewrite (K3 i w s Hw Hs HI), (stored_kgrid _ i w Hw HI).
    rewrite spectrum_synth by (try apply sp_pos; try (apply (wbox i)); auto). symmetry. eapply kOf_wave; eauto.
Qed.
End Span.
