(** C84: free energy of one-dimensional systems and its comparison to the homogeneous mixture. *)
From Coq Require Import Reals List Arith Bool ZArith Lra Lia.
From Verif Require Import Base RSum Solve Interaction R1d R1dProofs FloryHuggins PropsFloryHuggins PropsR1d R1dThermo.
Import ListNotations.
Local Open Scope R_scope.

(** *** Specification *)
(** A species counts if its volume fraction exceeds 1e-8. *)
Definition counted (s : sp) (x : R) : R := if Rlt_dec (1 / 10 ^ 8) (sPhi s) then x else 0.
Definition idealGas (l : list sp) : R := lsum (fun s => counted s (sPhi s * (sMu s - 1) / sSize s)) l.
Definition gibbs (l : list sp) : R := lsum (fun s => counted s (sPhi s * sMu s / sSize s)) l.
(** [avg] is a weighted average over the grid. *)
Definition isAverage (nx : nat) (avg : field -> R) : Prop :=
  exists wt, (forall i, (i < nx)%nat -> 0 < wt i) /\ rsum nx wt = 1 /\ forall f, avg f = rsum nx (fun i => wt i * f i).
Definition density (nMon : nat) (chi : nat -> nat -> R) (c : nat -> R) : R :=
  rsum nMon (fun i => rsum nMon (fun j => chi i j * c i * c j)) / 2.

Lemma fold_ideal : forall l f, fold_left addIdeal l f = f + idealGas l.
Proof.
  induction l as [|s l IH]; intros f; unfold idealGas in *; cbn [fold_left lsum]; [lra|]. rewrite IH. unfold addIdeal, counted.
  destruct (Rlt_dec _ _); lra.
Qed.
Lemma fold_pressure : forall l f, fold_left addPressure l f = f + gibbs l.
Proof.
  induction l as [|s l IH]; intros f; unfold gibbs in *; cbn [fold_left lsum]; [lra|]. rewrite IH. unfold addPressure, counted.
  destruct (Rlt_dec _ _); lra.
Qed.
Lemma lsum_app : forall {A} (g : A -> R) l l', lsum g (l ++ l') = lsum g l + lsum g l'.
Proof. induction l; intros; cbn [app lsum]; [lra|]. rewrite IHl. lra. Qed.

(** The free energy per monomer volume: ideal gas of all species, minus the averages of w c, plus the average of the
    interaction energy; the pressure is its Legendre transform.  The average is that of the domain (positive weights). *)
Theorem C84_free_energy : forall d nMon chi pols sols w c, valid_domain d ->
  exists avg e, isAverage (d_nx d) avg /\ (forall f, spatialAverage d f = Ok (avg f)) /\
    computeFreeEnergy d nMon chi pols sols w c = Ok e /\
    eIdeal e = idealGas (pols ++ sols) - rsum nMon (fun k => avg (fun i => w k i * c k i)) /\
    eInter e = avg (fun i => density nMon chi (fun k => c k i)) /\
    eF e = eIdeal e + eInter e /\ eP e = gibbs (pols ++ sols) - eF e.
Proof.
  intros d nMon chi pols sols w c V. destruct (r1d_spatialAverage_is_average d V) as (wt & P & S & A).
  set (avg := fun f => rsum (d_nx d) (fun i => wt i * f i)).
  assert (L : forall k f, legendre d k w c f = Ok (f - rsum k (fun j => avg (fun i => w j i * c j i)))).
  { induction k; intros f; cbn [legendre rsum]; [f_equal; lra|]. rewrite IHk. cbn [bind]. unfold innerProduct. rewrite A. cbn [bind].
    f_equal. unfold avg. lra. }
  exists avg. eexists. split; [exists wt; auto|]. split; [exact A|].
  unfold computeFreeEnergy. rewrite L. cbn [bind]. rewrite A. cbn [bind]. split; [reflexivity|]. cbn [eF eIdeal eInter eP].
  rewrite !fold_ideal, !fold_pressure. unfold idealGas, gibbs. rewrite !lsum_app.
  assert (Q : rsum (d_nx d) (fun i => wt i * fHelmholtz nMon chi (fun j => c j i)) = avg (fun i => density nMon chi (fun k => c k i))).
  { unfold avg, fHelmholtz, density. apply rsum_ext. intros i _. field. }
  rewrite Q. repeat split; lra.
Qed.
Print Assumptions C84_free_energy.

(** A homogeneous state of composition [phi] with fields raised by [xi]: the reported energies are those of the
    Flory-Huggins mixture. *)
Definition uniformSpecies nMon chi mols phi xi : list sp :=
  map (fun i => mkSp (phi i) (chemPot nMon chi mols phi xi i) (size mols i)) (seq 0 (length mols)).
Lemma lsum_seq : forall (g : nat -> R) n, lsum g (seq 0 n) = rsum n g.
Proof. intros g n. induction n; auto. rewrite seq_S, lsum_app, IHn. cbn [lsum rsum]. simpl. lra. Qed.
Lemma lsum_map : forall {A B} (h : A -> B) (g : B -> R) l, lsum g (map h l) = lsum (fun x => g (h x)) l.
Proof. induction l; cbn [map lsum]; auto. now rewrite IHl. Qed.

Theorem C84_uniform : forall d nMon chi mols phi xi pols sols w c e, valid_domain d -> goodMixture nMon mols ->
  (forall i, (i < length mols)%nat -> 1 / 10 ^ 8 < phi i) -> rsum (length mols) phi = 1 ->
  pols ++ sols = uniformSpecies nMon chi mols phi xi ->
  (forall k x, c k x = monomers mols phi k) -> (forall k x, w k x = rsum nMon (fun l => chi k l * monomers mols phi l) + xi) ->
  computeFreeEnergy d nMon chi pols sols w c = Ok e ->
  eF e = mixtureF nMon chi mols phi /\
  eP e = rsum (length mols) (fun i => phi i * chemPot nMon chi mols phi xi i / size mols i) - mixtureF nMon chi mols phi.
Proof.
  intros d nMon chi mols phi xi pols sols w c e V G P S E C W H.
  destruct (C84_free_energy d nMon chi pols sols w c V) as (avg & e' & (wt & PW & SW & AV) & _ & H' & I & J & F & PR).
  rewrite H in H'. inversion H'; subst e'. clear H'.
  set (n := length mols) in *.
  assert (K : forall a, avg (fun _ => a) = a). { intros a. rewrite AV, rsum_scal_r, SW. ring. }
  assert (T : rsum nMon (fun k => avg (fun i => w k i * c k i)) = 2 * excessF nMon chi (monomers mols phi) + xi).
  { rewrite (rsum_ext nMon _ (fun k => rsum nMon (fun l => chi k l * monomers mols phi k * monomers mols phi l) + xi * monomers mols phi k)).
    - rewrite rsum_plus, rsum_scal, (monomers_total nMon mols G phi S). unfold excessF. field.
    - intros k _. rewrite AV, (rsum_ext _ _ (fun i => wt i * ((rsum nMon (fun l => chi k l * monomers mols phi l) + xi) * monomers mols phi k)))
        by (intros; rewrite W, C; reflexivity). rewrite rsum_scal_r, SW, Rmult_1_l, Rmult_plus_distr_r, <- rsum_scal_r. f_equal. apply rsum_ext. intros; ring. }
  assert (U : avg (fun i => density nMon chi (fun k => c k i)) = excessF nMon chi (monomers mols phi)).
  { rewrite AV, (rsum_ext _ _ (fun i => wt i * excessF nMon chi (monomers mols phi))); [rewrite rsum_scal_r, SW; ring|].
    intros i _. f_equal. unfold density, excessF. f_equal. apply rsum_ext. intros a _. apply rsum_ext. intros b _. now rewrite !C. }
  assert (CT : forall i x, (i < n)%nat -> counted (mkSp (phi i) (chemPot nMon chi mols phi xi i) (size mols i)) x = x).
  { intros i x Hi. unfold counted. cbn [sPhi]. destruct (Rlt_dec _ _) as [|N]; auto. destruct (N (P i Hi)). }
  assert (GB : gibbs (pols ++ sols) = rsum n (fun i => phi i * chemPot nMon chi mols phi xi i / size mols i)).
  { rewrite E. unfold gibbs, uniformSpecies. rewrite lsum_map, lsum_seq. apply rsum_ext. intros i Hi. now rewrite CT. }
  assert (ID : idealGas (pols ++ sols) = rsum n (fun i => phi i * chemPot nMon chi mols phi xi i / size mols i) - rsum n (fun i => phi i / size mols i)).
  { rewrite E. unfold idealGas, uniformSpecies. rewrite lsum_map, lsum_seq, <- rsum_minus. apply rsum_ext. intros i Hi. rewrite CT by auto.
    cbn [sPhi sMu sSize]. assert (Z := size_pos nMon mols G i Hi). field. lra. }
  assert (PP : positive mols phi). { intros i Hi. specialize (P i Hi). assert (0 < 1 / 10 ^ 8) by (apply Rdiv_lt_0_compat; [lra|apply pow_lt; lra]). lra. }
  destruct (C56_pressure nMon mols G chi phi (monomers mols phi) xi PP S (fun k => eq_refl)) as (p & _ & P1 & P2).
  fold n in P1, P2.
  assert (FF : eF e = mixtureF nMon chi mols phi). { rewrite F, I, J, T, U, ID. lra. }
  split; [exact FF|]. rewrite PR, FF, GB. reflexivity.
Qed.
Print Assumptions C84_uniform.

(** Raising all fields by [s], with the chemical potentials that follow, leaves the free energy of an incompressible
    state and adds [s] to its pressure. *)
Definition raise (s : R) (x : sp) : sp := mkSp (sPhi x) (sMu x + s * sSize x) (sSize x).
Theorem C84_shift : forall d nMon chi pols sols w c s e e', valid_domain d ->
  (forall x, In x (pols ++ sols) -> sSize x <> 0) -> lsum (fun x => counted x (sPhi x)) (pols ++ sols) = 1 ->
  (forall i, (i < d_nx d)%nat -> rsum nMon (fun k => c k i) = 1) ->
  computeFreeEnergy d nMon chi pols sols w c = Ok e ->
  computeFreeEnergy d nMon chi (map (raise s) pols) (map (raise s) sols) (fun k i => w k i + s) c = Ok e' ->
  eF e' = eF e /\ eP e' = eP e + s.
Proof.
  intros d nMon chi pols sols w c s e e' V N S I H H'.
  destruct (C84_free_energy d nMon chi pols sols w c V) as (avg & e1 & (wt & PW & SW & AV) & A & E1 & I1 & J1 & F1 & P1).
  rewrite H in E1. inversion E1; subst e1.
  destruct (C84_free_energy d nMon chi (map (raise s) pols) (map (raise s) sols) (fun k i => w k i + s) c V) as (avg' & e1 & _ & A' & E2 & I2 & J2 & F2 & P2).
  rewrite H' in E2. inversion E2; subst e1.
  assert (Q : forall f, avg' f = avg f). { intros f. specialize (A f). specialize (A' f). rewrite A in A'. now inversion A'. }
  rewrite <- map_app in *.
  assert (GI : forall l, (forall x, In x l -> sSize x <> 0) ->
    idealGas (map (raise s) l) = idealGas l + s * lsum (fun x => counted x (sPhi x)) l /\
    gibbs (map (raise s) l) = gibbs l + s * lsum (fun x => counted x (sPhi x)) l).
  { induction l as [|x l IH]; intros NL; unfold idealGas, gibbs in *; cbn [map lsum]; [lra|].
    destruct IH as [IA IB]; [intros; apply NL; now right|]. rewrite IA, IB.
    assert (sSize x <> 0) by (apply NL; now left). unfold counted. cbn [raise sPhi sMu sSize]. destruct (Rlt_dec _ _); split; try lra; field; auto. }
  destruct (GI _ N) as [GA GB]. rewrite S in GA, GB.
  assert (T : rsum nMon (fun k => avg' (fun i => (w k i + s) * c k i)) = rsum nMon (fun k => avg (fun i => w k i * c k i)) + s).
  { rewrite (rsum_ext nMon _ (fun k => avg (fun i => w k i * c k i) + s * rsum (d_nx d) (fun i => wt i * c k i))).
    - rewrite rsum_plus, rsum_scal, rsum_swap. f_equal.
      rewrite (rsum_ext (d_nx d) _ wt); [rewrite SW; ring|]. intros i Hi. rewrite rsum_scal, I by auto. ring.
    - intros k _. rewrite Q, !AV, <- rsum_scal, <- rsum_plus. apply rsum_ext. intros; ring. }
  rewrite T in I2. rewrite Q in J2.
  assert (FE : eF e' = eF e). { rewrite F2, F1, I2, J2, GA, I1, J1. lra. }
  split; [exact FE|]. rewrite P2, P1, FE, GB. lra.
Qed.
Print Assumptions C84_shift.

(** *** Comparison to the homogeneous mixture *)
Lemma defined_true : forall k a, (forall i, (i < k)%nat -> a i <> None) -> defined k a = true.
Proof. induction k; intros a H; cbn [defined]; auto. destruct (a k) eqn:E; [apply IHk; auto|]. destruct (H k); auto. Qed.
Lemma defined_false : forall k a i, (i < k)%nat -> a i = None -> defined k a = false.
Proof.
  induction k; intros a i L E; [lia|]. cbn [defined]. destruct (a k) eqn:Q; auto. destruct (Nat.eq_dec i k) as [->|]; [congruence|].
  apply (IHk a i); auto; lia.
Qed.
Lemma value_set : forall np x a i, (i < np)%nat -> value (setCells np x a) i = x i.
Proof. intros np x a i H. unfold value, setCells. now rewrite (proj2 (Nat.ltb_lt i np) H). Qed.

Section Compare.
Variables (d : domain) (nMon : nat) (chi : nat -> nat -> R) (mols : list (molecule Rarith)).
Variable lu : (nat -> nat -> R) -> (nat -> R) -> nat -> R.
Variables np ns : nat.
Variables (mu : nat -> R) (nBlock : nat -> nat) (cBlock : nat -> nat -> field).
Hypothesis G : goodMixture nMon mols.
Hypothesis N : (np + ns = length mols)%nat.
Notation n := (length mols).
Notation cmp := (compute d nMon chi mols lu np ns).

Lemma term_le_sum : forall k (f : nat -> R) i, (forall j, (j < k)%nat -> 0 <= f j) -> (i < k)%nat -> f i <= rsum k f.
Proof.
  induction k; intros f i P H; [lia|]. cbn [rsum]. assert (0 <= f k) by (apply P; lia).
  destruct (Nat.eq_dec i k) as [->|].
  - assert (0 <= rsum k f) by (apply rsum_pos_le; intros; apply P; lia). lra.
  - specialize (IHk f i (fun j Hj => P j ltac:(lia)) ltac:(lia)). lra.
Qed.
Lemma last_term : forall k (f : nat -> R), (0 < k)%nat -> rsum k f = rsum (k - 1) f + f (k - 1)%nat.
Proof. intros [|k] f H; [lia|]. cbn [rsum]. now rewrite Nat.sub_succ, Nat.sub_0_r. Qed.
Lemma set_complete : forall phi g, (forall i, (i < n)%nat -> 0 < phi i) -> rsum n phi = 1 ->
  (forall i, (i < n - 1)%nat -> g i = phi i) ->
  exists ph c, setComposition (A := Rarith) nMon mols g = Ok (ph, c) /\ (forall i, (i < n)%nat -> ph i = phi i) /\
    rsum n ph = 1 /\ (forall k, c k = monomers mols ph k) /\ (forall k, monomers mols ph k = monomers mols phi k).
Proof.
  intros phi g P S E. assert (NP := n_pos nMon mols G).
  assert (S1 : rsum (n - 1) g = 1 - phi (n - 1)%nat).
  { rewrite (rsum_ext (n - 1) g phi) by auto. rewrite <- S. rewrite (last_term n phi NP). ring. }
  assert (L1 : forall i, (i < n)%nat -> phi i <= 1).
  { intros i Hi. rewrite <- S. apply term_le_sum; auto. intros j Hj. left. auto. }
  destruct (C56_composition nMon mols G g) as [V _]. destruct V as (ph & c & H & A & B & _ & C & _).
  { split. - intros i Hi. rewrite E by auto. split; [left; apply P; lia | apply L1; lia]. - rewrite S1. specialize (P (n - 1)%nat ltac:(lia)). lra. }
  assert (PH : forall i, (i < n)%nat -> ph i = phi i).
  { intros i Hi. assert (D : (i < n - 1)%nat \/ i = (n - 1)%nat) by lia. destruct D as [D| ->]; [rewrite A, E; auto|].
    rewrite (rsum_ext (n - 1) g ph) in S1 by (intros; symmetry; auto). rewrite (last_term n ph NP), S1 in B. lra. }
  exists ph, c. repeat (split; [assumption|]). intros k. unfold monomers. apply rsum_ext. intros i Hi. now rewrite PH.
Qed.
Lemma ext_mix : forall phi ph, (forall i, (i < n)%nat -> ph i = phi i) -> (forall k, monomers mols ph k = monomers mols phi k) ->
  mixtureF nMon chi mols ph = mixtureF nMon chi mols phi /\ forall xi i, (i < n)%nat -> chemPot nMon chi mols ph xi i = chemPot nMon chi mols phi xi i.
Proof.
  intros phi ph E M. split.
  - unfold mixtureF, idealF, excessF. f_equal; [apply rsum_ext; intros i Hi; now rewrite E|]. f_equal. apply rsum_ext. intros i _. apply rsum_ext. intros j _. now rewrite !M.
  - intros xi i Hi. unfold chemPot. rewrite E by auto. f_equal. apply rsum_ext. intros k _. apply rsum_ext. intros l _. now rewrite M.
Qed.

(** Mode 0 with at most one solvent: the reference has the composition of the system, with its Flory-Huggins energy. *)
Theorem C84_mode0 : forall phi p m, (ns <= 1)%nat -> (forall i, (i < n)%nat -> 0 < phi i) -> rsum n phi = 1 ->
  exists h, cmp phi mu nBlock cBlock 0%Z p m = Ok h /\ (forall i, (i < n)%nat -> hPhi h i = phi i) /\
    (forall i, (i < n)%nat -> hMu h i = Some (chemPot nMon chi mols phi 0 i)) /\ hF h = Some (mixtureF nMon chi mols phi).
Proof.
  intros phi p m O P S. unfold compute. rewrite (proj2 (Nat.eqb_eq _ _) N). cbn [check bind]. change ((0 =? 0)%Z) with true. cbv iota.
  rewrite defined_true. 2: { intros i Hi. unfold setCells. rewrite (proj2 (Nat.ltb_lt i np)) by lia. discriminate. }
  cbn [negb]. destruct (set_complete phi (value (setCells np phi p)) P S) as (ph & c & -> & PH & SP & C & M).
  { intros i Hi. apply value_set. lia. }
  cbn [bind]. eexists. split; [reflexivity|]. cbn [finishComparison hPhi hMu hF].
  destruct (ext_mix phi ph PH M) as [XF XM]. split; [exact PH|]. split.
  - intros i Hi. rewrite (C56_mu nMon mols G chi ph c 0 i Hi); auto; [now rewrite XM|]. rewrite PH; auto.
  - rewrite (C56_free_energy nMon mols chi ph c); auto; [now rewrite XF|]. intros i Hi. rewrite PH; auto.
Qed.

(** Modes 1 and 2 without solvents: a reference that is found has the chemical potentials of the system. *)
Theorem C84_mode12 : forall phi mode p m h, cmp phi mu nBlock cBlock mode p m = Ok h -> mode <> 0%Z -> ns = O ->
  rsum n (hPhi h) = 1 /\ (forall i, (i < n)%nat -> 0 < hPhi h i <= 1) /\
  exists xi, forall i, (i < n)%nat -> hMu h i = Some (chemPot nMon chi mols (hPhi h) xi i) /\
    Rabs (chemPot nMon chi mols (hPhi h) xi i - mu i) < 1 / 10 ^ 10.
Proof.
  intros phi mode p m h H M0 NS. unfold compute in H. destruct (np + ns =? n)%nat; [|discriminate]. cbn [check bind] in H.
  destruct (mode =? 0)%Z eqn:E0; [apply Z.eqb_eq in E0; contradiction|].
  destruct ((mode =? 1) || (mode =? 2))%Z%bool; [|discriminate]. cbv zeta in H.
  match type of H with (if ?t then _ else _) = _ => destruct t; [discriminate|] end.
  match type of H with bind ?t _ = _ => destruct t as [s| | |] eqn:E; cbn [bind] in H; try discriminate end.
  inversion H; subst h. cbn [finishComparison hPhi hMu].
  destruct (C56_computePhi nMon mols G chi lu _ _ _ _ E) as (A & B & _ & D). split; [exact A|]. split; [exact B|].
  exists (pXi s). intros i Hi. destruct (D i Hi) as [D1 D2]. split; [now rewrite D1|]. rewrite value_set in D2 by lia. exact D2.
Qed.

(** In a homogeneous state all modes report no excess: mode 0 no excess free energy, modes 1 and 2 (without solvents)
    the composition itself, no excess pressure, and no excess volume. *)
Theorem C84_no_excess : forall phi xi pols sols w c e p m V, valid_domain d ->
  (forall i, (i < n)%nat -> 1 / 10 ^ 8 < phi i) -> rsum n phi = 1 ->
  pols ++ sols = uniformSpecies nMon chi mols phi xi ->
  (forall k x, c k x = monomers mols phi k) -> (forall k x, w k x = rsum nMon (fun l => chi k l * monomers mols phi l) + xi) ->
  computeFreeEnergy d nMon chi pols sols w c = Ok e ->
  ((ns <= 1)%nat -> exists h, cmp phi mu nBlock cBlock 0%Z p m = Ok h /\ deltaF e h = Some 0) /\
  (ns = O -> (forall i x, (i < np)%nat -> rsum (nBlock i) (fun j => cBlock i j x) = phi i) ->
    (forall i, (i < np)%nat -> mu i = chemPot nMon chi mols phi xi i) ->
    forall mode, mode = 1%Z \/ mode = 2%Z -> exists h, cmp phi mu nBlock cBlock mode p m = Ok h /\
      deltaF e h = Some 0 /\ deltaP e h = Some 0 /\ phiExTot V e h = Some 0 /\
      exists l, outputDeltaV mols np phi V h = Ok l /\ length l = n /\ forall x, In x l -> x = 0).
Proof.
  intros phi xi pols sols w c e p m V VD P S US C W H.
  assert (PP : forall i, (i < n)%nat -> 0 < phi i).
  { intros i Hi. specialize (P i Hi). assert (0 < 1 / 10 ^ 8) by (apply Rdiv_lt_0_compat; [lra|apply pow_lt; lra]). lra. }
  destruct (C84_uniform d nMon chi mols phi xi pols sols w c e VD G P S US C W H) as [EF EP]. split.
  - intros O. destruct (C84_mode0 phi p m O PP S) as (h & E & _ & _ & F). exists h. split; [exact E|]. unfold deltaF. rewrite F, EF. f_equal. ring.
  - intros NS CB MU mode MD. unfold compute. rewrite (proj2 (Nat.eqb_eq _ _) N). cbn [check bind].
    assert (NP : np = n) by lia.
    replace (mode =? 0)%Z with false by (destruct MD as [-> | ->]; reflexivity).
    replace ((mode =? 1) || (mode =? 2))%Z%bool with true by (destruct MD as [-> | ->]; reflexivity). cbv zeta.
    set (ix := if (mode =? 1)%Z then (d_nx d - 1)%nat else 0%nat).
    rewrite !defined_true; [| intros i Hi; unfold setCells; rewrite (proj2 (Nat.ltb_lt i np)) by lia; discriminate
      | intros i Hi; unfold setCells; rewrite (proj2 (Nat.ltb_lt i np)) by lia; discriminate].
    cbn [andb negb].
    set (g := value (setCells np (fun i => rsum (nBlock i) (fun j => cBlock i j ix)) p)).
    destruct (set_complete phi g PP S) as (ph & c0 & SE & PH & SP & CC & M).
    { intros i Hi. unfold g. rewrite value_set by lia. apply CB. lia. }
    destruct (ext_mix phi ph PH M) as [XF XM].
    assert (PQ : positive mols ph) by (intros i Hi; rewrite PH; auto).
    destruct (C56_inverse nMon mols G chi lu g xi 0 (value (setCells np mu m)) ph c0 SE PQ) as (s & E & PE & XE).
    { intros i Hi. rewrite value_set by lia. rewrite MU by lia. now rewrite XM. }
    pose proof (C56_computePhi nMon mols G chi lu _ _ _ _ E) as (SA & SB & SC & SD).
    rewrite E. cbn [bind]. eexists. split; [reflexivity|].
    assert (PS : positive mols (pPhi s)) by (rewrite PE; exact PQ).
    assert (F : fHelmholtzFH nMon chi mols (pPhi s) (pC s) = Some (mixtureF nMon chi mols phi)).
    { rewrite (C56_free_energy nMon mols chi (pPhi s) (pC s) PS SC), PE, XF. reflexivity. }
    assert (PR : pressureFH nMon chi mols (pPhi s) (pC s) (fun i => Some (pMu s i)) = Some (eP e)).
    { unfold pressureFH. rewrite F. rewrite (sumFinite_some n _ (fun i => phi i * chemPot nMon chi mols phi xi i / size mols i)).
      - rewrite EP. f_equal. ring.
      - intros i Hi. destruct (SD i Hi) as [D1 _]. rewrite D1, PE, XE, XM, PH; auto. }
    unfold deltaF, phiExTot, deltaP. cbn [finishComparison hF hP hPhi]. rewrite F, PR, EF.
    split; [f_equal; ring|]. split; [f_equal; ring|]. split; [f_equal; ring|].
    unfold outputDeltaV.
    assert (DV : forall k i h, (i + k <= n)%nat -> (forall j, (j < n)%nat -> hPhi h j = phi j) ->
      exists l, deltaV np phi V h i k = Ok l /\ length l = k /\ forall x, In x l -> x = 0).
    { induction k; intros i h L Q; cbn [deltaV]; [exists []; repeat split; intros x []|].
      rewrite (proj2 (Nat.ltb_lt i np)) by lia. destruct (IHk (Datatypes.S i) h ltac:(lia) Q) as (l & El & Ll & Zl). rewrite El. cbn [bind].
      eexists. split; [reflexivity|]. split; [cbn; congruence|]. intros x [<-|X]; auto. rewrite Q by lia. ring. }
    apply DV; [lia|]. intros j Hj. cbn [finishComparison hPhi]. rewrite PE. auto.
Qed.

(** The arrays are set only for polymers.  On first use, with two solvents or more mode 0 reads a volume fraction that
    was never set, with one or more modes 1 and 2 read such a chemical potential, and their output reads past the
    polymers. *)
Theorem C84_solvents : forall phi p m V h, (forall i, p i = None) -> (forall i, m i = None) ->
  ((2 <= ns)%nat -> cmp phi mu nBlock cBlock 0%Z p m = UB) /\
  ((1 <= ns)%nat -> cmp phi mu nBlock cBlock 1%Z p m = UB /\ cmp phi mu nBlock cBlock 2%Z p m = UB /\ outputDeltaV mols np phi V h = UB).
Proof.
  intros phi p m V h HP HM. split; intros O.
  - unfold compute. rewrite (proj2 (Nat.eqb_eq _ _) N). cbn [check bind]. change ((0 =? 0)%Z) with true. cbv iota.
    rewrite (defined_false _ _ np); auto; [lia|]. unfold setCells. now rewrite Nat.ltb_irrefl.
  - assert (Q : defined n (setCells np mu m) = false).
    { apply (defined_false _ _ np); [lia|]. unfold setCells. now rewrite Nat.ltb_irrefl. }
    split; [|split].
    + unfold compute. rewrite (proj2 (Nat.eqb_eq _ _) N), Q, andb_false_r. reflexivity.
    + unfold compute. rewrite (proj2 (Nat.eqb_eq _ _) N), Q, andb_false_r. reflexivity.
    + unfold outputDeltaV. assert (DV : forall k i, (i <= np)%nat -> (np < i + k)%nat -> deltaV np phi V h i k = UB).
      { induction k; intros i A B; [lia|]. cbn [deltaV]. destruct (i <? np)%nat eqn:L; auto. apply Nat.ltb_lt in L. rewrite IHk by lia. reflexivity. }
      apply DV; lia.
Qed.
End Compare.
Print Assumptions C84_mode0. Print Assumptions C84_mode12. Print Assumptions C84_no_excess. Print Assumptions C84_solvents.

(** A copolymer with two solvents: an admissible mixture whose comparison is undefined in every mode. *)
Definition mols2 : list rmol := mols1 ++ [solventMolecule 1 1].
Lemma mols2_good : goodMixture 2 mols2.
Proof.
  destruct mols1_good as [_ F]. split; [discriminate|]. unfold mols2. apply Forall_app. split; [exact F|].
  constructor; [|constructor]. apply C56_solvent; [lia|lra].
Qed.
Theorem C84_solvents_refuted : exists nMon mols np ns, goodMixture nMon mols /\ (np + ns = length mols)%nat /\ (0 < np)%nat /\
  forall d chi lu phi mu nBlock cBlock mode, (mode = 0 \/ mode = 1 \/ mode = 2)%Z ->
    compute d nMon chi mols lu np ns phi mu nBlock cBlock mode (fun _ => None) (fun _ => None) = UB.
Proof.
  exists 2%nat, mols2, 1%nat, 2%nat. split; [exact mols2_good|]. split; [reflexivity|]. split; [lia|].
  intros d chi lu phi mu nBlock cBlock mode [-> | [-> | ->]]; reflexivity.
Qed.
Print Assumptions C84_solvents_refuted.

(** Copolymer and one solvent, half of each, homogeneous in a slab: hypotheses of the theorems hold. *)
Definition slab : domain := setPlanar 0 1 5.
Definition chi12 (i j : nat) : R := if (i =? j)%nat then 0 else 1.
Definition half (_ : nat) : R := 1 / 2.
Example C84_case : exists e, computeFreeEnergy slab 2 chi12 (firstn 1 (uniformSpecies 2 chi12 mols1 half 3)) (skipn 1 (uniformSpecies 2 chi12 mols1 half 3))
    (fun k _ => rsum 2 (fun l => chi12 k l * monomers mols1 half l) + 3) (fun k _ => monomers mols1 half k) = Ok e /\
  eF e = mixtureF 2 chi12 mols1 half /\ excessF 2 chi12 (monomers mols1 half) = 15 / 64.
Proof.
  assert (VD : valid_domain slab) by (apply (r1d_domain_setters_valid 5 0 1); [lia|lra]).
  destruct (C84_free_energy slab 2 chi12 (firstn 1 (uniformSpecies 2 chi12 mols1 half 3)) (skipn 1 (uniformSpecies 2 chi12 mols1 half 3))
    (fun k _ => rsum 2 (fun l => chi12 k l * monomers mols1 half l) + 3) (fun k _ => monomers mols1 half k) VD) as (_ & e & _ & _ & E & _).
  exists e. split; [exact E|]. split.
  - eapply (C84_uniform slab 2 chi12 mols1 half 3); [exact VD|exact mols1_good| | | | | |exact E]; auto.
    + intros i _. unfold half. lra.
    + unfold half. cbn [length mols1 rsum]. lra.
  - unfold excessF, monomers, fraction, amount, half, chi12, clumps, size, mol, solventMolecule, makeMolecule, computeSize.
    cbn [mols1 length rsum nth mClumps mSize lsum fst snd Nat.eqb fold_left Rarith aAdd a0 solventMolecule makeMolecule computeSize]. field.
Qed.
