(** C66: the bead model computes exact derivatives: concentrations are the
    response of ln q to the fields, the stress is its response to the cell. *)
From Coq Require Import Reals ZArith List Bool Arith Lia Lra FunctionalExtensionality.
From Coquelicot Require Import Coquelicot.
From Coq Require Import List.
From Verif Require Import Base RSum UnitCellProofs MeshSpec MeshProofs Polymer PolymerSpec PolymerProofs PropsPolymer Solve SolveProofs
  Species Fft FftProofs PropsFft R1d R1dProofs Rpc RpcProofs PropsRpc Stress TreeDerivative BeadDerivative StressProofs
  UnitCell PropsUnitCell FloryHuggins ThermoSpec Thermo PropsThermo.
Import ListNotations.
Local Open Scope R_scope.

(** A polymer of beads: its graph, blocks, what readParameters made of it, and
    its volume fraction (closed ensemble). *)
Record polySpec := mkPoly { y_es : list (nat * nat); y_bs : list pblock; y_pol : polymer; y_phi : R }.
Definition validPoly (nm : nat) (y : polySpec) : Prop :=
  tree (y_es y) /\ y_es y <> [] /\ length (y_bs y) = length (y_es y) /\
  Forall (fun b => (1 <= pb_nBead b)%nat /\ (pb_monomer b < nm)%nat) (y_bs y) /\
  exists fuel, (2 * length (y_es y) <= fuel)%nat /\ readGraph fuel (y_es y) = Ok (y_pol y).
Definition y_size (y : polySpec) : R := lsum (fun b => INR (pb_nBead b)) (y_bs y).

Section Path.
Variables (dims : list Z) (nm : nat) (w : nat -> nat -> R -> R) (kSq : nat -> R -> R) (P : R -> R).

(** What the solver returns for the fields and the cell of parameter t: species
    and block concentrations, and the propagators it leaves. *)
Definition runAt (y : polySpec) (t : R) : outcome (species * (nat -> field)) :=
  rpcCompute Bead dims (fun k => kSq k t) 1 (y_bs y) (fun m i => w m i t) (y_es y) (y_pol y) (mkSpecies Closed (y_phi y) 0 0) (P t).
Definition propsAt (y : polySpec) (t : R) : outcome props :=
  solveAll (rpcSlices Bead dims (fun k => kSq k t) 1 (y_bs y) (fun m i => w m i t)) (rpcTailOk Bead) true
    (y_es y) (p_vertices (y_pol y)) (p_plan (y_pol y)).
Definition qOf (y : polySpec) (t : R) : R := match runAt y t with Ok (s, _) => sp_q s | _ => 0 end.
Definition speciesOf (y : polySpec) (t : R) : species := match runAt y t with Ok (s, _) => s | _ => mkSpecies Closed 0 0 0 end.
Definition concOf (y : polySpec) (t : R) : nat -> field := match runAt y t with Ok (_, c) => c | _ => fun _ => zero_field end.
(** Concentration of monomer type m in polymer y. *)
Definition monomerConc (y : polySpec) (m x : nat) (t : R) : R :=
  rsum (length (y_es y)) (fun b => if (pb_monomer (pblockAt (y_bs y) b) =? m)%nat then concOf y t b x else 0).
(** The stress of polymer y for the lattice parameter with the array dKSq. *)
Definition stressOf (dKSq : nat -> R) (y : polySpec) (t : R) : R :=
  match propsAt y t with
  | Ok st => polymerStress Bead dims (fun k => kSq k t) dKSq 1 (y_bs y) (y_es y) (p_vertices (y_pol y)) st (speciesOf y t)
  | _ => 0
  end.

Variables (dw : nat -> nat -> R) (dk : nat -> R) (t0 : R).

Lemma polymer_at : forall y, positive dims -> validPoly nm y -> forall t,
  let Q := QAt dims (y_bs y) (y_es y) (y_pol y) w kSq t in
  propsAt y t = Ok (stAt dims (y_bs y) (y_es y) (y_pol y) w kSq t) /\
  runAt y t = Ok (mkSpecies Closed (y_phi y) (ln (y_phi y / (Q / P t))) (Q / P t),
    fun b => match stAt dims (y_bs y) (y_es y) (y_pol y) w kSq t (b, false), stAt dims (y_bs y) (y_es y) (y_pol y) w kSq t (b, true) with
             | Some l0, Some l1 => concBead Bead 1 (y_bs y) (fun m i => w m i t) b l0 l1 (y_phi y / (Q / P t * y_size y))
             | _, _ => zero_field end).
Proof.
  intros y HD (HT & NE & HL & HB & fuel & Hf & HG) t Q.
  assert (HB' : Forall (fun b => (1 <= pb_nBead b)%nat) (y_bs y)) by (eapply Forall_impl; [|exact HB]; intros a [X _]; exact X).
  destruct (at_facts dims (y_bs y) (y_es y) fuel (y_pol y) w kSq HD HT NE HL HB' Hf HG t) as [A [B _]].
  split; [exact A|]. unfold runAt, rpcCompute. rewrite A. cbn [bind]. rewrite B. cbn [bind]. reflexivity.
Qed.

Lemma stress_linear : forall dKSq dKSq' kuhn ns he te l0 l1 pre a,
  blockStressBead dims (fun k => kSq k t0) (fun m => dKSq m + a * dKSq' m) kuhn ns he te l0 l1 pre =
  blockStressBead dims (fun k => kSq k t0) dKSq kuhn ns he te l0 l1 pre
  + a * blockStressBead dims (fun k => kSq k t0) dKSq' kuhn ns he te l0 l1 pre.
Proof.
  intros. unfold blockStressBead.
  assert (L : forall (d d' e : nat -> R) f g, waveSum dims (fun m => (d m + a * d' m) * e m) f g
     = waveSum dims (fun m => d m * e m) f g + a * waveSum dims (fun m => d' m * e m) f g).
  { intros. unfold waveSum. rewrite <- rsum_scal, <- rsum_plus. apply rsum_ext. intros. ring. }
  rewrite (rsum_ext (ns - 3) _ (fun k => waveSum dims (fun m => dKSq m * expKsq (fun k => kSq k t0) Bead kuhn 1 m) (qAt l0 (S k)) (qAt l1 (ns - 2 - S k)) * (kuhn * kuhn / 6)
     + a * (waveSum dims (fun m => dKSq' m * expKsq (fun k => kSq k t0) Bead kuhn 1 m) (qAt l0 (S k)) (qAt l1 (ns - 2 - S k)) * (kuhn * kuhn / 6)))).
  2:{ intros k _. rewrite L. ring. }
  rewrite rsum_plus, rsum_scal, !L. destruct he, te; ring.
Qed.
Lemma stress_prefactor : forall dKSq kuhn ns he te l0 l1 pre,
  blockStressBead dims (fun k => kSq k t0) dKSq kuhn ns he te l0 l1 pre = pre * blockStressBead dims (fun k => kSq k t0) dKSq kuhn ns he te l0 l1 1.
Proof. intros. unfold blockStressBead. destruct he, te; ring. Qed.
Lemma stress_array : forall dKSq dKSq' kuhn ns he te l0 l1 pre, (forall m, (m < nK dims)%nat -> dKSq m = dKSq' m) ->
  blockStressBead dims (fun k => kSq k t0) dKSq kuhn ns he te l0 l1 pre = blockStressBead dims (fun k => kSq k t0) dKSq' kuhn ns he te l0 l1 pre.
Proof.
  intros. unfold blockStressBead.
  rewrite !(waveSum_ext dims (fun m => dKSq m * expKsq2 (fun k => kSq k t0) Bead kuhn 1 m) (fun m => dKSq' m * expKsq2 (fun k => kSq k t0) Bead kuhn 1 m))
    by (intros; now rewrite H).
  rewrite (rsum_ext (ns - 3) _ (fun k => waveSum dims (fun m => dKSq' m * expKsq (fun k => kSq k t0) Bead kuhn 1 m) (qAt l0 (S k)) (qAt l1 (ns - 2 - S k)) * (kuhn * kuhn / 6))).
  - reflexivity.
  - intros k _. f_equal. apply waveSum_ext. intros. now rewrite H.
Qed.

Hypothesis HD : positive dims.
Hypothesis Hw : forall m i, (m < nm)%nat -> (i < nR dims)%nat -> is_derive (w m i) t0 (dw m i).
Hypothesis Hk : forall k, (k < nK dims)%nat -> is_derive (kSq k) t0 (dk k).
Hypothesis HP : forall t, 0 < P t.

(** C66: one polymer, any tree of blocks, any grid, any change of the fields and
    of the cell.  [dKSq] is the derivative of |k|^2 with each wave of the half
    grid counted as often as in the full grid. *)
Theorem C66_polymer : forall y dKSq, validPoly nm y -> 0 < qOf y t0 ->
  (forall m, (m < nK dims)%nat -> dKSq m = c2rWeight dims m * dk m) ->
  exists dlq, is_derive (fun t => ln (qOf y t * P t)) t0 dlq /\
    y_phi y / y_size y * dlq =
    - average (nR dims) (fun x => rsum nm (fun m => monomerConc y m x t0 * dw m x)) / P t0 + - (stressOf dKSq y t0 / P t0).
Proof.
  intros y dKSq VY Q0 HdK. assert (RA := polymer_at y HD VY).
  set (Q := QAt dims (y_bs y) (y_es y) (y_pol y) w kSq) in *.
  assert (EQ : forall t, qOf y t = Q t / P t).
  { intros t. unfold qOf. rewrite (proj2 (RA t)). reflexivity. }
  assert (PP := HP t0).
  assert (QP : 0 < Q t0).
  { rewrite EQ in Q0. replace (Q t0) with (Q t0 / P t0 * P t0) by (field; lra). now apply Rmult_lt_0_compat. }
  assert (VY' := VY). destruct VY' as (HT & NE & HL & HB & fuel & Hf & HG).
  assert (HB' : Forall (fun b => (1 <= pb_nBead b)%nat) (y_bs y)) by (eapply Forall_impl; [|exact HB]; intros a [X _]; exact X).
  assert (HM : forall b, (b < length (y_es y))%nat -> (pb_monomer (pblockAt (y_bs y) b) < nm)%nat).
  { intros b Hb. rewrite Forall_forall in HB. apply HB. eapply block_in; eauto. }
  assert (DQ := Q_derivative dims (y_bs y) (y_es y) fuel (y_pol y) w dw kSq dk t0 HD HT NE HL HB' Hf HG
     (fun b i Hb Hi => Hw _ i (HM b Hb) Hi) Hk). fold Q in DQ.
  set (S0 := stAt dims (y_bs y) (y_es y) (y_pol y) w kSq t0) in *.
  match type of DQ with is_derive _ _ ?v => set (dQ := v) in * end.
  exists (dQ / Q t0). split.
  { apply (is_derive_ext (fun t => ln (Q t))).
    - intros t. rewrite EQ. f_equal. match goal with |- ?a = ?b => change (@eq R a b) end. field. assert (X := HP t). lra.
    - apply (is_derive_comp ln Q); auto. now apply is_derive_ln. }
  set (pre := y_phi y / (Q t0 / P t0 * y_size y)).
  assert (YS : 0 < y_size y).
  { assert (X := polymerSize_pos Bead 1 (y_bs y) HB'). unfold polymerSize, blockSize in X. apply X.
    intros E. rewrite E in HL. destruct (y_es y); [congruence|discriminate]. }
  (* propagators of each block *)
  assert (SB : forall b, (b < length (y_es y))%nat ->
    S0 (b, false) = Some (prop0 dims (y_bs y) (y_es y) (y_pol y) w kSq t0 b) /\
    S0 (b, true) = Some (prop1 dims (y_bs y) (y_es y) (y_pol y) w kSq t0 b)).
  { intros b Hb. unfold prop0, prop1. fold S0.
    assert (A := slices_of_head dims (y_bs y) (y_es y) fuel (y_pol y) w kSq HD HT NE HL HB' Hf HG t0 (b, false) Hb).
    assert (B := slices_of_head dims (y_bs y) (y_es y) fuel (y_pol y) w kSq HD HT NE HL HB' Hf HG t0 (b, true) Hb).
    fold S0 in A, B. rewrite A, B. auto. }
  assert (ST : stressOf dKSq y t0 = pre * rsum (length (y_es y)) (fun b => bondPart dims (y_bs y) (y_es y) (y_pol y) w kSq dk t0 b)).
  { unfold stressOf. rewrite (proj1 (RA t0)). unfold polymerStress, speciesOf. rewrite (proj2 (RA t0)). cbn [sp_phi sp_q]. fold S0.
    change (pBeads (y_bs y)) with (y_size y). fold pre. rewrite <- rsum_scal. apply rsum_ext. intros b Hb.
    destruct (SB b Hb) as [A B]. rewrite A, B. rewrite stress_prefactor. unfold bondPart. f_equal.
    apply stress_array. exact HdK. }
  assert (CN : average (nR dims) (fun x => rsum nm (fun m => monomerConc y m x t0 * dw m x))
     = pre * rsum (length (y_es y)) (fun b => fieldPart dims (y_bs y) (y_es y) (y_pol y) w dw kSq t0 b)).
  { rewrite <- rsum_scal.
    transitivity (rsum (length (y_es y)) (fun b => average (nR dims) (fun x => concOf y t0 b x * dw (pb_monomer (pblockAt (y_bs y) b)) x))).
    - unfold average, Rdiv. rewrite (rsum_scal_r (length (y_es y)) (/ INR (nR dims))).
      f_equal. symmetry. rewrite rsum_swap. apply rsum_ext. intros x _. symmetry. unfold monomerConc.
      rewrite (rsum_ext nm _ (fun m => rsum (length (y_es y)) (fun b =>
        if (pb_monomer (pblockAt (y_bs y) b) =? m)%nat then concOf y t0 b x * dw m x else 0))).
      2:{ intros m _. rewrite <- rsum_scal_r. apply rsum_ext. intros b _. destruct (_ =? _)%nat; ring. }
      rewrite rsum_swap. apply rsum_ext. intros b Hb.
      rewrite (rsum_single nm (pb_monomer (pblockAt (y_bs y) b))); [now rewrite Nat.eqb_refl|auto|].
      intros m _ N. destruct (Nat.eqb_spec (pb_monomer (pblockAt (y_bs y) b)) m); congruence.
    - apply rsum_ext. intros b Hb. unfold concOf. rewrite (proj2 (RA t0)). fold S0 pre.
      destruct (SB b Hb) as [A B]. rewrite A, B. unfold fieldPart, gridAvg, average, Rdiv.
      rewrite <- Rmult_assoc. f_equal. rewrite <- rsum_scal. apply rsum_ext. intros i _. unfold concBead. ring. }
  rewrite ST, CN. unfold dQ, pre. rewrite rsum_plus.
  set (A := rsum _ _). set (B := rsum _ _). field. repeat split; lra.
Qed.

(** All polymers of a mixture. *)
Theorem C66_polymers : forall np (y : nat -> polySpec) dKSq, (forall s, (s < np)%nat -> validPoly nm (y s) /\ 0 < qOf (y s) t0) ->
  (forall m, (m < nK dims)%nat -> dKSq m = c2rWeight dims m * dk m) ->
  exists dlq, (forall s, (s < np)%nat -> is_derive (fun t => ln (qOf (y s) t * P t)) t0 (dlq s)) /\
    responds (nR dims) nm np (fun s => y_phi (y s)) (fun s => y_size (y s)) P
      (fun m x t => rsum np (fun s => monomerConc (y s) m x t)) dlq dw
      (- mixtureStress np (fun s => stressOf dKSq (y s) t0) (P t0)) t0.
Proof.
  intros np y dKSq V HdK.
  exists (fun s => Derive (fun t => ln (qOf (y s) t * P t)) t0).
  assert (D : forall s, (s < np)%nat ->
    is_derive (fun t => ln (qOf (y s) t * P t)) t0 (Derive (fun t => ln (qOf (y s) t * P t)) t0) /\
    y_phi (y s) / y_size (y s) * Derive (fun t => ln (qOf (y s) t * P t)) t0 =
    - average (nR dims) (fun x => rsum nm (fun m => monomerConc (y s) m x t0 * dw m x)) / P t0 + - (stressOf dKSq (y s) t0 / P t0)).
  { intros s Hs. destruct (V s Hs) as [VY Q0]. destruct (C66_polymer (y s) dKSq VY Q0 HdK) as [d [A B]].
    replace (Derive (fun t => ln (qOf (y s) t * P t)) t0) with d by (symmetry; apply is_derive_unique; exact A). auto. }
  split; [intros s Hs; now apply D|]. unfold responds.
  rewrite (rsum_ext np _ _ (fun s Hs => proj2 (D s Hs))). rewrite rsum_plus, rsum_opp. unfold mixtureStress.
  rewrite (rsum_ext np (fun i => - average _ _ / P t0) (fun s => (- / P t0) * average (nR dims) (fun x => rsum nm (fun m => monomerConc (y s) m x t0 * dw m x))))
    by (intros; unfold Rdiv; ring).
  rewrite rsum_scal.
  assert (S : rsum np (fun s => stressOf dKSq (y s) t0 / P t0) = rsum np (fun s => stressOf dKSq (y s) t0) * / P t0)
    by (rewrite <- rsum_scal_r; reflexivity).
  rewrite S.
  assert (A : rsum np (fun s => average (nR dims) (fun x => rsum nm (fun m => monomerConc (y s) m x t0 * dw m x)))
     = average (nR dims) (fun x => rsum nm (fun m => rsum np (fun s => monomerConc (y s) m x t0) * dw m x))).
  { unfold average, Rdiv. rewrite (rsum_scal_r np (/ INR (nR dims))). f_equal. rewrite rsum_swap. apply rsum_ext. intros x _.
    rewrite rsum_swap. apply rsum_ext. intros m _. now rewrite rsum_scal_r. }
  rewrite A. unfold Rdiv. ring.
Qed.
End Path.

Lemma avg_ext : forall n g f, (forall k, (k < n)%nat -> f k = g k) -> average n f = average n g.
Proof. intros n g f H. unfold average. f_equal. now apply rsum_ext. Qed.

(** A solvent: monomer type, size, volume fraction (closed ensemble). *)
Record solvSpec := mkSolv { z_type : nat; z_size : R; z_phi : R }.

Section Mixture.
Variables (dims : list Z) (nm np ns : nat) (y : nat -> polySpec) (z : nat -> solvSpec) (P0 : R) (chi : nat -> nat -> R) (h : nat -> nat -> R).
Variables (w : nat -> nat -> R -> R) (kSq : nat -> R -> R).
Definition solventOf (v : solvSpec) (t : R) : species * field :=
  rpcSolvent (nR dims) (z_size v) (mkSpecies Closed (z_phi v) 0 0) (fun x => w (z_type v) x t) P0.
Definition totalConc (m x : nat) (t : R) : R :=
  rsum np (fun s => monomerConc dims w kSq (fun _ => P0) (y s) m x t)
  + rsum ns (fun s => if (z_type (z s) =? m)%nat then snd (solventOf (z s) t) x else 0).
(** The free energy with the chemical potentials and the concentrations that the
    solver computes for the fields and the cell of parameter t. *)
Definition speciesData_ (t : R) (s : nat) : speciesData :=
  if (s <? np)%nat then mkSpeciesData (y_phi (y s)) (sp_mu (speciesOf dims w kSq (fun _ => P0) (y s) t)) (y_size (y s))
  else mkSpeciesData (z_phi (z (s - np))) (sp_mu (fst (solventOf (z (s - np)) t))) (z_size (z (s - np))).
Definition energyAt (t : R) : R :=
  freeEnergy (nR dims) nm (np + ns) chi P0 (speciesData_ t) (fun i x => w i x t) h (fun i x => totalConc i x t).
Definition stressAt (dKSq : nat -> R) (t : R) : R :=
  mixtureStress np (fun s => stressOf dims w kSq (fun _ => P0) dKSq (y s) t) P0.

(** The stress is the exact derivative of the free energy along any path of
    solutions of the self-consistent field equations, with dKSq as in C66_polymer. *)
Theorem C66_stress : forall (dw dc : nat -> nat -> R) (dk xi rho : nat -> R) (dKSq : nat -> R) t0,
  positive dims -> 0 < P0 ->
  (forall m i, (m < nm)%nat -> (i < nR dims)%nat -> is_derive (w m i) t0 (dw m i)) ->
  (forall m i, (m < nm)%nat -> (i < nR dims)%nat -> is_derive (totalConc m i) t0 (dc m i)) ->
  (forall k, (k < nK dims)%nat -> is_derive (kSq k) t0 (dk k)) ->
  (forall s, (s < np)%nat -> validPoly nm (y s) /\ 0 < y_phi (y s) /\ forall t, 0 < qOf dims w kSq (fun _ => P0) (y s) t) ->
  (forall s, (s < ns)%nat -> (z_type (z s) < nm)%nat /\ 0 < z_size (z s) /\ 0 < z_phi (z s)) ->
  (forall m, (m < nK dims)%nat -> dKSq m = c2rWeight dims m * dk m) ->
  (* the fields satisfy the self-consistent field equations at t0, and the
     concentrations fill the accessible volume at every t *)
  (forall i j, (i < nm)%nat -> (j < nm)%nat -> chi i j = chi j i) ->
  (forall i x, (i < nm)%nat -> (x < nR dims)%nat -> w i x t0 = h i x + rsum nm (fun j => chi i j * totalConc j x t0) + xi x) ->
  (forall t x, (x < nR dims)%nat -> rsum nm (fun i => totalConc i x t) = rho x) ->
  is_derive energyAt t0 (stressAt dKSq t0).
Proof.
  intros dw dc dk xi rho dKSq t0 HD PP Hw Hc Hk HY HZ HdK SY EQ INC.
  assert (NP : (0 < nR dims)%nat) by (apply INR_lt; change (INR 0) with 0; apply INR_nR; exact HD).
  destruct (C66_polymers dims nm w kSq (fun _ => P0) dw dk t0 HD Hw Hk (fun _ => PP) np y dKSq
     (fun s Hs => conj (proj1 (HY s Hs)) (proj2 (proj2 (HY s Hs)) t0)) HdK) as [dl1 [D1 R1]].
  assert (NZ : P0 <> 0) by lra.
  destruct (C65_solvents (nR dims) nm ns (fun s => z_type (z s)) (fun s => z_phi (z s)) (fun s => z_size (z s)) w dw P0 t0
     (fun m x t => rsum ns (fun s => if (z_type (z s) =? m)%nat then snd (solventOf (z s) t) x else 0)) NP NZ) as (lq & dl2 & Q2 & D2 & R2); auto.
  { intros s Hs. destruct (HZ s Hs) as (A & B & _). split; auto. lra. }
  set (phi := fun s => if (s <? np)%nat then y_phi (y s) else z_phi (z (s - np)%nat)).
  set (size := fun s => if (s <? np)%nat then y_size (y s) else z_size (z (s - np)%nat)).
  set (lqa := fun s t => if (s <? np)%nat then ln (qOf dims w kSq (fun _ => P0) (y s) t * P0) else lq (s - np)%nat t).
  set (dl := fun s => if (s <? np)%nat then dl1 s else dl2 (s - np)%nat).
  assert (LT : forall s, (s < np)%nat -> (s <? np)%nat = true) by (intros; now apply Nat.ltb_lt).
  assert (GE : forall s, (np + s <? np)%nat = false) by (intros; apply Nat.ltb_ge; lia).
  assert (RE : responds (nR dims) nm (np + ns) phi size (fun _ => P0) totalConc dl dw (- stressAt dKSq t0) t0).
  { unfold responds in *. rewrite rsum_add.
    rewrite (rsum_ext np _ (fun s => y_phi (y s) / y_size (y s) * dl1 s)) by (intros s Hs; unfold phi, size, dl; now rewrite LT).
    rewrite (rsum_ext ns _ (fun s => z_phi (z s) / z_size (z s) * dl2 s))
      by (intros s Hs; unfold phi, size, dl; rewrite GE; now replace (np + s - np)%nat with s by lia).
    rewrite R1, R2. unfold totalConc.
    rewrite (avg_ext (nR dims) (fun x => rsum nm (fun i => rsum np (fun s => monomerConc dims w kSq (fun _ => P0) (y s) i x t0) * dw i x)
        + rsum nm (fun i => rsum ns (fun s => if (z_type (z s) =? i)%nat then snd (solventOf (z s) t0) x else 0) * dw i x))
      (fun x => rsum nm (fun i => (rsum np (fun s => monomerConc dims w kSq (fun _ => P0) (y s) i x t0)
        + rsum ns (fun s => if (z_type (z s) =? i)%nat then snd (solventOf (z s) t0) x else 0)) * dw i x))).
    2:{ intros x _. rewrite <- rsum_plus. apply rsum_ext. intros. ring. }
    unfold stressAt, average. rewrite rsum_plus. set (A := rsum _ _). set (B := rsum _ _).
    field. split; [apply not_0_INR; lia|lra]. }
  assert (SM : smooth (nR dims) nm (np + ns) (fun i j _ => chi i j) (fun _ => P0) lqa w (fun i x _ => h i x) totalConc (fun x _ => rho x)
    (fun _ _ => 0) 0 dl dw (fun _ _ => 0) dc (fun _ => 0) t0).
  { unfold smooth. split; [exact PP|]. split; [apply @is_derive_const|]. split; [|split; [|split]].
    - intros s Hs. unfold lqa, dl. destruct (Nat.ltb_spec s np).
      + apply D1. auto.
      + apply D2. lia.
    - intros. apply @is_derive_const.
    - intros i x I X. split; [auto|]. split; [apply @is_derive_const|auto].
    - intros. apply @is_derive_const. }
  assert (SC : selfConsistent (nR dims) nm (fun i j _ => chi i j) w (fun i x _ => h i x) totalConc (fun x _ => rho x) xi t0).
  { unfold selfConsistent. auto. }
  assert (DE := C65_response _ _ _ _ _ _ _ _ _ _ _ _ _ _ _ _ _ _ _ _ _ _ SM RE SC).
  apply (is_derive_ext _ energyAt) in DE.
  - match type of DE with is_derive _ _ ?v => replace v with (stressAt dKSq t0) in DE; [exact DE|] end.
    assert (Z : average (nR dims) (fun x => rsum nm (fun i => 0 * totalConc i x t0)
       + 1 / 2 * rsum nm (fun i => rsum nm (fun j => 0 * totalConc i x t0 * totalConc j x t0)) - xi x * 0) = 0).
    { unfold average. rewrite (rsum_ext _ _ (fun _ => 0)).
      - rewrite rsum_zero. unfold Rdiv. ring.
      - intros x _. rewrite (rsum_ext nm (fun i => 0 * _) (fun _ => 0)) by (intros; ring). rewrite rsum_zero.
        rewrite (rsum_ext nm (fun i => rsum nm _) (fun _ => 0)).
        + rewrite rsum_zero. ring.
        + intros i _. rewrite (rsum_ext nm _ (fun _ => 0)) by (intros; ring). apply rsum_zero. }
    rewrite Z. field. lra.
  - intro t. unfold pathEnergy, energyAt, freeEnergy. f_equal. unfold translational. apply rsum_ext. intros s Hs.
    unfold speciesAt, speciesData_, phi, size, lqa. cbn [dPhi dMu dSize]. destruct (Nat.ltb_spec s np) as [L|L]; cbn [dPhi dMu dSize].
    + destruct (HY s L) as (VY & PH & QP). specialize (QP t).
      assert (M : sp_mu (speciesOf dims w kSq (fun _ => P0) (y s) t) = ln (y_phi (y s) / qOf dims w kSq (fun _ => P0) (y s) t)).
      { unfold speciesOf, qOf. rewrite (proj2 (polymer_at dims nm w kSq (fun _ => P0) (y s) HD VY t)). reflexivity. }
      rewrite M, ln_div by auto. rewrite ln_mult by auto. f_equal. ring.
    + assert (Q := Q2 (s - np)%nat t ltac:(lia)). destruct (HZ (s - np)%nat ltac:(lia)) as (_ & _ & PH).
      assert (M : sp_mu (fst (solventOf (z (s - np)%nat) t)) = ln (z_phi (z (s - np)%nat) / sp_q (fst (solventOf (z (s - np)%nat) t)))) by reflexivity.
      rewrite M. unfold solventOf in Q |- *. rewrite Q. assert (EP := exp_pos (lq (s - np)%nat t)).
      replace (z_phi (z (s - np)%nat) / (exp (lq (s - np)%nat t) / P0)) with (z_phi (z (s - np)%nat) * P0 * / exp (lq (s - np)%nat t)) by (field; lra).
      rewrite ln_mult, ln_Rinv, ln_mult, ln_exp; auto.
      * f_equal. ring.
      * now apply Rmult_lt_0_compat.
      * now apply Rinv_0_lt_compat.
Qed.
End Mixture.

(** What the code uses instead of dKSq: WaveList doubles the waves for which
    hasImplicitInverse is true, and misses those with last index n - n/2 - 1. *)
Definition missedWave (dims : list Z) (m : nat) : bool :=
  let k := gridPos (computeKMesh dims) m in
  negb (last k 0 =? 0)%Z && (last dims 0 - last k 0 =? last dims 0 / 2 + 1)%Z.

Lemma waveDKSq_missed : forall dims dk m, dims <> [] -> positive dims -> (m < nK dims)%nat ->
  waveDKSq dims dk m = c2rWeight dims m * dk m + -1 * (if missedWave dims m then dk m else 0).
Proof.
  intros dims dk m NE HD Hm. unfold waveDKSq, missedWave, c2rWeight, hasImplicitInverse.
  set (k := gridPos (computeKMesh dims) m).
  assert (P : (0 < last dims 0)%Z).
  { destruct (snoc_cases dims NE) as [ds [n ->]]. rewrite last_snoc. apply Forall_app in HD.
    destruct HD as [_ HP]. inversion HP; auto. }
  rewrite Z.quot_div_nonneg by lia.
  assert (B : (0 <= last k 0 <= last dims 0 / 2)%Z).
  { assert (K := gridPos_in_box (computeKMesh dims) m (kmesh_positive _ HD) Hm). fold k in K.
    destruct (snoc_cases dims NE) as [ds [n E]]. rewrite E in *. rewrite last_snoc in *.
    rewrite computeKMesh_snoc in K. apply in_box_snoc in K. destruct K as (q & l & Ek & _ & Bl). rewrite Ek, last_snoc.
    rewrite Z.quot_div_nonneg in Bl by lia. lia. }
  assert (D : (2 * (last dims 0 / 2) <= last dims 0 < 2 * (last dims 0 / 2) + 2)%Z) by (Z.div_mod_to_equations; lia).
  destruct (Z.eqb_spec (last k 0%Z) 0); destruct (Z.eqb_spec (2 * last k 0%Z) (last dims 0%Z));
  destruct (Z.ltb_spec (last dims 0%Z / 2 + 1) (last dims 0%Z - last k 0%Z));
  destruct (Z.eqb_spec (last dims 0%Z - last k 0%Z) (last dims 0%Z / 2 + 1)); cbn [negb andb orb]; try lra; lia.
Qed.

(** The coded stress lacks the contribution of the missed waves. *)
Theorem C66_code : forall dims np y P0 w kSq dk t, dims <> [] -> positive dims ->
  stressAt dims np y P0 w kSq (waveDKSq dims dk) t =
  stressAt dims np y P0 w kSq (fun m => c2rWeight dims m * dk m) t
  - stressAt dims np y P0 w kSq (fun m => if missedWave dims m then dk m else 0) t.
Proof.
  intros dims np y P0 w kSq dk t NE HD. unfold stressAt, mixtureStress, Rdiv.
  rewrite <- Rmult_minus_distr_r, <- rsum_minus. f_equal. apply rsum_ext. intros s _. unfold stressOf.
  destruct (propsAt dims w kSq (y s) t) as [st| | |]; try lra. unfold polymerStress. rewrite <- rsum_minus. apply rsum_ext. intros b _.
  destruct (st (b, false)) as [l0|]; [|lra]. destruct (st (b, true)) as [l1|]; [|lra].
  rewrite (stress_array dims kSq t (waveDKSq dims dk) (fun m => c2rWeight dims m * dk m + -1 * (if missedWave dims m then dk m else 0)))
    by (intros; now apply waveDKSq_missed).
  rewrite stress_linear. ring.
Qed.

(** The coded stress is right where the missed waves do not depend on the
    parameter, in particular on grids of at most two points in the last direction. *)
Theorem C66_code_exact : forall dims np y P0 w kSq dk t, dims <> [] -> positive dims ->
  (forall m, (m < nK dims)%nat -> missedWave dims m = true -> dk m = 0) \/ (last dims 0 <= 2)%Z ->
  stressAt dims np y P0 w kSq (waveDKSq dims dk) t = stressAt dims np y P0 w kSq (fun m => c2rWeight dims m * dk m) t.
Proof.
  intros dims np y P0 w kSq dk t NE HD H. unfold stressAt. f_equal. apply functional_extensionality. intros s. unfold stressOf.
  destruct (propsAt dims w kSq (y s) t) as [st| | |]; auto. unfold polymerStress. apply rsum_ext. intros b _.
  destruct (st (b, false)) as [l0|]; auto. destruct (st (b, true)) as [l1|]; auto.
  apply stress_array. intros m Hm. rewrite waveDKSq_missed by auto.
  destruct (missedWave dims m) eqn:E; [|ring]. destruct H as [H|H]; [rewrite (H m Hm E); ring|]. exfalso.
  unfold missedWave in E. set (k := gridPos (computeKMesh dims) m) in E. clearbody k. apply andb_prop in E. destruct E as [E1 E2]. apply negb_true_iff, Z.eqb_neq in E1. apply Z.eqb_eq in E2.
  assert (P : (0 < last dims 0)%Z).
  { destruct (snoc_cases dims NE) as [ds [n ->]]. rewrite last_snoc. apply Forall_app in HD.
    destruct HD as [_ HP]. inversion HP; auto. }
  assert (last dims 0 = 1 \/ last dims 0 = 2)%Z as [X|X] by lia; rewrite X in E2; [change (1 / 2)%Z with 0%Z in E2|change (2 / 2)%Z with 1%Z in E2]; lia.
Qed.

(** A dimer of two beads; on a grid of four points in one dimension, in a cell of
    length t. *)
Definition exDimer : polySpec :=
  mkPoly [(0,1)%nat] [mkPBlock 0 2 1 0] (match readGraph 2 [(0,1)%nat] with Ok p => p | _ => mkPolymer [] [] [] [] end) 1.
Lemma exDimer_valid : validPoly 1 exDimer.
Proof.
  assert (G : readGraph 2 [(0,1)%nat] = Ok (y_pol exDimer)) by (vm_compute; reflexivity).
  unfold validPoly. cbn [exDimer y_es y_bs y_pol]. split; [exact (readGraph_sound_lemma _ _ _ G)|].
  split; [discriminate|]. split; [reflexivity|]. split; [repeat constructor|].
  exists 2%nat. split; [reflexivity|exact G].
Qed.
Lemma exDimer_size : y_size exDimer = 2.
Proof. unfold y_size, exDimer. cbn. lra. Qed.

Section Dimer.
Variables (dims : list Z) (w : nat -> nat -> R -> R) (kSq : nat -> R -> R) (P : R -> R) (t : R).
Hypothesis HD : positive dims.
Definition boltz (i : nat) : R := exp (- w 0%nat i t).
Definition dimerQ : R := waveSum dims (fun m => c2rWeight dims m * expKsq (fun k => kSq k t) Bead 1 1 m) boltz boltz.

Lemma dimer_slices : forall b : bool, exists h, (forall i, h i = 1) /\
  stAt dims (y_bs exDimer) (y_es exDimer) (y_pol exDimer) w kSq t (0%nat, b)
  = Some (beadSlices dims (fun k => kSq k t) 2 1 (fun i => w 0%nat i t) true true h).
Proof.
  intros b. destruct exDimer_valid as (HT & NE & HL & HB & fuel & Hf & HG).
  assert (HB' : Forall (fun b => (1 <= pb_nBead b)%nat) (y_bs exDimer)) by (eapply Forall_impl; [|exact HB]; intros a [X _]; exact X).
  assert (Px : is_prop (y_es exDimer) (0%nat, b)) by (unfold is_prop; cbn; lia).
  assert (A := slices_of_head dims _ _ fuel _ w kSq HD HT NE HL HB' Hf HG t (0%nat, b) Px).
  assert (H := fun i => head_product dims _ _ fuel _ w kSq HD HT NE HL HB' Hf HG (0%nat, b) t i Px).
  assert (E1 : sources (y_es exDimer) (p_vertices (y_pol exDimer)) (0%nat, b) = []) by (destruct b; vm_compute; reflexivity).
  assert (E2 : isHeadEnd (y_es exDimer) (p_vertices (y_pol exDimer)) (0%nat, b) = true) by (destruct b; vm_compute; reflexivity).
  assert (E3 : isTailEnd (y_es exDimer) (p_vertices (y_pol exDimer)) (0%nat, b) = true) by (destruct b; vm_compute; reflexivity).
  rewrite E1 in H. rewrite E2, E3 in A. eexists. split; [exact H|]. exact A.
Qed.

Lemma waveSum_fields : forall e f f' g g', (forall i, f i = f' i) -> (forall i, g i = g' i) -> waveSum dims e f g = waveSum dims e f' g'.
Proof.
  intros e f f' g g' F G. unfold waveSum, fftForward. apply rsum_ext. intros m _. cbn [fst snd].
  rewrite !(rsum_ext (nR dims) (fun r => f r * _) (fun r => f' r * _)) by (intros; rewrite F; reflexivity).
  rewrite !(rsum_ext (nR dims) (fun r => g r * _) (fun r => g' r * _)) by (intros; rewrite G; reflexivity). reflexivity.
Qed.

Lemma slice1 : forall h, (forall i, h i = 1) ->
  forall i, qAt (beadSlices dims (fun k => kSq k t) 2 1 (fun i => w 0%nat i t) true true h) 1 i = boltz i.
Proof. intros h H i. unfold beadSlices, qAt. cbn. unfold stepFieldB, expW, boltz. rewrite H. ring. Qed.

Lemma dimer_Q : QAt dims (y_bs exDimer) (y_es exDimer) (y_pol exDimer) w kSq t = dimerQ.
Proof.
  destruct exDimer_valid as (HT & NE & HL & HB & fuel & Hf & HG).
  assert (HB' : Forall (fun b => (1 <= pb_nBead b)%nat) (y_bs exDimer)) by (eapply Forall_impl; [|exact HB]; intros a [X _]; exact X).
  assert (Px : is_prop (y_es exDimer) (0%nat, false)) by (unfold is_prop; cbn; lia).
  destruct (at_facts dims _ _ fuel _ w kSq HD HT NE HL HB' Hf HG t) as [_ [_ F]]. destruct (F _ Px) as [_ <-].
  destruct (dimer_slices false) as [h0 [H0 S0]]. destruct (dimer_slices true) as [h1 [H1 S1]].
  unfold headF, tailF, partner. cbn [negb fst snd]. rewrite S0, S1.
  unfold dimerQ. rewrite <- kOp_parseval. rewrite last_beadSlices by lia.
  unfold wavg. apply rsum_ext. intros i _. cbn [hd beadSlices]. rewrite H0.
  unfold endOp. cbn [Nat.iter Nat.sub nat_rect]. unfold stepBead, stepBond. unfold stepFieldB at 1.
  replace (stepFieldB (fun i0 : nat => w 0%nat i0 t) h1) with boltz.
  2:{ apply functional_extensionality. intros r. unfold stepFieldB, expW, boltz. rewrite H1. ring. }
  unfold expW. fold (boltz i). ring.
Qed.

Lemma dimer_q : P t <> 0 -> qOf dims w kSq P exDimer t = dimerQ / P t.
Proof.
  intros _. unfold qOf. rewrite (proj2 (polymer_at dims 1 w kSq P exDimer HD exDimer_valid t)). cbn [sp_q]. now rewrite dimer_Q.
Qed.

Lemma dimer_stress : forall dKSq, P t <> 0 -> dimerQ <> 0 ->
  stressOf dims w kSq P dKSq exDimer t =
  P t / (12 * dimerQ) * waveSum dims (fun m => dKSq m * expKsq (fun k => kSq k t) Bead 1 1 m) boltz boltz.
Proof.
  intros dKSq PN QN. unfold stressOf.
  destruct (polymer_at dims 1 w kSq P exDimer HD exDimer_valid t) as [A B]. rewrite A. unfold polymerStress.
  unfold speciesOf. rewrite B. cbn [sp_phi sp_q].
  change (length (y_es exDimer)) with 1%nat. cbn [rsum].
  destruct (dimer_slices false) as [h0 [H0 S0]]. destruct (dimer_slices true) as [h1 [H1 S1]].
  rewrite S0, S1. rewrite dimer_Q. change (pBeads (y_bs exDimer)) with (y_size exDimer). rewrite exDimer_size.
  change (y_phi exDimer) with 1.
  change (pNs Bead 1 (y_bs exDimer) 0) with 4%nat. change (pb_kuhn (pblockAt (y_bs exDimer) 0)) with 1.
  replace (isHeadEnd (y_es exDimer) (p_vertices (y_pol exDimer)) (0%nat, false)) with true by (vm_compute; reflexivity).
  replace (isTailEnd (y_es exDimer) (p_vertices (y_pol exDimer)) (0%nat, false)) with true by (vm_compute; reflexivity).
  unfold blockStressBead. cbn [rsum Nat.sub].
  rewrite (waveSum_fields (fun m => dKSq m * expKsq (fun k => kSq k t) Bead 1 1 m) _ boltz _ boltz (slice1 h0 H0) (slice1 h1 H1)).
  field. auto.
Qed.
End Dimer.

(** The dimer in a cell of length t, with a field that is not zero at one point. *)
Definition exW (m i : nat) (t : R) : R := if (i =? 0)%nat then - ln 2 else 0.
Definition exKSq (m : nat) (t : R) : R := (2 * PI * INR m / t) ^ 2.
Definition exDk (m : nat) : R := - 2 * (2 * PI * INR m) ^ 2.

Lemma exDk_derive : forall m, is_derive (exKSq m) 1 (exDk m).
Proof. intros m. unfold exKSq, exDk. auto_derive; [lra|]. field. Qed.

Lemma ex_transform : forall t, fftForward [4%Z] (boltz exW t) 0 = (5 / 4, 0) /\ fftForward [4%Z] (boltz exW t) 1 = (1 / 4, 0).
Proof.
  intros t.
  assert (B : forall i, boltz exW t i = if (i =? 0)%nat then 2 else 1).
  { intros i. unfold boltz, exW. destruct (i =? 0)%nat; [rewrite Ropp_involutive, exp_ln; lra|rewrite Ropp_0; apply exp_0]. }
  unfold fftForward. change (nR [4%Z]) with 4%nat. cbn [rsum]. rewrite !B. cbn [Nat.eqb].
  assert (T0 : forall r, (r < 4)%nat -> theta [4%Z] 0 r = 0).
  { intros r Hr. destruct r as [|[|[|[|r]]]]; try lia; unfold theta; cbn [gridPos]; cbv - [Rplus Rmult Rdiv PI IZR]; lra. }
  assert (T1 : theta [4%Z] 1 0 = 0 /\ theta [4%Z] 1 1 = PI / 2 /\ theta [4%Z] 1 2 = PI /\ theta [4%Z] 1 3 = 3 * (PI / 2)).
  { repeat split; unfold theta; cbv - [Rplus Rmult Rdiv PI IZR]; lra. }
  rewrite !T0 by lia. destruct T1 as (-> & -> & -> & ->).
  rewrite cos_0, sin_0, cos_PI2, sin_PI2, cos_PI, sin_PI.
  replace (INR 4) with 4 by (cbn; lra).
  assert (C3 := cos_3PI2). assert (S3 := sin_3PI2). rewrite C3, S3.
  split; f_equal; field.
Qed.

Lemma exDimer_Q : forall t, 0 < dimerQ [4%Z] exW exKSq t.
Proof.
  intros t. unfold dimerQ, waveSum. change (nK [4%Z]) with 3%nat.
  assert (E : forall m, 0 < c2rWeight [4%Z] m * expKsq (fun k => exKSq k t) Bead 1 1 m).
  { intros m. apply Rmult_lt_0_compat; [unfold c2rWeight; destruct (_ || _); lra|apply exp_pos]. }
  rewrite rsum_S_first. rewrite (proj1 (ex_transform t)). cbn [fst snd].
  apply Rplus_lt_le_0_compat.
  - apply Rmult_lt_0_compat; [lra|apply E].
  - apply rsum_pos_le. intros m _. apply Rmult_le_pos; [|apply Rlt_le, E]. nra.
Qed.

Lemma ex_positive : positive [4%Z].
Proof. repeat constructor. Qed.
Lemma exDimer_q : forall t, 0 < qOf [4%Z] exW exKSq (fun _ => 1) exDimer t.
Proof. intros t. rewrite (dimer_q _ _ _ _ _ ex_positive) by (cbv beta; lra). cbv beta. unfold Rdiv. rewrite Rinv_1, Rmult_1_r. apply exDimer_Q. Qed.

Lemma exDimer_missed : stressOf [4%Z] exW exKSq (fun _ => 1) (fun m => if missedWave [4%Z] m then exDk m else 0) exDimer 1 < 0.
Proof.
  assert (Q := exDimer_Q 1). rewrite (dimer_stress _ _ _ _ _ ex_positive) by (cbv beta; lra). cbv beta.
  assert (F : 0 < 1 / (12 * dimerQ [4%Z] exW exKSq 1)) by (apply Rdiv_lt_0_compat; lra).
  assert (WS : waveSum [4%Z] (fun m => (if missedWave [4%Z] m then exDk m else 0) * expKsq (fun k => exKSq k 1) Bead 1 1 m)
     (boltz exW 1) (boltz exW 1) = 1 / 16 * (exDk 1 * expKsq (fun k => exKSq k 1) Bead 1 1 1)).
  { unfold waveSum. change (nK [4%Z]) with 3%nat. rewrite (rsum_single 3 1); [|lia|].
    - rewrite (proj2 (ex_transform 1)). cbn [fst snd]. change (missedWave [4%Z] 1) with true. cbv iota. field.
    - intros m Hm N. replace (missedWave [4%Z] m) with false; [ring|]. destruct m as [|[|[|m]]]; try lia; vm_compute; reflexivity. }
  rewrite WS.
  assert (K : exDk 1 < 0).
  { unfold exDk. assert (PP := PI_RGT_0). change (INR 1) with 1. assert (0 < (2 * PI * 1) ^ 2) by (apply pow_lt; lra). lra. }
  assert (E := exp_pos (exKSq 1 1 * bSqFactor Bead 1 1)). change (exp (exKSq 1 1 * bSqFactor Bead 1 1)) with (expKsq (fun k => exKSq k 1) Bead 1 1 1) in E.
  set (e := expKsq _ _ _ _ _) in *. set (f := 1 / (12 * _)) in *. clearbody e f.
  assert (A : 0 < f * (- exDk 1 * e)) by (apply Rmult_lt_0_compat; [|apply Rmult_lt_0_compat]; lra). lra.
Qed.

(** So the stress that the code reports is not the derivative, here of a single
    molecule in fixed fields; and every grid of three or more points in the last
    direction has such waves (C24). *)
Theorem C66_polymer_refuted : exists dims y w kSq dk dlq, dims <> [] /\ positive dims /\ validPoly 1 y /\
  (forall t, 0 < qOf dims w kSq (fun _ => 1) y t) /\
  (forall m i t, is_derive (w m i) t 0) /\
  (forall m, (m < nK dims)%nat -> is_derive (kSq m) 1 (dk m)) /\
  is_derive (fun t => ln (qOf dims w kSq (fun _ => 1) y t * 1)) 1 dlq /\
  y_phi y / y_size y * dlq <> - stressOf dims w kSq (fun _ => 1) (waveDKSq dims dk) y 1.
Proof.
  assert (W0 : forall m i t, is_derive (exW m i) t 0) by (intros m i t; unfold exW; apply @is_derive_const).
  destruct (C66_polymer [4%Z] 1 exW exKSq (fun _ => 1) (fun _ _ => 0) exDk 1 ex_positive (fun m i _ _ => W0 m i 1) (fun k _ => exDk_derive k)
    (fun _ => Rlt_0_1) exDimer (fun m => c2rWeight [4%Z] m * exDk m) exDimer_valid (exDimer_q 1) (fun _ _ => eq_refl)) as [dlq [D E]].
  exists [4%Z], exDimer, exW, exKSq, exDk, dlq. split; [discriminate|]. split; [exact ex_positive|]. split; [exact exDimer_valid|].
  split; [exact exDimer_q|]. split; [exact W0|]. split; [intros; apply exDk_derive|]. split; [exact D|].
  rewrite E. assert (M := exDimer_missed).
  assert (C := C66_code [4%Z] 1 (fun _ => exDimer) 1 exW exKSq exDk 1 ltac:(discriminate) ex_positive).
  unfold stressAt, mixtureStress in C. cbn [rsum] in C. unfold Rdiv in C. rewrite Rinv_1, !Rmult_1_r, !Rplus_0_l in C. rewrite C.
  assert (Z : average (nR [4%Z]) (fun x => rsum 1 (fun m => monomerConc [4%Z] exW exKSq (fun _ => 1) exDimer m x 1 * 0)) = 0).
  { unfold average. rewrite (rsum_ext _ _ (fun _ => 0)) by (intros; cbn [rsum]; ring). rewrite rsum_zero. unfold Rdiv. ring. }
  rewrite Z. unfold Rdiv. rewrite Rinv_1. lra.
Qed.

(** In a unit cell with lattice parameters p, when parameter j changes while the
    shortest image of each wave stays the same. *)
Theorem C66_lattice : forall dims nm np ns y z P0 chi h w l p j (v : nat -> nat -> Z) dw dc xi rho,
  let kSq := fun m t => ksq (dim l) (kBasis l (fun i => if Nat.eqb i j then t else p i)) (v m) in
  let dk := fun m => dksq (dim l) (dkkBasis l p) (v m) j in
  (j < nParam l)%nat -> volume l p <> 0 ->
  match l with Oblique => j = 0%nat | Monoclinic => j <> 3%nat | Rhombohedral => j = 0%nat | _ => True end ->
  dims <> [] -> positive dims -> 0 < P0 ->
  (forall m i, (m < nm)%nat -> (i < nR dims)%nat -> is_derive (w m i) (p j) (dw m i)) ->
  (forall m i, (m < nm)%nat -> (i < nR dims)%nat -> is_derive (totalConc dims np ns y z P0 w kSq m i) (p j) (dc m i)) ->
  (forall s, (s < np)%nat -> validPoly nm (y s) /\ 0 < y_phi (y s) /\ forall t, 0 < qOf dims w kSq (fun _ => P0) (y s) t) ->
  (forall s, (s < ns)%nat -> (z_type (z s) < nm)%nat /\ 0 < z_size (z s) /\ 0 < z_phi (z s)) ->
  (forall i i', (i < nm)%nat -> (i' < nm)%nat -> chi i i' = chi i' i) ->
  (forall i x, (i < nm)%nat -> (x < nR dims)%nat -> w i x (p j) = h i x + rsum nm (fun i' => chi i i' * totalConc dims np ns y z P0 w kSq i' x (p j)) + xi x) ->
  (forall t x, (x < nR dims)%nat -> rsum nm (fun i => totalConc dims np ns y z P0 w kSq i x t) = rho x) ->
  is_derive (energyAt dims nm np ns y z P0 chi h w kSq) (p j)
    (stressAt dims np y P0 w kSq (waveDKSq dims dk) (p j)
     + stressAt dims np y P0 w kSq (fun m => if missedWave dims m then dk m else 0) (p j)).
Proof.
  intros dims nm np ns y z P0 chi h w l p j v dw dc xi rho kSq dk Hj HV HO NE HD PP Hw Hc HY HZ SY EQ INC.
  replace (_ + _) with (stressAt dims np y P0 w kSq (fun m => c2rWeight dims m * dk m) (p j))
    by (rewrite (C66_code dims np y P0 w kSq dk (p j) NE HD); ring).
  eapply C66_stress; eauto. intros m _.
  exact (proj2 (dksq_correct_partial l p j (v m) Hj HV HO)).
Qed.

(** A path that meets the hypotheses of [C66_stress]: the dimer on two grid points,
    with fields and a wavenumber that change together so that the concentrations
    stay 3/2 and 1/2. *)
Definition pathS (t : R) : R := 1 / 3 + sin t / 20.
Definition pathE (t : R) : R := (1 / 2 - pathS t) / (pathS t * (1 - pathS t / 2)).
Definition pathW (m i : nat) (t : R) : R := - ln (if (i =? 0)%nat then 1 + pathS t else 1 - pathS t).
Definition pathK (m : nat) (t : R) : R := if (m =? 0)%nat then 0 else - 6 * ln (pathE t).

Lemma pathS_range : forall t, 17 / 60 <= pathS t <= 23 / 60.
Proof. intros t. unfold pathS. destruct (SIN_bound t). lra. Qed.
Lemma pathE_range : forall t, 0 < pathE t < 1.
Proof.
  intros t. destruct (pathS_range t). unfold pathE. set (s := pathS t) in *. assert (D : 0 < s * (1 - s / 2)) by (apply Rmult_lt_0_compat; lra).
  split.
  - apply Rdiv_lt_0_compat; lra.
  - apply (Rmult_lt_reg_r (s * (1 - s / 2))); auto. unfold Rdiv at 1. rewrite Rmult_assoc, Rinv_l by lra.
    assert (s * s <= s * (23 / 60)) by (apply Rmult_le_compat_l; lra). lra.
Qed.
Lemma path_boltz : forall t i, boltz pathW t i = if (i =? 0)%nat then 1 + pathS t else 1 - pathS t.
Proof.
  intros t i. destruct (pathS_range t). unfold boltz, pathW. rewrite Ropp_involutive. apply exp_ln. destruct (i =? 0)%nat; lra.
Qed.
Lemma path_exp : forall t m, expKsq (fun k => pathK k t) Bead 1 1 m = if (m =? 0)%nat then 1 else pathE t.
Proof.
  intros t m. unfold expKsq, pathK, bSqFactor. destruct (m =? 0)%nat.
  - rewrite Rmult_0_l. apply exp_0.
  - replace (-6 * ln (pathE t) * (-1 * 1 * 1 / 6)) with (ln (pathE t)) by field. apply exp_ln, pathE_range.
Qed.
Lemma two_positive : positive [2%Z].
Proof. repeat constructor. Qed.
Lemma path_theta : theta [2%Z] 0 0 = 0 /\ theta [2%Z] 0 1 = 0 /\ theta [2%Z] 1 0 = 0 /\ theta [2%Z] 1 1 = PI.
Proof. repeat split; unfold theta; cbv - [Rplus Rmult Rdiv PI IZR]; lra. Qed.
Lemma path_transform : forall t, fftForward [2%Z] (boltz pathW t) 0 = (1, 0) /\ fftForward [2%Z] (boltz pathW t) 1 = (pathS t, 0).
Proof.
  intros t. unfold fftForward. change (nR [2%Z]) with 2%nat. cbn [rsum]. rewrite !path_boltz. cbn [Nat.eqb].
  destruct path_theta as (-> & -> & -> & ->). rewrite cos_0, sin_0, cos_PI, sin_PI. replace (INR 2) with 2 by (cbn; lra).
  split; f_equal; field.
Qed.
Lemma path_Q : forall t, dimerQ [2%Z] pathW pathK t = 1 + pathE t * pathS t * pathS t.
Proof.
  intros t. unfold dimerQ, waveSum. change (nK [2%Z]) with 2%nat. cbn [rsum]. destruct (path_transform t) as [-> ->]. cbn [fst snd].
  rewrite !path_exp. cbn [Nat.eqb]. change (c2rWeight [2%Z] 0) with 1. change (c2rWeight [2%Z] 1) with 1. ring.
Qed.
Lemma path_kOp : forall t i, (i < 2)%nat -> kOp [2%Z] (expKsq (fun k => pathK k t) Bead 1 1) (boltz pathW t) i
  = if (i =? 0)%nat then 1 + pathE t * pathS t else 1 - pathE t * pathS t.
Proof.
  intros t i Hi. unfold kOp, fftInverse, mulK. change (nK [2%Z]) with 2%nat. cbn [rsum]. destruct (path_transform t) as [-> ->]. cbn [fst snd].
  rewrite !path_exp. cbn [Nat.eqb]. change (c2rWeight [2%Z] 0) with 1. change (c2rWeight [2%Z] 1) with 1.
  destruct path_theta as (T1 & T2 & T3 & T4).
  destruct i as [|[|i]]; [| |lia]; cbn [Nat.eqb]; rewrite ?T1, ?T2, ?T3, ?T4, ?cos_0, ?sin_0, ?cos_PI, ?sin_PI; ring.
Qed.

Lemma slice2 : forall dims w kSq t h, (forall i, h i = 1) ->
  forall i, qAt (beadSlices dims (fun k => kSq k t) 2 1 (fun i => w 0%nat i t) true true h) 2 i
   = kOp dims (expKsq (fun k => kSq k t) Bead 1 1) (boltz w t) i * boltz w t i.
Proof.
  intros dims w kSq t h H i. unfold beadSlices, qAt. cbn [iterSlices nth app].
  replace (stepFieldB (fun i0 : nat => w 0%nat i0 t) h) with (boltz w t).
  2:{ apply functional_extensionality. intros r. unfold stepFieldB, expW, boltz. rewrite H. ring. }
  reflexivity.
Qed.
Lemma dimer_conc : forall dims w kSq P t x, positive dims -> P t <> 0 -> dimerQ dims w kSq t <> 0 ->
  monomerConc dims w kSq P exDimer 0 x t
  = P t / dimerQ dims w kSq t * (kOp dims (expKsq (fun k => kSq k t) Bead 1 1) (boltz w t) x * boltz w t x).
Proof.
  intros dims w kSq P t x HD PN QN. unfold monomerConc. change (length (y_es exDimer)) with 1%nat. cbn [rsum].
  change (pb_monomer (pblockAt (y_bs exDimer) 0) =? 0)%nat with true. cbv iota. unfold concOf.
  rewrite (proj2 (polymer_at dims 1 w kSq P exDimer HD exDimer_valid t)).
  destruct (dimer_slices dims w kSq t HD false) as [h0 [H0 S0]]. destruct (dimer_slices dims w kSq t HD true) as [h1 [H1 S1]].
  rewrite S0, S1, dimer_Q by exact HD. rewrite exDimer_size. unfold concBead. change (pNs Bead 1 (y_bs exDimer) 0) with 4%nat.
  cbn [rsum Nat.sub]. rewrite !slice2, !slice1 by auto. unfold expWInv, wOf. change (pb_monomer (pblockAt (y_bs exDimer) 0)) with 0%nat.
  fold (boltz w t x). assert (B : boltz w t x <> 0) by (unfold boltz; assert (X := exp_pos (- w 0%nat x t)); lra).
  change (y_phi exDimer) with 1. field. auto.
Qed.
Lemma path_conc : forall t x, (x < 2)%nat -> totalConc [2%Z] 1 0 (fun _ => exDimer) (fun _ => mkSolv 0 1 1) 1 pathW pathK 0 x t
  = if (x =? 0)%nat then 3 / 2 else 1 / 2.
Proof.
  intros t x Hx. unfold totalConc. cbn [rsum]. destruct (pathS_range t) as [S1 S2]. destruct (pathE_range t) as [E1 E2].
  assert (QP : 0 < 1 + pathE t * pathS t * pathS t) by (assert (X : 0 < pathE t * pathS t * pathS t) by (apply Rmult_lt_0_compat; [apply Rmult_lt_0_compat|]; lra); lra).
  rewrite dimer_conc; [|exact two_positive|cbv beta; lra|rewrite path_Q; lra]. cbv beta.
  rewrite path_Q, path_kOp, path_boltz by exact Hx. unfold pathE in *. set (s := pathS t) in *.
  assert (D : 0 < s * (1 - s / 2)) by (apply Rmult_lt_0_compat; lra).
  assert (EQ : (1 / 2 - s) / (s * (1 - s / 2)) * s = (1 / 2 - s) / (1 - s / 2)) by (field; split; nra).
  rewrite EQ in *. set (d := 1 - s / 2) in *. assert (DP : 0 < d) by (unfold d; lra).
  assert (N : d + (1 / 2 - s) * s <> 0).
  { intro Z. apply (Rlt_not_eq _ _ QP). symmetry. replace (1 + (1 / 2 - s) / d * s) with ((d + (1 / 2 - s) * s) / d) by (field; lra). rewrite Z. unfold Rdiv. ring. }
  destruct (x =? 0)%nat; field_simplify_eq; try (split; lra); unfold d; field.
Qed.

Example C66_path : let y := fun _ => exDimer in let z := fun _ => mkSolv 0 1 1 in let h := fun i x => pathW i x 0 in
  let dk := fun m => Derive (pathK m) 0 in
  is_derive (energyAt [2%Z] 1 1 0 y z 1 (fun _ _ => 0) h pathW pathK) 0 (stressAt [2%Z] 1 y 1 pathW pathK (fun m => c2rWeight [2%Z] m * dk m) 0)
  /\ stressAt [2%Z] 1 y 1 pathW pathK (fun m => c2rWeight [2%Z] m * dk m) 0 <> 0.
Proof.
  intros y z h dk.
  assert (S0 : pathS 0 = 1 / 3) by (unfold pathS; rewrite sin_0; field).
  assert (E0 : pathE 0 = 3 / 5) by (unfold pathE; rewrite S0; field).
  assert (DS : is_derive pathS 0 (1 / 20)) by (unfold pathS; auto_derive; auto; rewrite cos_0; field).
  assert (DE : is_derive pathE 0 (- 63 / 250)).
  { replace (- 63 / 250) with ((((0 - 1 / 20) * (pathS 0 * (1 - pathS 0 / 2)) - (1 / 2 - pathS 0) * (1 / 20 * (1 - pathS 0 / 2) + pathS 0 * (0 - 1 / 20 / 2))) / (pathS 0 * (1 - pathS 0 / 2)) ^ 2))
      by (rewrite S0; field).
    apply (is_derive_div (fun t => 1 / 2 - pathS t) (fun t => pathS t * (1 - pathS t / 2))).
    - apply (is_derive_minus (fun _ => 1 / 2) pathS); [apply @is_derive_const|exact DS].
    - apply (derive_mult 0 pathS (fun t => 1 - pathS t / 2)); [exact DS|].
      apply (is_derive_minus (fun _ => 1) (fun t => pathS t / 2)); [apply @is_derive_const|].
      apply (is_derive_ext (fun t => / 2 * pathS t)); [intro t; match goal with |- ?a = ?b => change (@eq R a b) end; field|].
      replace (1 / 20 / 2) with (/ 2 * (1 / 20)) by field. apply (is_derive_scal pathS). exact DS.
    - rewrite S0. lra. }
  assert (DK : is_derive (pathK 1) 0 (63 / 25)).
  { unfold pathK. cbn [Nat.eqb]. replace (63 / 25) with (- 6 * (- 63 / 250 * / pathE 0)) by (rewrite E0; field).
    apply (is_derive_scal (fun t => ln (pathE t))). apply (is_derive_comp ln pathE); [|exact DE]. apply is_derive_ln. rewrite E0. lra. }
  assert (DK0 : is_derive (pathK 0) 0 0) by (unfold pathK; cbn [Nat.eqb]; apply @is_derive_const).
  assert (K1 : dk 1%nat = 63 / 25) by (apply is_derive_unique; exact DK).
  assert (K0 : dk 0%nat = 0) by (apply is_derive_unique; exact DK0).
  assert (QP : forall t, 0 < dimerQ [2%Z] pathW pathK t).
  { intro t. rewrite path_Q. destruct (pathS_range t). destruct (pathE_range t).
    assert (X : 0 < pathE t * pathS t * pathS t) by (apply Rmult_lt_0_compat; [apply Rmult_lt_0_compat|]; lra). lra. }
  split.
  - eapply (C66_stress [2%Z] 1 1 0 y z 1 (fun _ _ => 0) h pathW pathK (fun _ x => if (x =? 0)%nat then - (1 / 20) / (4 / 3) else (1 / 20) / (2 / 3))
      (fun _ _ => 0) dk (fun _ => 0) (fun x => if (x =? 0)%nat then 3 / 2 else 1 / 2)).
    + exact two_positive.
    + lra.
    + intros m i _ Hi. unfold pathW. change (nR [2%Z]) with 2%nat in Hi. destruct i as [|[|i]]; [| |lia]; cbn [Nat.eqb].
      * replace (- (1 / 20) / (4 / 3)) with (- ((1 / 20) * / (1 + pathS 0))) by (rewrite S0; field).
        apply (is_derive_opp (fun t => ln (1 + pathS t))). apply (is_derive_comp ln (fun t => 1 + pathS t)).
        -- apply is_derive_ln. rewrite S0. lra.
        -- replace (1 / 20) with (0 + 1 / 20) by ring. apply (is_derive_plus (fun _ => 1) pathS); [apply @is_derive_const|exact DS].
      * replace (1 / 20 / (2 / 3)) with (- ((0 - 1 / 20) * / (1 - pathS 0))) by (rewrite S0; field).
        apply (is_derive_opp (fun t => ln (1 - pathS t))). apply (is_derive_comp ln (fun t => 1 - pathS t)).
        -- apply is_derive_ln. rewrite S0. lra.
        -- apply (is_derive_minus (fun _ => 1) pathS); [apply @is_derive_const|exact DS].
    + intros m i Hm Hi. assert (m = 0%nat) by lia. subst m.
      apply (is_derive_ext (fun _ => if (i =? 0)%nat then 3 / 2 else 1 / 2)); [intro t; symmetry; apply path_conc; exact Hi|].
      apply @is_derive_const.
    + intros k Hk. change (nK [2%Z]) with 2%nat in Hk. destruct k as [|[|k]]; [| |lia].
      * rewrite K0. exact DK0.
      * rewrite K1. exact DK.
    + intros s _. split; [exact exDimer_valid|]. split; [unfold y; cbn; lra|]. intro t. unfold y.
      rewrite dimer_q; [|exact two_positive|cbv beta; lra]. unfold Rdiv. rewrite Rinv_1, Rmult_1_r. apply QP.
    + intros s Hs. lia.
    + reflexivity.
    + reflexivity.
    + intros i x Hi Hx. assert (i = 0%nat) by lia. subst i. unfold h. cbn [rsum]. ring.
    + intros t x Hx. cbn [rsum]. rewrite Rplus_0_l. apply path_conc. exact Hx.
  - unfold stressAt, mixtureStress, y. cbn [rsum]. rewrite dimer_stress; [|exact two_positive|cbv beta; lra|assert (X := QP 0); lra]. cbv beta.
    unfold waveSum. change (nK [2%Z]) with 2%nat. cbn [rsum]. destruct (path_transform 0) as [-> ->]. cbn [fst snd].
    rewrite !path_exp, K0, K1, S0, E0. cbn [Nat.eqb]. change (c2rWeight [2%Z] 1) with 1.
    assert (X := QP 0). set (Q := dimerQ _ _ _ _) in *. clearbody Q.
    match goal with |- ?a <> 0 => replace a with (7 / (500 * Q)) by (field; lra) end.
    assert (0 < 7 / (500 * Q)) by (apply Rdiv_lt_0_compat; lra). lra.
Qed.

Print Assumptions C66_polymer.
Print Assumptions C66_polymers.
Print Assumptions C66_stress.
Print Assumptions C66_code.
Print Assumptions C66_code_exact.
Print Assumptions C66_polymer_refuted.
Print Assumptions C66_lattice.
