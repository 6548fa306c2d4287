(** C70: the stress of the thread model converges, with the fourth power of the
    contour step, to the derivative of the free energy of the continuous-chain
    theory with respect to the lattice parameter. *)
From Coq Require Import Reals ZArith List Bool Arith Lia Lra FunctionalExtensionality.
From Coquelicot Require Import Coquelicot.
From Coq Require Import List.
From Verif Require Import Base RSum UnitCellProofs MeshSpec MeshProofs Polymer PolymerSpec PolymerProofs PropsPolymer Solve SolveProofs
  Species Mesh Fft FftProofs PropsFft FftCompose R1d R1dProofs Rpc RpcProofs PropsRpc Stress BeadDerivative
  Expand ExpandProofs TreeDerivative Convergence LinearResponse ThreadConvergence Simpson ConvergenceSpec PropsConvergence ThreadResponse ThreadStress
  FloryHuggins ThermoSpec Thermo PropsThermo PropsStress.
Import ListNotations.
Local Open Scope R_scope.

(** A polymer of continuous blocks (closed ensemble). *)
Definition validThread (nm : nat) (y : polySpec) : Prop :=
  tree (y_es y) /\ y_es y <> [] /\ length (y_bs y) = length (y_es y) /\
  Forall (fun b => 0 < pb_length b /\ (pb_monomer b < nm)%nat) (y_bs y) /\
  exists fuel, (2 * length (y_es y) <= fuel)%nat /\ readGraph fuel (y_es y) = Ok (y_pol y).
Definition y_length (y : polySpec) : R := lsum pb_length (y_bs y).
Definition blockLen (y : polySpec) (b : nat) : R := pb_length (pblockAt (y_bs y) b).
Definition blockMono (y : polySpec) (b : nat) : nat := pb_monomer (pblockAt (y_bs y) b).

(** The continuous-chain theory: partition function and concentrations, from the
    exact propagators U. *)
Section Exact.
Variables (n : nat) (y : polySpec) (P : R) (U : nat * bool -> R -> nat -> R).
Definition exactQ : R := average n (fun i => U (O, false) 0 i * U (O, true) (blockLen y O) i).
Definition exactConc (m x : nat) : R :=
  rsum (length (y_es y)) (fun b => if (blockMono y b =? m)%nat
    then y_phi y / (exactQ / P * y_length y) * RInt (fun s => U (b, false) s x * U (b, true) (blockLen y b - s) x) 0 (blockLen y b) else 0).
End Exact.

(** What the code computes with step ds. *)
Section Code.
Variables (dims : list Z) (kSq : nat -> R) (w : nat -> nat -> R) (P ds : R) (y : polySpec).
Definition threadRun : outcome (species * (nat -> field)) :=
  rpcCompute Thread dims kSq ds (y_bs y) w (y_es y) (y_pol y) (mkSpecies Closed (y_phi y) 0 0) P.
Definition threadProps : outcome props :=
  solveAll (rpcSlices Thread dims kSq ds (y_bs y) w) (rpcTailOk Thread) true (y_es y) (p_vertices (y_pol y)) (p_plan (y_pol y)).
Definition threadConc (m x : nat) : R :=
  match threadRun with
  | Ok (_, c) => rsum (length (y_es y)) (fun b => if (blockMono y b =? m)%nat then c b x else 0)
  | _ => 0
  end.
Definition threadStress (dKSq : nat -> R) : R :=
  match threadRun, threadProps with
  | Ok (s, _), Ok st => polymerStress Thread dims kSq dKSq ds (y_bs y) (y_es y) (p_vertices (y_pol y)) st s
  | _, _ => 0
  end.
End Code.

Lemma average_dims : forall dims f, ConvergenceSpec.average dims f = average (nR dims) f.
Proof. reflexivity. Qed.

Section Path.
Variables (dims : list Z) (nm : nat) (K : list Z -> R -> R) (kSq : nat -> R -> R) (w : nat -> nat -> R -> R).
Variables (dK : list Z -> R) (dw : nat -> nat -> R) (t0 : R).
Hypothesis Hne : dims <> [].
Hypothesis HP : positive dims.
Hypothesis HE : forall t, evenWaves dims (fun q => K q t) (fun k => kSq k t).
Hypothesis HdK : forall q, in_box dims q -> is_derive (K q) t0 (dK q).
Hypothesis Hdw : forall m i, (m < nm)%nat -> (i < nR dims)%nat -> is_derive (w m i) t0 (dw m i).
Notation n := (nR dims).
Notation dk := (fun m => dK (gridPos (computeKMesh dims) m)).

Lemma dK_even : evenWaves dims dK dk.
Proof.
  split; [|reflexivity]. intros q Q. apply (derive_value (K q) t0); auto.
  apply (is_derive_ext (K (negmod dims q))). { intros t. now apply (proj1 (HE t)). }
  apply HdK. now apply negmod_in_box.
Qed.

Section Poly.
Variables (y : polySpec) (P : R) (U : R -> nat * bool -> R -> nat -> R).
Hypothesis VY : validThread nm y.
Hypothesis HU : forall t, reference dims (fun q => K q t) (y_bs y) (fun m i => w m i t) (y_es y) (U t).
Hypothesis NP : 0 < P.
Hypothesis HQ : 0 < exactQ n y (U t0).
Notation pre := (y_phi y / (exactQ n y (U t0) / P * y_length y)).
(** Limit of the stress, for derivatives eK of |k|^2 of each wave. *)
Definition limitStress (eK : list Z -> R) : R := pre * rsum (length (y_es y)) (refStress dims (y_bs y) (U t0) eK).

Lemma lengths_pos : Forall (fun b => 0 < pb_length b) (y_bs y).
Proof. destruct VY as (_ & _ & _ & HB & _). eapply Forall_impl; [|exact HB]. intros a [X _]; exact X. Qed.
Lemma mono_lt : forall b, (b < length (y_es y))%nat -> (blockMono y b < nm)%nat.
Proof.
  intros b Hb. destruct VY as (_ & _ & HL & HB & _). rewrite Forall_forall in HB. apply HB. eapply block_in; eauto.
Qed.
Lemma length_pos : 0 < y_length y.
Proof.
  destruct VY as (_ & Hes & HL & _). apply (polymerSize_pos Thread 1 (y_bs y)); [split; [lra|apply lengths_pos]|].
  intros E. rewrite E in HL. destruct (y_es y); [congruence|discriminate].
Qed.

Lemma by_type : forall c : nat -> nat -> R,
  average n (fun x => rsum nm (fun m => rsum (length (y_es y)) (fun b => if (blockMono y b =? m)%nat then c b x else 0) * dw m x))
  = rsum (length (y_es y)) (fun b => average n (fun x => c b x * dw (blockMono y b) x)).
Proof.
  intros c. unfold average, Rdiv. rewrite (rsum_scal_r (length (y_es y)) (/ INR n)). f_equal.
  symmetry. rewrite rsum_swap. apply rsum_ext. intros x _. symmetry.
  rewrite (rsum_ext nm _ (fun m => rsum (length (y_es y)) (fun b => if (blockMono y b =? m)%nat then c b x * dw m x else 0))).
  2:{ intros m _. rewrite <- rsum_scal_r. apply rsum_ext. intros b _. destruct (_ =? _)%nat; ring. }
  rewrite rsum_swap. apply rsum_ext. intros b Hb.
  rewrite (rsum_single nm (blockMono y b)); [now rewrite Nat.eqb_refl|now apply mono_lt|].
  intros m _ N. destruct (Nat.eqb_spec (blockMono y b) m); congruence.
Qed.

(** Response of the exact partition function. *)
Lemma exact_response : exists dlq, is_derive (fun t => ln (exactQ n y (U t))) t0 dlq /\
  y_phi y / y_length y * dlq =
  - average n (fun x => rsum nm (fun m => exactConc n y P (U t0) m x * dw m x)) / P + - (limitStress dK / P).
Proof.
  assert (VY' := VY). destruct VY' as (HT & Hes & HL & HB & fuel & Hf & HG).
  assert (DQ := U_response dims HP K w (y_bs y) (y_es y) fuel (y_pol y) U t0 dK dw HT Hes HL lengths_pos Hf HG HU HdK
    (fun b i Hb Hi => Hdw _ i (mono_lt b Hb) Hi)).
  match type of DQ with is_derive _ _ ?v => set (dQ := v) in * end.
  change (is_derive (fun t => exactQ n y (U t)) t0 dQ) in DQ.
  exists (dQ / exactQ n y (U t0)). split.
  { apply (is_derive_comp ln (fun t => exactQ n y (U t))); auto. now apply is_derive_ln. }
  unfold exactConc. rewrite (by_type (fun b x => pre * RInt (fun s => U t0 (b, false) s x * U t0 (b, true) (blockLen y b - s) x) 0 (blockLen y b))).
  unfold limitStress. set (q := exactQ n y (U t0)) in *. set (pr := y_phi y / (q / P * y_length y)).
  assert (E : forall b, (b < length (y_es y))%nat ->
    blockTerm dims (y_bs y) U t0 dK dw b =
    - average n (fun x => refII (y_bs y) (U t0) b x x * dw (blockMono y b) x) - refStress dims (y_bs y) (U t0) dK b).
  { intros b Hb. unfold blockTerm, refStress, daMat, mdeMat, average. fold (blockMono y b).
    rewrite (rsum_ext n (fun i => rsum n _) (fun i => - (pb_kuhn (pblockAt (y_bs y) b) * pb_kuhn (pblockAt (y_bs y) b) / 6 * rsum n (fun j => kernel dims dK i j * refII (y_bs y) (U t0) b i j))
        + - (refII (y_bs y) (U t0) b i i * dw (blockMono y b) i))).
    2:{ intros i Hi. rewrite <- (rsum_scal n (_ * _ / 6)), <- rsum_opp.
        rewrite (rsum_ext n _ (fun j => - (pb_kuhn (pblockAt (y_bs y) b) * pb_kuhn (pblockAt (y_bs y) b) / 6 * (kernel dims dK i j * refII (y_bs y) (U t0) b i j))
           + (if (i =? j)%nat then - (refII (y_bs y) (U t0) b i j * dw (blockMono y b) i) else 0))).
        2:{ intros j _. fold (refII (y_bs y) (U t0) b i j). destruct (i =? j)%nat; ring. }
        rewrite rsum_plus. f_equal. rewrite (rsum_single n i); auto; [now rewrite Nat.eqb_refl|].
        intros j _ N. destruct (Nat.eqb_spec i j); congruence. }
    rewrite rsum_plus, !rsum_opp, rsum_scal. set (A := rsum _ _). set (B := rsum _ _). unfold Rdiv. ring. }
  assert (EQ : dQ = - rsum (length (y_es y)) (fun b => average n (fun x => refII (y_bs y) (U t0) b x x * dw (blockMono y b) x))
     - rsum (length (y_es y)) (refStress dims (y_bs y) (U t0) dK)).
  { unfold dQ. rewrite (rsum_ext _ _ _ E). rewrite rsum_minus, rsum_opp. reflexivity. }
  assert (EC : rsum (length (y_es y)) (fun b => average n (fun x => pr * RInt (fun s => U t0 (b, false) s x * U t0 (b, true) (blockLen y b - s) x) 0 (blockLen y b) * dw (blockMono y b) x))
    = pr * rsum (length (y_es y)) (fun b => average n (fun x => refII (y_bs y) (U t0) b x x * dw (blockMono y b) x))).
  { rewrite <- rsum_scal. apply rsum_ext. intros b _. unfold average, Rdiv. rewrite <- Rmult_assoc. f_equal. rewrite <- rsum_scal.
    apply rsum_ext. intros x _. unfold refII. fold (blockLen y b). ring. }
  rewrite EC, EQ. set (A := rsum _ _). set (B := rsum _ _). unfold pr. assert (PL := length_pos). field. split; [|split]; lra.
Qed.

(** Errors of what the code computes at t0. *)
Lemma code_errors : forall eK, evenWaves dims eK (fun m => eK (gridPos (computeKMesh dims) m)) -> exists C d, 0 <= C /\ 0 < d /\ forall ds, 0 < ds <= d ->
  (exists s c st, threadRun dims (fun k => kSq k t0) (fun m i => w m i t0) P ds y = Ok (s, c) /\
     threadProps dims (fun k => kSq k t0) (fun m i => w m i t0) ds y = Ok st) /\
  (forall m x, (x < n)%nat ->
     Rabs (threadConc dims (fun k => kSq k t0) (fun m i => w m i t0) P ds y m x - exactConc n y P (U t0) m x) <= C * ds ^ 4) /\
  Rabs (threadStress dims (fun k => kSq k t0) (fun m i => w m i t0) P ds y (fun m => c2rWeight dims m * eK (gridPos (computeKMesh dims) m)) - limitStress eK) <= C * ds ^ 4.
Proof.
  intros eK HeK. assert (VY' := VY). destruct VY' as (HT & Hes & HL & HB & fuel & Hf & HG).
  set (q := exactQ n y (U t0) / P). assert (Pq : 0 < q) by (unfold q; now apply Rdiv_lt_0_compat).
  set (s0 := mkSpecies Closed (y_phi y) 0 0). set (kk := fun k => kSq k t0). set (ww := fun m i => w m i t0).
  destruct (C67_density_converges dims (fun q => K q t0) kk (y_bs y) ww (y_es y) fuel (y_pol y) (U t0) s0 P Hne HP (HE t0) HT Hes HL lengths_pos Hf HG (HU t0)
    ltac:(lra) ltac:(change (q <> 0); lra)) as (C1 & d1 & Pd1 & DC).
  destruct (prefactor_close s0 (y_length y) q length_pos ltac:(lra)) as (Cp & PCp & PF).
  destruct (fin_const (length (y_es y)) (fun b C => forall ds st l0 l1 pr, 0 < ds <= 1 -> solvedAll dims kk (y_bs y) ww (y_es y) (y_pol y) ds st ->
     st (b, false) = Some l0 -> st (b, true) = Some l1 ->
     Rabs (blockStressThread dims (fun m => c2rWeight dims m * eK (gridPos (computeKMesh dims) m)) (pb_kuhn (pblockAt (y_bs y) b)) (pDs Thread ds (y_bs y) b) (pNs Thread ds (y_bs y) b) l0 l1 pr
       - pr * refStress dims (y_bs y) (U t0) eK b) <= Rabs pr * (C * ds ^ 4))) as (C2 & PC2 & SE).
  { intros b C C' LE H ds st l0 l1 pr Hds HS E0 E1. eapply Rle_trans; [eapply H; eauto|]. apply Rmult_le_compat_l; [apply Rabs_pos|].
    apply Rmult_le_compat_r; auto. apply pow_le; lra. }
  { intros b Hb. apply (block_stress_error dims (fun q => K q t0) kk Hne HP (HE t0) (y_bs y) ww (y_es y) fuel (y_pol y) HT HL lengths_pos Hf HG (U t0) (HU t0) 1 ltac:(lra) eK _ HeK b Hb). }
  destruct (Q_error dims (fun q => K q t0) kk Hne HP (proj1 (HE t0)) (proj2 (HE t0)) (y_bs y) ww (y_es y) fuel (y_pol y) HT HL lengths_pos Hf HG (U t0) (HU t0) 1 ltac:(lra)
    ltac:(destruct (y_es y); [congruence|cbn; lia])) as (C3 & PC3 & QE).
  set (C1' := Rabs C1). assert (PC1 : 0 <= C1') by apply Rabs_pos.
  assert (LC1 : forall z, 0 <= z -> C1 * z <= C1' * z) by (intros; apply Rmult_le_compat_r; auto; apply RRle_abs).
  set (NB := INR (length (y_es y))). assert (PNB : 0 <= NB) by apply pos_INR.
  set (ps := sp_phi (setQ s0 q) / (q * y_length y)) in *.
  set (RS := rsum (length (y_es y)) (fun b => Rabs (refStress dims (y_bs y) (U t0) eK b))).
  assert (PRS : 0 <= RS).
  { unfold RS. assert (Q := rsum_mono (length (y_es y)) (fun _ => 0) (fun b => Rabs (refStress dims (y_bs y) (U t0) eK b)) ltac:(intros; apply Rabs_pos)). now rewrite rsum_zero in Q. }
  set (d := Rmin (Rmin 1 d1) (q / (2 * (C1' + 1)))).
  assert (Pd : 0 < d). { apply Rmin_glb_lt; [apply Rmin_glb_lt; lra|]. apply Rdiv_lt_0_compat; lra. }
  set (Bp := Rabs ps + Cp * (q / 2)). assert (PBp : 0 <= Bp). { assert (X := Rabs_pos ps). assert (0 <= Cp * (q / 2)) by (apply Rmult_le_pos; lra). unfold Bp; lra. }
  set (C := NB * C1' + (NB * (Bp * C2) + Cp * C1' * RS)).
  assert (X1 : 0 <= NB * C1') by now apply Rmult_le_pos. assert (X2 : 0 <= NB * (Bp * C2)) by (apply Rmult_le_pos; auto; now apply Rmult_le_pos).
  assert (X3 : 0 <= Cp * C1' * RS) by (apply Rmult_le_pos; auto; now apply Rmult_le_pos).
  exists C, d. split; [unfold C; lra|]. split; auto. intros ds Hds.
  assert (L1 : ds <= 1) by (eapply Rle_trans; [apply Hds|eapply Rle_trans; [apply Rmin_l|apply Rmin_l]]).
  assert (L2 : ds <= d1) by (eapply Rle_trans; [apply Hds|eapply Rle_trans; [apply Rmin_l|apply Rmin_r]]).
  assert (L3 : ds <= q / (2 * (C1' + 1))) by (eapply Rle_trans; [apply Hds|apply Rmin_r]).
  assert (P4 : 0 <= ds ^ 4) by (apply pow_le; lra).
  destruct (DC ds ltac:(lra)) as (s' & c & R1 & R2 & R3). change (rpcCompute Thread dims kk ds (y_bs y) ww (y_es y) (y_pol y) s0 P) with (threadRun dims kk ww P ds y) in R1.
  destruct (QE ds ltac:(lra)) as (st & Q & S1 & S2 & S3 & S4). change (threadProps dims kk ww ds y = Ok st) in S1.
  assert (ES : s' = setQ s0 (Q / P)).
  { unfold threadRun, rpcCompute in R1. unfold threadProps in S1. rewrite S1 in R1. cbn [bind] in R1. rewrite S3 in R1. cbn [bind] in R1. inversion R1. reflexivity. }
  assert (EQ : sp_q s' = Q / P) by (rewrite ES; reflexivity). change (ConvergenceSpec.average dims _ / P) with q in R2. 
  assert (Y : ds ^ 4 <= ds).
  { replace (ds ^ 4) with (ds * ds ^ 3) by ring. rewrite <- (Rmult_1_r ds) at 3. apply Rmult_le_compat_l; [lra|].
    replace 1 with (1 ^ 3) by ring. apply pow_incr. lra. }
  assert (R2' : Rabs (sp_q s' - q) <= C1' * ds ^ 4) by (eapply Rle_trans; [apply R2|apply LC1; auto]).
  assert (Z2 : C1' * ds ^ 4 <= (C1' + 1) * (q / (2 * (C1' + 1)))) by (apply Rmult_le_compat; lra).
  replace ((C1' + 1) * (q / (2 * (C1' + 1)))) with (q / 2) in Z2 by (field; lra).
  destruct (PF (sp_q s')) as [Nq PP]. { rewrite (Rabs_pos_eq q) by lra. lra. }
  split; [|split].
  - exists s', c, st. split; [exact R1|exact S1].
  - intros m x Hx. unfold threadConc. rewrite R1. unfold exactConc. rewrite <- rsum_minus. eapply Rle_trans; [apply rsum_abs|].
    apply Rle_trans with (rsum (length (y_es y)) (fun _ => C1' * ds ^ 4)).
    + apply rsum_mono. intros b Hb. destruct (blockMono y b =? m)%nat.
      * eapply Rle_trans; [apply (R3 b x Hb Hx)|]. now apply LC1.
      * rewrite Rminus_diag_eq, Rabs_R0 by auto. now apply Rmult_le_pos.
    + rewrite rsum_const. fold NB. replace (NB * (C1' * ds ^ 4)) with (NB * C1' * ds ^ 4) by ring. apply Rmult_le_compat_r; auto. unfold C. lra.
  - unfold threadStress. rewrite R1, S1. unfold polymerStress, limitStress. change (pLength (y_bs y)) with (y_length y).
    set (pr := sp_phi s' / (sp_q s' * y_length y)).
    assert (Epr : pr = sp_phi (setQ s0 (sp_q s')) / (sp_q s' * y_length y)) by (unfold pr; rewrite ES at 1; reflexivity).
    rewrite <- Epr in PP.
    assert (DP : Rabs (pr - ps) <= Cp * (C1' * ds ^ 4)) by (eapply Rle_trans; [exact PP|]; now apply Rmult_le_compat_l).
    assert (BP : Rabs pr <= Bp).
    { replace pr with (ps + (pr - ps)) by ring. eapply Rle_trans; [apply Rabs_triang|]. unfold Bp. apply Rplus_le_compat_l. eapply Rle_trans; [exact DP|].
      apply Rmult_le_compat_l; auto. }
    change (y_phi y / (exactQ n y (U t0) / P * y_length y)) with ps. rewrite <- rsum_scal, <- rsum_minus. eapply Rle_trans; [apply rsum_abs|].
    apply Rle_trans with (rsum (length (y_es y)) (fun b => Bp * C2 * ds ^ 4 + Cp * C1' * ds ^ 4 * Rabs (refStress dims (y_bs y) (U t0) eK b))).
    + apply rsum_mono. intros b Hb. destruct (S2 (b, false) Hb) as [h0 [E0 _]]. destruct (S2 (b, true) Hb) as [h1 [E1 _]]. rewrite E0, E1.
      assert (T := SE b Hb ds st _ _ pr ltac:(lra) S2 E0 E1).
      set (X := blockStressThread _ _ _ _ _ _ _ _) in *. set (r := refStress dims (y_bs y) (U t0) eK b) in *.
      replace (X - ps * r) with ((X - pr * r) + (pr - ps) * r) by ring. eapply Rle_trans; [apply Rabs_triang|]. apply Rplus_le_compat.
      * eapply Rle_trans; [apply T|]. replace (Bp * C2 * ds ^ 4) with (Bp * (C2 * ds ^ 4)) by ring. apply Rmult_le_compat_r; auto. now apply Rmult_le_pos.
      * rewrite Rabs_mult. apply Rmult_le_compat_r; [apply Rabs_pos|]. lra.
    + rewrite rsum_plus, rsum_const, rsum_scal. fold RS. fold NB. unfold C.
      assert (0 <= NB * C1' * ds ^ 4) by now apply Rmult_le_pos. lra.
Qed.

(** The response of one molecule: the computed concentrations and the computed
    stress, with the wave weights of the c2r transform, give the derivative of
    the logarithm of the exact partition function up to C ds^4. *)
Theorem C70_polymer : exists dlq, is_derive (fun t => ln (exactQ n y (U t))) t0 dlq /\
  exists C d, 0 < d /\ forall ds, 0 < ds <= d ->
  (exists s c st, threadRun dims (fun k => kSq k t0) (fun m i => w m i t0) P ds y = Ok (s, c) /\
     threadProps dims (fun k => kSq k t0) (fun m i => w m i t0) ds y = Ok st) /\
  Rabs (y_phi y / y_length y * dlq
    + average n (fun x => rsum nm (fun m => threadConc dims (fun k => kSq k t0) (fun m i => w m i t0) P ds y m x * dw m x)) / P
    + threadStress dims (fun k => kSq k t0) (fun m i => w m i t0) P ds y (fun m => c2rWeight dims m * dk m) / P) <= C * ds ^ 4.
Proof.
  destruct exact_response as (dlq & D1 & R1). destruct (code_errors dK dK_even) as (C & d & PC & Pd & H).
  exists dlq. split; auto.
  set (M := average n (fun x => rsum nm (fun m => Rabs (dw m x)))).
  exists (C * (M + 1) / P), d. split; auto. intros ds Hds. destruct (H ds Hds) as (A & B & S). split; auto.
  rewrite R1. set (tc := threadConc _ _ _ _ _ _) in *. set (ts := threadStress _ _ _ _ _ _ _) in *. set (ec := exactConc n y P (U t0)) in *.
  assert (NN : 0 < INR n) by now apply INR_nR.
  assert (EA : average n (fun x => rsum nm (fun m => tc m x * dw m x)) - average n (fun x => rsum nm (fun m => ec m x * dw m x))
     = average n (fun x => rsum nm (fun m => (tc m x - ec m x) * dw m x))).
  { unfold average, Rdiv. rewrite <- Rmult_minus_distr_r, <- rsum_minus. f_equal. apply rsum_ext. intros x _. rewrite <- rsum_minus.
    apply rsum_ext. intros m _. ring. }
  set (a := average n (fun x => rsum nm (fun m => tc m x * dw m x))) in *. set (e := average n (fun x => rsum nm (fun m => ec m x * dw m x))) in *.
  replace (- e / P + - (limitStress dK / P) + a / P + ts / P) with (((a - e) + (ts - limitStress dK)) * / P) by (field; lra).
  rewrite Rabs_mult, (Rabs_pos_eq (/ P)) by (left; now apply Rinv_0_lt_compat).
  replace (C * (M + 1) / P * ds ^ 4) with ((M * (C * ds ^ 4) + C * ds ^ 4) * / P) by (field; lra).
  apply Rmult_le_compat_r; [left; now apply Rinv_0_lt_compat|]. eapply Rle_trans; [apply Rabs_triang|]. apply Rplus_le_compat; auto.
  rewrite EA. unfold average. unfold Rdiv at 1. rewrite Rabs_mult, (Rabs_pos_eq (/ INR n)) by (left; now apply Rinv_0_lt_compat).
  unfold M, average. replace (rsum n (fun x => rsum nm (fun m => Rabs (dw m x))) / INR n * (C * ds ^ 4))
    with ((C * ds ^ 4) * rsum n (fun x => rsum nm (fun m => Rabs (dw m x))) * / INR n) by (field; lra).
  apply Rmult_le_compat_r; [left; now apply Rinv_0_lt_compat|]. eapply Rle_trans; [apply rsum_abs|].
  rewrite <- rsum_scal. apply rsum_mono. intros x Hx. eapply Rle_trans; [apply rsum_abs|].
  rewrite <- rsum_scal. apply rsum_mono. intros m _. rewrite Rabs_mult. apply Rmult_le_compat_r; [apply Rabs_pos|]. now apply B.
Qed.
End Poly.
End Path.

Lemma sum_close : forall np (f g : nat -> R) e, (forall s, (s < np)%nat -> Rabs (f s - g s) <= e) ->
  Rabs (rsum np f - rsum np g) <= INR np * e.
Proof.
  intros np f g e H. rewrite <- rsum_minus, <- rsum_const. eapply Rle_trans; [apply rsum_abs|]. now apply rsum_mono.
Qed.

(** A mixture of polymers and solvents. *)
Section Mixture.
Variables (dims : list Z) (nm np ns : nat) (y : nat -> polySpec) (z : nat -> solvSpec) (P0 : R) (chi : nat -> nat -> R) (h : nat -> nat -> R).
Variables (K : list Z -> R -> R) (kSq : nat -> R -> R) (w : nat -> nat -> R -> R) (U : nat -> R -> nat * bool -> R -> nat -> R).
Notation n := (nR dims).
(** Concentrations and free energy of the continuous-chain theory. *)
Definition refConc (m x : nat) (t : R) : R :=
  rsum np (fun s => exactConc n (y s) P0 (U s t) m x)
  + rsum ns (fun s => if (z_type (z s) =? m)%nat then snd (solventOf dims P0 w (z s) t) x else 0).
Definition refSpecies (t : R) (s : nat) : speciesData :=
  if (s <? np)%nat then mkSpeciesData (y_phi (y s)) (ln (y_phi (y s) / (exactQ n (y s) (U s t) / P0))) (y_length (y s))
  else mkSpeciesData (z_phi (z (s - np))) (sp_mu (fst (solventOf dims P0 w (z (s - np)) t))) (z_size (z (s - np))).
Definition refEnergy (t : R) : R :=
  freeEnergy n nm (np + ns) chi P0 (refSpecies t) (fun i x => w i x t) h (fun i x => refConc i x t).
(** The stress that the code computes with step ds. *)
Definition mixStress (dKSq : nat -> R) (ds t : R) : R :=
  mixtureStress np (fun s => threadStress dims (fun k => kSq k t) (fun m i => w m i t) P0 ds (y s) dKSq) P0.
Definition runsOk (ds t : R) : Prop := forall s, (s < np)%nat -> exists s' c st,
  threadRun dims (fun k => kSq k t) (fun m i => w m i t) P0 ds (y s) = Ok (s', c) /\
  threadProps dims (fun k => kSq k t) (fun m i => w m i t) ds (y s) = Ok st.
(** A differentiable path of exact solutions of the self-consistent field
    equations, of which the lattice parameter t is a coordinate. *)
Definition scftPath (dK : list Z -> R) (dw dc : nat -> nat -> R) (xi rho : nat -> R) (t0 : R) : Prop :=
  (forall t, evenWaves dims (fun q => K q t) (fun k => kSq k t)) /\
  (forall q, in_box dims q -> is_derive (K q) t0 (dK q)) /\
  (forall m i, (m < nm)%nat -> (i < n)%nat -> is_derive (w m i) t0 (dw m i)) /\
  (forall m i, (m < nm)%nat -> (i < n)%nat -> is_derive (refConc m i) t0 (dc m i)) /\
  (forall s, (s < np)%nat -> validThread nm (y s) /\ 0 < y_phi (y s) /\
     (forall t, reference dims (fun q => K q t) (y_bs (y s)) (fun m i => w m i t) (y_es (y s)) (U s t)) /\
     (forall t, 0 < exactQ n (y s) (U s t))) /\
  (forall s, (s < ns)%nat -> (z_type (z s) < nm)%nat /\ 0 < z_size (z s) /\ 0 < z_phi (z s)) /\
  (forall i j, (i < nm)%nat -> (j < nm)%nat -> chi i j = chi j i) /\
  (forall i x, (i < nm)%nat -> (x < n)%nat -> w i x t0 = h i x + rsum nm (fun j => chi i j * refConc j x t0) + xi x) /\
  (forall t x, (x < n)%nat -> rsum nm (fun i => refConc i x t) = rho x).

(** Limit of the computed stress. *)
Definition limitMix (eK : list Z -> R) (t0 : R) : R := rsum np (fun s => limitStress dims t0 (y s) P0 (U s) eK) / P0.

Lemma mix_error : forall dK dw dc xi rho t0 eK, dims <> [] -> positive dims -> 0 < P0 -> scftPath dK dw dc xi rho t0 ->
  evenWaves dims eK (fun m => eK (gridPos (computeKMesh dims) m)) ->
  exists C d, 0 < d /\ forall ds, 0 < ds <= d -> runsOk ds t0 /\
    Rabs (mixStress (fun m => c2rWeight dims m * eK (gridPos (computeKMesh dims) m)) ds t0 - limitMix eK t0) <= C * ds ^ 4.
Proof.
  intros dK dw dc xi rho t0 eK Hne HD PP (HE & HdK & Hw & Hc & HY & _) HeK.
  assert (X : exists C d, 0 <= C /\ 0 < d /\ forall s, (s < np)%nat -> forall ds, 0 < ds <= d ->
     (exists s' c st, threadRun dims (fun k => kSq k t0) (fun m i => w m i t0) P0 ds (y s) = Ok (s', c) /\
       threadProps dims (fun k => kSq k t0) (fun m i => w m i t0) ds (y s) = Ok st) /\
     Rabs (threadStress dims (fun k => kSq k t0) (fun m i => w m i t0) P0 ds (y s) (fun m => c2rWeight dims m * eK (gridPos (computeKMesh dims) m))
        - limitStress dims t0 (y s) P0 (U s) eK) <= C * ds ^ 4).
  { assert (Y : forall k, (k <= np)%nat -> exists C d, 0 <= C /\ 0 < d /\ forall s, (s < k)%nat -> forall ds, 0 < ds <= d ->
     (exists s' c st, threadRun dims (fun k => kSq k t0) (fun m i => w m i t0) P0 ds (y s) = Ok (s', c) /\
       threadProps dims (fun k => kSq k t0) (fun m i => w m i t0) ds (y s) = Ok st) /\
     Rabs (threadStress dims (fun k => kSq k t0) (fun m i => w m i t0) P0 ds (y s) (fun m => c2rWeight dims m * eK (gridPos (computeKMesh dims) m))
        - limitStress dims t0 (y s) P0 (U s) eK) <= C * ds ^ 4); [|exact (Y np (le_n _))].
    induction k as [|k IH]; intros Hk.
    - exists 0, 1. split; [lra|]. split; [lra|]. intros; lia.
    - destruct IH as (C & d & PC & Pd & H); [lia|]. destruct (HY k ltac:(lia)) as (VY & _ & HU & HQ).
      destruct (code_errors dims nm K kSq w t0 Hne HD HE (y k) P0 (U k) VY HU PP (HQ t0) eK HeK) as (C' & d' & PC' & Pd' & H').
      exists (Rmax C C'), (Rmin d d'). split; [eapply Rle_trans; [exact PC|apply Rmax_l]|]. split; [now apply Rmin_glb_lt|].
      intros s Hs ds Hds. assert (ds <= d) by (eapply Rle_trans; [apply Hds|apply Rmin_l]). assert (ds <= d') by (eapply Rle_trans; [apply Hds|apply Rmin_r]).
      assert (P4 : 0 <= ds ^ 4) by (apply pow_le; lra). destruct (Nat.eq_dec s k) as [->|Ns].
      + destruct (H' ds ltac:(lra)) as (A & _ & B). split; auto. eapply Rle_trans; [exact B|]. apply Rmult_le_compat_r; auto. apply Rmax_r.
      + destruct (H s ltac:(lia) ds ltac:(lra)) as (A & B). split; auto. eapply Rle_trans; [exact B|]. apply Rmult_le_compat_r; auto. apply Rmax_l. }
  destruct X as (C & d & PC & Pd & H). exists (INR np * C / P0), d. split; auto. intros ds Hds. split; [intros s Hs; now apply H|].
  unfold mixStress, limitMix, mixtureStress. unfold Rdiv at 1 2. rewrite <- Rmult_minus_distr_r, Rabs_mult, (Rabs_pos_eq (/ P0)) by (left; now apply Rinv_0_lt_compat).
  replace (INR np * C / P0 * ds ^ 4) with (INR np * (C * ds ^ 4) * / P0) by (field; lra).
  apply Rmult_le_compat_r; [left; now apply Rinv_0_lt_compat|]. apply sum_close. intros s Hs. now apply H.
Qed.

(** The exact free energy is differentiable and its derivative is the limit. *)
Lemma exact_derivative : forall dK dw dc xi rho t0, dims <> [] -> positive dims -> 0 < P0 -> scftPath dK dw dc xi rho t0 ->
  is_derive refEnergy t0 (limitMix dK t0).
Proof.
  intros dK dw dc xi rho t0 Hne HD PP (HE & HdK & Hw & Hc & HY & HZ & SY & EQ & INC).
  assert (NP : (0 < n)%nat) by (apply INR_lt; change (INR 0) with 0; apply INR_nR; exact HD).
  set (dl1 := fun s => Derive (fun t => ln (exactQ n (y s) (U s t))) t0).
  assert (D1 : forall s, (s < np)%nat -> is_derive (fun t => ln (exactQ n (y s) (U s t))) t0 (dl1 s) /\
    y_phi (y s) / y_length (y s) * dl1 s =
    - average n (fun x => rsum nm (fun m => exactConc n (y s) P0 (U s t0) m x * dw m x)) / P0 + - (limitStress dims t0 (y s) P0 (U s) dK / P0)).
  { intros s Hs. destruct (HY s Hs) as (VY & _ & HU & HQ).
    destruct (exact_response dims nm K w dK dw t0 HD HdK Hw (y s) P0 (U s) VY HU PP (HQ t0)) as (v & A & B).
    unfold dl1. replace (Derive (fun t => ln (exactQ n (y s) (U s t))) t0) with v by (symmetry; apply is_derive_unique; exact A). auto. }
  assert (NZ : P0 <> 0) by lra.
  destruct (C65_solvents n nm ns (fun s => z_type (z s)) (fun s => z_phi (z s)) (fun s => z_size (z s)) w dw P0 t0
     (fun m x t => rsum ns (fun s => if (z_type (z s) =? m)%nat then snd (solventOf dims P0 w (z s) t) x else 0)) NP NZ) as (lq & dl2 & Q2 & D2 & R2); auto.
  { intros s Hs. destruct (HZ s Hs) as (A & B & _). split; auto. lra. }
  set (phi := fun s => if (s <? np)%nat then y_phi (y s) else z_phi (z (s - np)%nat)).
  set (size := fun s => if (s <? np)%nat then y_length (y s) else z_size (z (s - np)%nat)).
  set (lqa := fun s t => if (s <? np)%nat then ln (exactQ n (y s) (U s t)) else lq (s - np)%nat t).
  set (dl := fun s => if (s <? np)%nat then dl1 s else dl2 (s - np)%nat).
  assert (LT : forall s, (s < np)%nat -> (s <? np)%nat = true) by (intros; now apply Nat.ltb_lt).
  assert (GE : forall s, (np + s <? np)%nat = false) by (intros; apply Nat.ltb_ge; lia).
  assert (RE : responds n nm (np + ns) phi size (fun _ => P0) refConc dl dw (- limitMix dK t0) t0).
  { unfold responds in *. rewrite rsum_add.
    rewrite (rsum_ext np _ (fun s => y_phi (y s) / y_length (y s) * dl1 s)) by (intros s Hs; unfold phi, size, dl; now rewrite LT).
    rewrite (rsum_ext ns _ (fun s => z_phi (z s) / z_size (z s) * dl2 s))
      by (intros s Hs; unfold phi, size, dl; rewrite GE; now replace (np + s - np)%nat with s by lia).
    rewrite R2, (rsum_ext np _ _ (fun s Hs => proj2 (D1 s Hs))), rsum_plus, rsum_opp.
    rewrite (rsum_ext np (fun s => - average n (fun x => rsum nm (fun m => exactConc n (y s) P0 (U s t0) m x * dw m x)) / P0) (fun s => (- / P0) * average n (fun x => rsum nm (fun m => exactConc n (y s) P0 (U s t0) m x * dw m x))))
      by (intros; unfold Rdiv; ring).
    rewrite rsum_scal.
    assert (S : rsum np (fun s => limitStress dims t0 (y s) P0 (U s) dK / P0) = rsum np (fun s => limitStress dims t0 (y s) P0 (U s) dK) * / P0)
      by (rewrite <- rsum_scal_r; reflexivity).
    rewrite S. unfold limitMix, refConc.
    assert (A : rsum np (fun s => average n (fun x => rsum nm (fun m => exactConc n (y s) P0 (U s t0) m x * dw m x)))
       = average n (fun x => rsum nm (fun m => rsum np (fun s => exactConc n (y s) P0 (U s t0) m x) * dw m x))).
    { unfold average, Rdiv. rewrite (rsum_scal_r np (/ INR n)). f_equal. rewrite rsum_swap. apply rsum_ext. intros x _.
      rewrite rsum_swap. apply rsum_ext. intros m _. now rewrite rsum_scal_r. }
    rewrite A.
    rewrite (avg_ext n (fun x => rsum nm (fun i => rsum np (fun s => exactConc n (y s) P0 (U s t0) i x) * dw i x)
        + rsum nm (fun i => rsum ns (fun s => if (z_type (z s) =? i)%nat then snd (solventOf dims P0 w (z s) t0) x else 0) * dw i x))
      (fun x => rsum nm (fun i => (rsum np (fun s => exactConc n (y s) P0 (U s t0) i x)
        + rsum ns (fun s => if (z_type (z s) =? i)%nat then snd (solventOf dims P0 w (z s) t0) x else 0)) * dw i x))).
    2:{ intros x _. rewrite <- rsum_plus. apply rsum_ext. intros. ring. }
    unfold average. rewrite rsum_plus. set (a := rsum _ _). set (b := rsum _ _). set (c := rsum np (fun s => limitStress dims t0 (y s) P0 (U s) dK)).
    field. split; [lra|apply not_0_INR; lia]. }
  assert (SM : smooth n nm (np + ns) (fun i j _ => chi i j) (fun _ => P0) lqa w (fun i x _ => h i x) refConc (fun x _ => rho x)
    (fun _ _ => 0) 0 dl dw (fun _ _ => 0) dc (fun _ => 0) t0).
  { unfold smooth. split; [exact PP|]. split; [apply @is_derive_const|]. split; [|split; [|split]].
    - intros s Hs. unfold lqa, dl. destruct (Nat.ltb_spec s np).
      + apply D1. auto.
      + apply D2. lia.
    - intros. apply @is_derive_const.
    - intros i x I X. split; [auto|]. split; [apply @is_derive_const|auto].
    - intros. apply @is_derive_const. }
  assert (SC : selfConsistent n nm (fun i j _ => chi i j) w (fun i x _ => h i x) refConc (fun x _ => rho x) xi t0).
  { unfold selfConsistent. auto. }
  assert (DE := C65_response _ _ _ _ _ _ _ _ _ _ _ _ _ _ _ _ _ _ _ _ _ _ SM RE SC).
  apply (is_derive_ext _ refEnergy) in DE.
  - match type of DE with is_derive _ _ ?v => replace v with (limitMix dK t0) in DE; [exact DE|] end.
    assert (Z : average n (fun x => rsum nm (fun i => 0 * refConc i x t0)
       + 1 / 2 * rsum nm (fun i => rsum nm (fun j => 0 * refConc i x t0 * refConc j x t0)) - xi x * 0) = 0).
    { unfold average. rewrite (rsum_ext _ _ (fun _ => 0)).
      - rewrite rsum_zero. unfold Rdiv. ring.
      - intros x _. rewrite (rsum_ext nm (fun i => 0 * _) (fun _ => 0)) by (intros; ring). rewrite rsum_zero.
        rewrite (rsum_ext nm (fun i => rsum nm _) (fun _ => 0)).
        + rewrite rsum_zero. ring.
        + intros i _. rewrite (rsum_ext nm _ (fun _ => 0)) by (intros; ring). apply rsum_zero. }
    rewrite Z. field. lra.
  - intro t. unfold pathEnergy, refEnergy, freeEnergy. f_equal. unfold translational. apply rsum_ext. intros s Hs.
    unfold speciesAt, refSpecies, phi, size, lqa. cbn [dPhi dMu dSize]. destruct (Nat.ltb_spec s np) as [L|L]; cbn [dPhi dMu dSize].
    + destruct (HY s L) as (VY & PH & _ & QP). specialize (QP t).
      rewrite (ln_div (y_phi (y s))), ln_div by (auto; now apply Rdiv_lt_0_compat). reflexivity.
    + assert (Q := Q2 (s - np)%nat t ltac:(lia)). destruct (HZ (s - np)%nat ltac:(lia)) as (_ & _ & PH).
      assert (M : sp_mu (fst (solventOf dims P0 w (z (s - np)%nat) t)) = ln (z_phi (z (s - np)%nat) / sp_q (fst (solventOf dims P0 w (z (s - np)%nat) t)))) by reflexivity.
      rewrite M. unfold solventOf in Q |- *. rewrite Q. assert (EP := exp_pos (lq (s - np)%nat t)).
      replace (z_phi (z (s - np)%nat) / (exp (lq (s - np)%nat t) / P0)) with (z_phi (z (s - np)%nat) * P0 * / exp (lq (s - np)%nat t)) by (field; lra).
      rewrite ln_mult, ln_Rinv, ln_mult, ln_exp; auto.
      * f_equal. ring.
      * now apply Rmult_lt_0_compat.
      * now apply Rinv_0_lt_compat.
Qed.

(** The stress with the wave weights of the c2r transform converges to the
    derivative of the exact free energy. *)
Theorem C70_stress : forall dK dw dc xi rho t0, dims <> [] -> positive dims -> 0 < P0 -> scftPath dK dw dc xi rho t0 ->
  exists F', is_derive refEnergy t0 F' /\ exists C d, 0 < d /\ forall ds, 0 < ds <= d -> runsOk ds t0 /\
    Rabs (mixStress (fun m => c2rWeight dims m * dK (gridPos (computeKMesh dims) m)) ds t0 - F') <= C * ds ^ 4.
Proof.
  intros dK dw dc xi rho t0 Hne HD PP SP. exists (limitMix dK t0). split; [eapply exact_derivative; eauto|].
  eapply mix_error; eauto. destruct SP as (HE & HdK & _). exact (dK_even dims K kSq dK t0 HE HdK).
Qed.

End Mixture.

Lemma threadStress_linear : forall dims kSq w P ds y d d' a,
  threadStress dims kSq w P ds y (fun m => d m + a * d' m) = threadStress dims kSq w P ds y d + a * threadStress dims kSq w P ds y d'.
Proof.
  intros. unfold threadStress. destruct (threadRun _ _ _ _ _ _) as [[s c]| | |]; try ring. destruct (threadProps _ _ _ _ _) as [st| | |]; try ring.
  unfold polymerStress. rewrite <- rsum_scal, <- rsum_plus. apply rsum_ext. intros b _.
  destruct (st (b, false)) as [l0|]; [|ring]. destruct (st (b, true)) as [l1|]; [|ring].
  unfold blockStressThread.
  assert (L : forall f g, waveSum dims (fun m => d m + a * d' m) f g = waveSum dims d f g + a * waveSum dims d' f g).
  { intros. unfold waveSum. rewrite <- rsum_scal, <- rsum_plus. apply rsum_ext. intros. ring. }
  match goal with |- -1 * ?pr * (0 - rsum ?k ?f) = -1 * _ * (0 - rsum _ ?g) + a * (-1 * _ * (0 - rsum _ ?g')) =>
    rewrite (rsum_ext k f (fun j => g j + a * g' j)) by (intros; cbv beta; rewrite L; ring); rewrite (rsum_plus k g), (rsum_scal k a g') end. ring.
Qed.
Lemma threadStress_ext : forall dims kSq w P ds y d d', (forall m, (m < nK dims)%nat -> d m = d' m) ->
  threadStress dims kSq w P ds y d = threadStress dims kSq w P ds y d'.
Proof.
  intros dims kSq w P ds y d d' H. unfold threadStress. destruct (threadRun _ _ _ _ _ _) as [[s c]| | |]; auto. destruct (threadProps _ _ _ _ _) as [st| | |]; auto.
  unfold polymerStress. apply rsum_ext. intros b _.
  destruct (st (b, false)) as [l0|]; auto. destruct (st (b, true)) as [l1|]; auto.
  unfold blockStressThread. do 2 f_equal. apply rsum_ext. intros j _. f_equal. apply waveSum_ext. exact H.
Qed.

(** Waves for which the code omits the factor of two: [missedWave] of the k-grid
    and its mirror image, which half of the derivative each is left out of. *)
Definition missedPos (dims q : list Z) : bool := negb (last q 0 =? 0)%Z && (last dims 0 - last q 0 =? last dims 0 / 2 + 1)%Z.
Definition missedK (dims : list Z) (dK : list Z -> R) (q : list Z) : R := if missedPos dims q || missedPos dims (negmod dims q) then dK q / 2 else 0.

Lemma negmod_twice : forall dims q, in_box dims q -> negmod dims (negmod dims q) = q.
Proof.
  induction dims as [|d dims IH]; intros q Q; inversion Q as [|? a ? ? H1 H2]; subst; auto. cbn [negmod]. rewrite IH by auto. f_equal.
  assert (M := Z.mod_pos_bound (- a) d ltac:(lia)).
  destruct (Z.eq_dec a 0) as [->|N].
  - reflexivity.
  - rewrite <- (Z.mod_unique (- a) d (-1) (d - a)); [|lia|lia]. symmetry. apply (Z.mod_unique _ d (-1)); lia.
Qed.
Lemma missedK_even : forall dims dK, evenWaves dims dK (fun m => dK (gridPos (computeKMesh dims) m)) ->
  evenWaves dims (missedK dims dK) (fun m => missedK dims dK (gridPos (computeKMesh dims) m)).
Proof.
  intros dims dK [E _]. split; [|reflexivity]. intros q Q. unfold missedK. rewrite negmod_twice, orb_comm, E by auto. reflexivity.
Qed.
Lemma negmod_snoc : forall dims q d a, length dims = length q -> negmod (dims ++ [d]) (q ++ [a]) = negmod dims q ++ [(- a) mod d]%Z.
Proof.
  induction dims as [|e dims IH]; intros q d a L; destruct q; try discriminate; auto.
  cbn [app negmod]. rewrite IH by (cbn in L; lia). reflexivity.
Qed.
Lemma missed_weights : forall dims dK m, dims <> [] -> positive dims -> (m < nK dims)%nat ->
  (if missedWave dims m then dK (gridPos (computeKMesh dims) m) else 0) = c2rWeight dims m * missedK dims dK (gridPos (computeKMesh dims) m).
Proof.
  intros dims dK m NE HD Hm. unfold missedK, c2rWeight. change (missedWave dims m) with (missedPos dims (gridPos (computeKMesh dims) m)).
  assert (KB := gridPos_in_box (computeKMesh dims) m (kmesh_positive _ HD) Hm).
  set (k := gridPos (computeKMesh dims) m) in *.
  destruct (snoc_cases dims NE) as [ds [n E]]. subst dims. apply Forall_app in HD. destruct HD as [HD HN]. inversion HN as [|? ? PN _]; subst.
  rewrite computeKMesh_snoc in KB. apply in_box_snoc in KB. destruct KB as (q & l & Ek & Bq & Bl). rewrite Z.quot_div_nonneg in Bl by lia.
  rewrite Ek. rewrite negmod_snoc by (symmetry; apply (in_box_len _ _ Bq)). unfold missedPos. rewrite !last_snoc.
  assert (D : (2 * (n / 2) <= n < 2 * (n / 2) + 2)%Z) by (Z.div_mod_to_equations; lia).
  assert (N : (l <> 0 -> (- l) mod n = n - l)%Z) by (intros; symmetry; apply (Z.mod_unique _ n (-1)); lia).
  destruct (Z.eq_dec l 0) as [->|L0].
  - cbn [Z.eqb negb andb orb]. rewrite Z.mod_0_l by lia. cbn. ring.
  - rewrite N by auto. replace (n - (n - l) =? n / 2 + 1)%Z with false by (symmetry; apply Z.eqb_neq; lia).
    rewrite andb_false_r, orb_false_r. destruct (Z.eqb_spec l 0); [lia|]. cbn [negb andb orb].
    destruct (Z.eqb_spec (n - l) (n / 2 + 1)); [|ring]. destruct (Z.eqb_spec (2 * l) n); [lia|]. cbn. field.
Qed.

(** The coded stress converges to that derivative without the missed waves. *)
Theorem C70_code : forall dims nm np ns y z P0 chi h K kSq w U dK dw dc xi rho t0,
  dims <> [] -> positive dims -> 0 < P0 -> scftPath dims nm np ns y z P0 chi h K kSq w U dK dw dc xi rho t0 ->
  is_derive (refEnergy dims nm np ns y z P0 chi h w U) t0 (limitMix dims np y P0 U dK t0) /\
  exists C d, 0 < d /\ forall ds, 0 < ds <= d -> runsOk dims np y P0 kSq w ds t0 /\
    Rabs (mixStress dims np y P0 kSq w (waveDKSq dims (fun m => dK (gridPos (computeKMesh dims) m))) ds t0
      - (limitMix dims np y P0 U dK t0 - limitMix dims np y P0 U (missedK dims dK) t0)) <= C * ds ^ 4.
Proof.
  intros dims nm np ns y z P0 chi h K kSq w U dK dw dc xi rho t0 Hne HD PP SP. split; [eapply exact_derivative; eauto|].
  assert (EV : evenWaves dims dK (fun m => dK (gridPos (computeKMesh dims) m))).
  { destruct SP as (HE & HdK & _). exact (dK_even dims K kSq dK t0 HE HdK). }
  destruct (mix_error dims nm np ns y z P0 chi h K kSq w U dK dw dc xi rho t0 dK Hne HD PP SP EV) as (C1 & d1 & P1 & H1).
  destruct (mix_error dims nm np ns y z P0 chi h K kSq w U dK dw dc xi rho t0 (missedK dims dK) Hne HD PP SP (missedK_even dims dK EV)) as (C2 & d2 & P2 & H2).
  exists (C1 + C2), (Rmin d1 d2). split; [now apply Rmin_glb_lt|]. intros ds Hds.
  assert (L1 : ds <= d1) by (eapply Rle_trans; [apply Hds|apply Rmin_l]). assert (L2 : ds <= d2) by (eapply Rle_trans; [apply Hds|apply Rmin_r]).
  destruct (H1 ds ltac:(lra)) as [A B1]. destruct (H2 ds ltac:(lra)) as [_ B2]. split; auto.
  set (M1 := mixStress _ _ _ _ _ _ _ _ _) in B1. set (M2 := mixStress _ _ _ _ _ _ _ _ _) in B2.
  replace (mixStress _ _ _ _ _ _ _ _ _) with (M1 - M2).
  2:{ unfold M1, M2, mixStress, mixtureStress, Rdiv. rewrite <- Rmult_minus_distr_r, <- rsum_minus. f_equal. apply rsum_ext. intros s _.
      rewrite (threadStress_ext dims _ _ P0 ds (y s) (waveDKSq dims (fun m => dK (gridPos (computeKMesh dims) m)))
        (fun m => c2rWeight dims m * dK (gridPos (computeKMesh dims) m) + -1 * (c2rWeight dims m * missedK dims dK (gridPos (computeKMesh dims) m)))).
      - rewrite threadStress_linear. ring.
      - intros m Hm. rewrite waveDKSq_missed, missed_weights by auto. reflexivity. }
  replace (M1 - M2 - (limitMix dims np y P0 U dK t0 - limitMix dims np y P0 U (missedK dims dK) t0))
    with ((M1 - limitMix dims np y P0 U dK t0) + - (M2 - limitMix dims np y P0 U (missedK dims dK) t0)) by ring.
  eapply Rle_trans; [apply Rabs_triang|]. rewrite Rabs_Ropp. lra.
Qed.

(** The coded stress is right where the missed waves do not depend on the
    parameter, in particular on grids of at most two points in the last direction. *)
Theorem C70_code_exact : forall dims nm np ns y z P0 chi h K kSq w U dK dw dc xi rho t0,
  dims <> [] -> positive dims -> 0 < P0 -> scftPath dims nm np ns y z P0 chi h K kSq w U dK dw dc xi rho t0 ->
  (forall m, (m < nK dims)%nat -> missedWave dims m = true -> dK (gridPos (computeKMesh dims) m) = 0) \/ (last dims 0 <= 2)%Z ->
  exists F', is_derive (refEnergy dims nm np ns y z P0 chi h w U) t0 F' /\
  exists C d, 0 < d /\ forall ds, 0 < ds <= d -> runsOk dims np y P0 kSq w ds t0 /\
    Rabs (mixStress dims np y P0 kSq w (waveDKSq dims (fun m => dK (gridPos (computeKMesh dims) m))) ds t0 - F') <= C * ds ^ 4.
Proof.
  intros dims nm np ns y z P0 chi h K kSq w U dK dw dc xi rho t0 Hne HD PP SP H.
  destruct (C70_stress dims nm np ns y z P0 chi h K kSq w U dK dw dc xi rho t0 Hne HD PP SP) as (F & D & C & d & Pd & B).
  exists F. split; auto. exists C, d. split; auto. intros ds Hds. destruct (B ds Hds) as [A E]. split; auto.
  replace (mixStress dims np y P0 kSq w (waveDKSq dims (fun m => dK (gridPos (computeKMesh dims) m))) ds t0)
    with (mixStress dims np y P0 kSq w (fun m => c2rWeight dims m * dK (gridPos (computeKMesh dims) m)) ds t0); auto.
  unfold mixStress, mixtureStress. f_equal. apply rsum_ext. intros s _. apply threadStress_ext. intros m Hm.
  rewrite waveDKSq_missed by auto. destruct (missedWave dims m) eqn:M; [|ring].
  destruct H as [H|H]; [rewrite (H m Hm M); ring|]. exfalso.
  assert (PL : (0 < last dims 0)%Z).
  { destruct (snoc_cases dims Hne) as [ds' [n ->]]. rewrite last_snoc. apply Forall_app in HD. destruct HD as [_ HP]. inversion HP; auto. }
  unfold missedWave in M. apply andb_prop in M. destruct M as [M1 M2]. apply Z.eqb_eq in M2. apply negb_true_iff, Z.eqb_neq in M1.
  assert (X : (last dims 0 = 1 \/ last dims 0 = 2)%Z) by lia.
  assert (K0 := gridPos_in_box (computeKMesh dims) m (kmesh_positive _ HD) Hm).
  set (k := gridPos (computeKMesh dims) m) in *. destruct (snoc_cases dims Hne) as [ds' [n E']]. subst dims. rewrite last_snoc in *.
  rewrite computeKMesh_snoc in K0. apply in_box_snoc in K0. destruct K0 as (q & l & Ek & _ & Bl). rewrite Ek, last_snoc in *.
  rewrite Z.quot_div_nonneg in Bl by lia. destruct X as [->| ->]; change (1 / 2)%Z with 0%Z in *; change (2 / 2)%Z with 1%Z in *; lia.
Qed.

(** A homopolymer and a solvent on three grid points, along a path on which
    |k|^2 and the field of the polymer grow in proportion to e^t while the field
    of the solvent keeps the total density uniform. *)
Definition triK (q : list Z) (t : R) : R := if (nth 0 q 0 =? 0)%Z then 0 else 18 * exp t.
Definition triKSq (dims : list Z) (k : nat) (t : R) : R := triK (gridPos (computeKMesh dims) k) t.
Definition triDK (q : list Z) : R := if (nth 0 q 0 =? 0)%Z then 0 else 18.
Definition triY : polySpec :=
  mkPoly [(0,1)%nat] [mkPBlock 1 0 1 0] (match readGraph 2 [(0,1)%nat] with Ok p => p | _ => mkPolymer [] [] [] [] end) (1 / 4).
Definition triZ : solvSpec := mkSolv 1 1 (3 / 4).
Definition triE (t s : R) : R := exp (- (3 * exp t * s)).
Definition triU (t : R) (x : nat * bool) (s : R) (i : nat) : R := if (i =? 0)%nat then 4 / 3 + -1 / 3 * triE t s else 2 / 3 + 1 / 3 * triE t s.
Definition triI (i : nat) (t : R) : R := let a := if (i =? 0)%nat then 4 / 3 else 2 / 3 in let b := if (i =? 0)%nat then -1 / 3 else 1 / 3 in
  a * a + 2 * a * b * ((1 - triE t 1) / (3 * exp t)) + b * b * triE t 1.
Definition triQ (t : R) : R := (8 + triE t 1) / 9.
Definition triC (i : nat) (t : R) : R := 1 / 4 / triQ t * triI i t.
Definition triW (m i : nat) (t : R) : R := if (m =? 0)%nat then exp t * (if (i =? 0)%nat then -1 else 1) else - ln (1 - triC i t).

Lemma cos4 : cos (4 * (PI / 3)) = -1 / 2.
Proof. replace (4 * (PI / 3)) with (2 * (2 * (PI / 3))) by ring. rewrite cos_2a_cos, cos_2PI3. lra. Qed.
Lemma cos8 : cos (8 * (PI / 3)) = -1 / 2.
Proof. replace (8 * (PI / 3)) with (2 * (4 * (PI / 3))) by ring. rewrite cos_2a_cos, cos4. lra. Qed.
Lemma cosk : forall k : Z, (-4 <= k <= 4)%Z -> cos (IZR k * (2 * (PI / 3))) = if (k mod 3 =? 0)%Z then 1 else -1 / 2.
Proof.
  assert (P : forall k, (0 <= k <= 4)%Z -> cos (IZR k * (2 * (PI / 3))) = if (k mod 3 =? 0)%Z then 1 else -1 / 2).
  { intros k Hk. assert (C : (k = 0 \/ k = 1 \/ k = 2 \/ k = 3 \/ k = 4)%Z) by lia. destruct C as [->|[->|[->|[->| ->]]]].
    - rewrite Rmult_0_l, cos_0. reflexivity.
    - rewrite Rmult_1_l, cos_2PI3. reflexivity.
    - replace (2 * (2 * (PI / 3))) with (4 * (PI / 3)) by ring. rewrite cos4. reflexivity.
    - replace (3 * (2 * (PI / 3))) with (2 * PI) by field. rewrite cos_2PI. reflexivity.
    - replace (4 * (2 * (PI / 3))) with (8 * (PI / 3)) by ring. rewrite cos8. reflexivity. }
  intros k Hk. destruct (Z_le_gt_dec 0 k) as [L|L]; [apply P; lia|].
  rewrite <- cos_neg. replace (- (IZR k * (2 * (PI / 3)))) with (IZR (- k) * (2 * (PI / 3))) by (rewrite opp_IZR; ring). rewrite P by lia.
  assert (C : (k = -1 \/ k = -2 \/ k = -3 \/ k = -4)%Z) by lia. destruct C as [->|[->|[->| ->]]]; reflexivity.
Qed.
Section Tri.
Variable dims : list Z.
Hypothesis TD : dims = [3]%Z \/ dims = [3; 1]%Z.
Lemma tri_positive : positive dims.
Proof. destruct TD as [E|E]; rewrite E; repeat constructor; lia. Qed.
Lemma nR3 : nR dims = 3%nat.
Proof. destruct TD as [E|E]; rewrite E; reflexivity. Qed.
Lemma tri_nonempty : dims <> [].
Proof. destruct TD as [E|E]; rewrite E; discriminate. Qed.
Lemma tri_even : forall t, evenWaves dims (fun q => triK q t) (fun k => triKSq dims k t).
Proof.
  intros t. split; [|reflexivity]. intros q Q.
  assert (S : exists a l, q = a :: l /\ (0 <= a < 3)%Z /\ exists l', negmod dims q = ((- a) mod 3)%Z :: l').
  { destruct TD as [E|E]; rewrite E in *; inversion Q as [|? a ? ? H1 H2]; subst; eexists _, _; (split; [reflexivity|]); (split; [lia|]); eexists; reflexivity. }
  destruct S as (a & l & -> & A & l' & N). cbv beta. rewrite N. unfold triK. cbn [nth].
  assert (C : (a = 0 \/ a = 1 \/ a = 2)%Z) by lia. destruct C as [->|[->| ->]]; reflexivity.
Qed.
Lemma tri_valid : validThread 2 triY.
Proof.
  split; [|split; [|split; [|split]]].
  - apply tree_by_parents with (par := fun v : nat => 0%nat).
    + repeat constructor; simpl; lia.
    + intros v Hv. simpl in Hv. assert (v = 1%nat) by lia. subst. split; [lia|]. exists 0%nat. simpl. split; [lia|auto].
  - discriminate.
  - reflexivity.
  - repeat constructor; cbn; lra.
  - exists 2%nat. split; [cbn; lia|reflexivity].
Qed.
Lemma tri_grid : forall p, (p < 3)%nat -> nth 0 (gridPos dims p) 0%Z = Z.of_nat p.
Proof. intros p Hp. destruct TD as [E|E]; rewrite E; (destruct p as [|[|[|p]]]; [| | |lia]); reflexivity. Qed.
Lemma tri_phase : forall p r s, (p < 3)%nat -> (r < 3)%nat -> (s < 3)%nat ->
  cos (phase dims (gridPos dims p) (gridPos dims r) - phase dims (gridPos dims p) (gridPos dims s))
  = if ((Z.of_nat p * Z.of_nat r - Z.of_nat p * Z.of_nat s) mod 3 =? 0)%Z then 1 else -1 / 2.
Proof.
  intros p r s Hp Hr Hs. rewrite <- cosk by nia.
  assert (P : forall q k, (q < 3)%nat -> (k < 3)%nat -> phase dims (gridPos dims q) (gridPos dims k) = IZR (Z.of_nat q * Z.of_nat k) * (2 * (PI / 3))).
  { intros q k Hq Hk. destruct TD as [E|E]; rewrite E.
    - assert (G : forall m, (m < 3)%nat -> gridPos [3]%Z m = [Z.of_nat m]) by (intros m Hm; destruct m as [|[|[|m]]]; [| | |lia]; reflexivity).
      rewrite !G by auto. cbn [phase]. field.
    - assert (G : forall m, (m < 3)%nat -> gridPos [3; 1]%Z m = [Z.of_nat m; 0%Z]) by (intros m Hm; destruct m as [|[|[|m]]]; [| | |lia]; reflexivity).
      rewrite !G by auto. cbn [phase]. rewrite Z.mul_0_r. field. }
  rewrite !P by auto. f_equal. rewrite minus_IZR. ring.
Qed.
Lemma tri_laplacian : forall t f i, (i < 3)%nat -> laplacian dims (fun q => triK q t) f i = - (6 * exp t) * (3 * f i - (f 0%nat + f 1%nat + f 2%nat)).
Proof.
  intros t f i Hi. unfold laplacian. rewrite nR3. cbn [rsum]. unfold triK. rewrite !tri_grid by lia.
  destruct i as [|[|[|i]]]; [| | |lia]; rewrite !tri_phase by lia;
    repeat match goal with |- context [if (?x =? ?y)%Z then _ else _] => let v := eval vm_compute in (x =? y)%Z in change (x =? y)%Z with v; cbv iota end;
    replace (INR 3) with 3 by (cbn; lra); field.
Qed.
Lemma tri_reference : forall t, reference dims (fun q => triK q t) (y_bs triY) (fun m i => triW m i t) (y_es triY) (triU t).
Proof.
  intros t. split.
  - intros [b d] Hx s i Hi. unfold is_prop in Hx. cbn in Hx. rewrite nR3 in Hi. assert (b = 0%nat) by lia. subst b.
    rewrite tri_laplacian by auto. cbn [fst triY y_bs pblockAt nth pb_monomer pb_kuhn]. unfold triW. cbn [Nat.eqb].
    assert (DE : is_derive (triE t) s (- (3 * exp t) * triE t s)).
    { unfold triE. auto_derive; auto. ring. }
    destruct i as [|[|[|i]]]; [| | |lia]; unfold triU; cbn [Nat.eqb];
      match goal with |- is_derive (fun s => ?a + ?b * triE t s) _ ?v => replace v with (0 + b * (- (3 * exp t) * triE t s)) by field end;
      (apply (is_derive_plus (fun _ => _) (fun s => _ * triE t s)); [apply @is_derive_const|apply (is_derive_scal (triE t)); exact DE]).
  - intros x l i Hx ND Hl Hi.
    assert (L : l = []).
    { destruct l as [|y l]; auto. exfalso. assert (I := proj1 (Hl y) (or_introl eq_refl)). clear Hl ND.
      destruct x as [[|bx] dx]; [|unfold is_prop in Hx; cbn in Hx; lia].
      destruct y as [[|b] d]; unfold feeds, is_prop, s_end, s_start, s_edge in I; cbn in I; [|lia].
      destruct d, dx; cbn in I; destruct I as (I1 & I2 & I3); try congruence; try lia. }
    subst l. cbn [lprod]. unfold triU, triE. rewrite Rmult_0_r, Ropp_0, exp_0. destruct (i =? 0)%nat; cbn; lra.
Qed.

Lemma triE_range : forall t, 0 < triE t 1 < 1.
Proof.
  intros t. unfold triE. split; [apply exp_pos|]. assert (X := exp_pos t).
  apply Rlt_le_trans with (exp 0); [apply exp_increasing; lra|rewrite exp_0; lra].
Qed.
Lemma tri_D : forall t, 0 < (1 - triE t 1) / (3 * exp t) < 1.
Proof.
  intros t. assert (X := exp_pos t). destruct (triE_range t). split; [apply Rdiv_lt_0_compat; lra|].
  apply (Rmult_lt_reg_r (3 * exp t)); [lra|]. unfold Rdiv. rewrite Rmult_assoc, Rinv_l by lra.
  assert (Y : 1 + - (3 * exp t * 1) < exp (- (3 * exp t * 1))) by (apply exp_ineq1; lra). unfold triE. lra.
Qed.
Lemma triQ_range : forall t, 8 / 9 < triQ t < 1.
Proof. intros t. destruct (triE_range t). unfold triQ. lra. Qed.
Lemma triC_range : forall i t, 0 < triC i t < 1.
Proof.
  intros i t. destruct (triQ_range t). destruct (tri_D t). destruct (triE_range t).
  assert (B : 0 < triI i t < 2) by (unfold triI; destruct (i =? 0)%nat; lra).
  unfold triC. replace (1 / 4 / triQ t * triI i t) with (triI i t / 4 / triQ t) by (field; lra).
  split; [apply Rdiv_lt_0_compat; lra|]. apply (Rmult_lt_reg_r (triQ t)); [lra|]. unfold Rdiv at 1. rewrite Rmult_assoc, Rinv_l by lra. lra.
Qed.
Lemma triC_sum : forall t, triC 0 t + triC 1 t + triC 2 t = 3 / 4.
Proof.
  intros t. destruct (triQ_range t). unfold triC, triI. cbn [Nat.eqb]. assert (X := exp_pos t). destruct (triE_range t).
  assert (Y : triE t 1 = 9 * triQ t - 8) by (unfold triQ; field). rewrite Y. field. lra.
Qed.
Lemma tri_exactQ : forall t, exactQ (nR dims) triY (triU t) = triQ t.
Proof.
  intros t. unfold exactQ, average. rewrite nR3. change (blockLen triY 0) with 1. cbn [rsum]. unfold triU. cbn [Nat.eqb].
  replace (triE t 0) with 1 by (unfold triE; rewrite Rmult_0_r, Ropp_0, exp_0; reflexivity).
  replace (INR 3) with 3 by (cbn; lra). unfold triQ. field.
Qed.
Lemma tri_integral : forall a b t, RInt (fun s => (a + b * triE t s) * (a + b * triE t (1 - s))) 0 1
  = a * a + 2 * a * b * ((1 - triE t 1) / (3 * exp t)) + b * b * triE t 1.
Proof.
  intros a b t. assert (X := exp_pos t). set (g := 3 * exp t). assert (PG : 0 < g) by (unfold g; lra).
  set (F := fun s => a * a * s - a * b / g * exp (- (g * s)) + a * b / g * exp (- (g * (1 - s))) + b * b * exp (- g) * s).
  assert (D : is_RInt (fun s => (a + b * triE t s) * (a + b * triE t (1 - s))) 0 1 (minus (F 1) (F 0))).
  { apply (is_RInt_derive F).
    - intros s _. unfold F, triE. fold g. auto_derive; auto.
      replace (exp (- g)) with (exp (- (g * s)) * exp (- (g * (1 - s)))) by (rewrite <- exp_plus; f_equal; ring).
      replace (- (g * (1 + - s))) with (- (g * (1 - s))) by ring. field. lra.
    - intros s _. apply (@ex_derive_continuous R_AbsRing R_NormedModule). unfold triE. auto_derive. auto. }
  rewrite (is_RInt_unique _ _ _ _ D). unfold minus, plus, opp. cbn. unfold F, triE. fold g.
  rewrite !Rmult_1_r, !Rmult_0_r, !Rminus_0_r. replace (1 - 1) with 0 by ring. rewrite Rmult_0_r, Rmult_1_r, Ropp_0, exp_0. field. lra.
Qed.
Lemma tri_conc : forall m x t, (m < 2)%nat -> exactConc (nR dims) triY 1 (triU t) m x = if (m =? 0)%nat then triC x t else 0.
Proof.
  intros m x t Hm. unfold exactConc. rewrite tri_exactQ. change (length (y_es triY)) with 1%nat. cbn [rsum]. change (blockMono triY 0) with 0%nat.
  destruct m as [|m]; cbn [Nat.eqb]; [|ring]. change (blockLen triY 0) with 1. change (y_phi triY) with (1 / 4).
  replace (y_length triY) with 1 by (unfold y_length; cbn; ring). unfold triC. destruct (triQ_range t).
  assert (E : RInt (fun s => triU t (0%nat, false) s x * triU t (0%nat, true) (1 - s) x) 0 1 = triI x t).
  { unfold triU, triI. destruct (x =? 0)%nat; apply tri_integral. }
  rewrite E. field. lra.
Qed.
Lemma tri_solvent : forall x t, snd (solventOf dims 1 triW triZ t) x = 1 - triC x t.
Proof.
  intros x t. unfold solventOf, rpcSolvent. cbn [snd triZ z_type z_size z_phi]. unfold triW. cbn [Nat.eqb].
  assert (E : forall i, exp (-1 * - ln (1 - triC i t)) = 1 - triC i t).
  { intros i. replace (-1 * - ln (1 - triC i t)) with (ln (1 - triC i t)) by ring. apply exp_ln. destruct (triC_range i t). lra. }
  rewrite nR3. cbn [rsum setQ sp_phi]. rewrite !E. replace (INR 3) with 3 by (cbn; lra).
  assert (S := triC_sum t). replace ((0 + (1 - triC 0 t) + (1 - triC 1 t) + (1 - triC 2 t)) / 3 / 1) with (3 / 4) by lra.
  unfold setQ. cbn. field.
Qed.
Notation triRef := (refConc dims 1 1 (fun _ => triY) (fun _ => triZ) 1 triW (fun _ => triU)).
Lemma tri_refConc : forall m x t, (m < 2)%nat -> triRef m x t = if (m =? 0)%nat then triC x t else 1 - triC x t.
Proof.
  intros m x t Hm. unfold refConc. cbn [rsum]. rewrite tri_conc by auto. cbn [triZ z_type]. fold triZ. rewrite tri_solvent.
  destruct m as [|[|m]]; [| |lia]; cbn [Nat.eqb]; ring.
Qed.
Lemma triC_derive : forall i, ex_derive (triC i) 0.
Proof.
  intros i. assert (X := exp_pos 0). assert (Y := exp_pos (- (3 * exp 0 * 1))).
  unfold triC, triI, triQ, triE. destruct (i =? 0)%nat; auto_derive; repeat split; try lra.
Qed.
Lemma triW_derive : forall m i, ex_derive (triW m i) 0.
Proof.
  intros m i. unfold triW. destruct (m =? 0)%nat; [destruct (i =? 0)%nat; auto_derive; auto|].
  destruct (triC_derive i) as [l D]. exists (- ((0 - l) * / (1 - triC i 0))).
  apply (is_derive_opp (fun t => ln (1 - triC i t))). apply (is_derive_comp ln (fun t => 1 - triC i t)).
  - apply is_derive_ln. destruct (triC_range i 0). lra.
  - apply (is_derive_minus (fun _ => 1) (triC i)); [apply @is_derive_const|exact D].
Qed.
Definition triDw (m i : nat) : R := Derive (triW m i) 0.
Definition triDc (m i : nat) : R := Derive (triRef m i) 0.
Notation triPath := (scftPath dims 2 1 1 (fun _ => triY) (fun _ => triZ) 1 (fun _ _ => 0) (fun i x => triW i x 0)
   triK (triKSq dims) triW (fun _ => triU) triDK triDw triDc (fun _ => 0) (fun _ => 1) 0).
Lemma tri_path : triPath.
Proof.
  unfold scftPath. split; [exact tri_even|]. split; [|split; [|split; [|split; [|split; [|split; [|split]]]]]].
  - intros q _. unfold triK, triDK. destruct (nth 0 q 0 =? 0)%Z; [apply @is_derive_const|]. auto_derive; auto. rewrite exp_0. ring.
  - intros m i _ _. apply Derive_correct, triW_derive.
  - intros m i Hm _. apply Derive_correct. destruct (triC_derive i) as [l D].
    apply (ex_derive_ext (fun t => if (m =? 0)%nat then triC i t else 1 - triC i t)); [intros t; symmetry; now apply tri_refConc|].
    destruct (m =? 0)%nat; [exists l; exact D|]. exists (0 - l). apply (is_derive_minus (fun _ => 1) (triC i)); [apply @is_derive_const|exact D].
  - intros s _. split; [exact tri_valid|]. split; [cbn; lra|]. split; [exact tri_reference|]. intros t. rewrite tri_exactQ. destruct (triQ_range t). lra.
  - intros s _. cbn. split; [lia|lra].
  - reflexivity.
  - intros i x _ _. cbn [rsum]. ring.
  - intros t x _. cbn [rsum]. rewrite !tri_refConc by lia. cbn [Nat.eqb]. ring.
Qed.
(** The derivative of the exact free energy along the path. *)
Lemma tri_limit : 0 < limitMix dims 1 (fun _ => triY) 1 (fun _ => triU) triDK 0.
Proof.
  destruct tri_path as (_ & HdK & Hw & _).
  destruct (exact_response dims 2 triK triW triDK triDw 0 tri_positive HdK Hw triY 1 triU tri_valid tri_reference ltac:(lra)
    ltac:(rewrite tri_exactQ; destruct (triQ_range 0); lra)) as (dlq & D & R).
  set (E := triE 0 1) in *.
  assert (EE : E = exp (- 3)) by (unfold E, triE; f_equal; rewrite exp_0; ring).
  assert (DL : dlq = - 3 * E / (8 + E)).
  { apply (derive_value (fun t => ln (exactQ (nR dims) triY (triU t))) 0); auto.
    apply (is_derive_ext (fun t => ln (triQ t))); [intros t; now rewrite tri_exactQ|].
    assert (X := triQ_range 0). replace (- 3 * E / (8 + E)) with ((-3 * E / 9) * / triQ 0).
    2:{ unfold triQ. fold E. destruct (triE_range 0). fold E in H, H0. field. lra. }
    apply (is_derive_comp ln triQ); [apply is_derive_ln; lra|]. unfold triQ, triE. auto_derive; auto. fold E. unfold E, triE. rewrite !exp_0, !Rmult_1_r. field. }
  assert (W : forall i, triDw 0 i = if (i =? 0)%nat then -1 else 1).
  { intros i. apply is_derive_unique. unfold triW. cbn [Nat.eqb]. destruct (i =? 0)%nat; auto_derive; auto; rewrite exp_0; ring. }
  assert (A : average (nR dims) (fun x => rsum 2 (fun m => exactConc (nR dims) triY 1 (triU 0) m x * triDw m x))
     = (- triC 0 0 + triC 1 0 + triC 2 0) / 3).
  { rewrite (avg_ext (nR dims) (fun x => triC x 0 * (if (x =? 0)%nat then -1 else 1))).
    - unfold average. rewrite nR3. cbn [rsum Nat.eqb]. replace (INR 3) with 3 by (cbn; lra). field.
    - intros x _. cbn [rsum]. rewrite !tri_conc, W by lia. cbn [Nat.eqb]. ring. }
  rewrite A, DL in R. unfold limitMix. cbn [rsum]. change (y_phi triY) with (1 / 4) in R. replace (y_length triY) with 1 in R by (unfold y_length; cbn; ring).
  destruct (triE_range 0) as [E0 E1]. fold E in E0, E1.
  assert (C : - triC 0 0 + triC 1 0 + triC 2 0 = - (1 / 12 * (8 + 13 * E) / (8 + E))).
  { unfold triC, triI, triQ. cbn [Nat.eqb]. fold E. rewrite exp_0. field. lra. }
  rewrite C in R. set (L := limitStress _ _ _ _ _ _) in *.
  assert (V : L = 1 / 4 * (8 * (1 + 5 * E) / 9) / (8 + E)).
  { assert (R' : L = - (1 / 4 / 1 * (-3 * E / (8 + E))) + 1 / 12 * (8 + 13 * E) / (8 + E) / 3) by lra. rewrite R'. field. lra. }
  rewrite Rplus_0_l. unfold Rdiv at 1. rewrite Rinv_1, Rmult_1_r, V. apply Rdiv_lt_0_compat; lra.
Qed.
End Tri.
Definition d3 : [3]%Z = [3]%Z \/ [3]%Z = [3; 1]%Z := or_introl eq_refl.
Definition d31 : [3; 1]%Z = [3]%Z \/ [3; 1]%Z = [3; 1]%Z := or_intror eq_refl.

Lemma kernel_scal : forall dims (K K' : list Z -> R) a i j, (forall p, (p < nR dims)%nat -> K' (gridPos dims p) = a * K (gridPos dims p)) ->
  kernel dims K' i j = a * kernel dims K i j.
Proof.
  intros dims K K' a i j H. unfold kernel, Rdiv. rewrite <- Rmult_assoc. f_equal. rewrite <- rsum_scal. apply rsum_ext. intros p Hp. rewrite H by auto. ring.
Qed.
Lemma refStress_scal : forall dims bs U (dK dK' : list Z -> R) a b, (forall p, (p < nR dims)%nat -> dK' (gridPos dims p) = a * dK (gridPos dims p)) ->
  refStress dims bs U dK' b = a * refStress dims bs U dK b.
Proof.
  intros dims bs U dK dK' a b H. unfold refStress.
  rewrite (rsum_ext (nR dims) _ (fun i => a * rsum (nR dims) (fun j => kernel dims dK i j * refII bs U b i j))).
  - rewrite rsum_scal. ring.
  - intros i _. rewrite <- rsum_scal. apply rsum_ext. intros j _. rewrite (kernel_scal dims dK dK' a) by auto. ring.
Qed.

(** The coded stress does not converge to the derivative: on three grid points
    the only waves that contribute are weighed half. *)
Theorem C70_refuted : exists dims nm np ns y z P0 chi h K kSq w U dK dw dc xi rho t0 F', dims <> [] /\ positive dims /\ 0 < P0 /\
  scftPath dims nm np ns y z P0 chi h K kSq w U dK dw dc xi rho t0 /\
  is_derive (refEnergy dims nm np ns y z P0 chi h w U) t0 F' /\ 0 < F' /\
  exists C d, 0 < d /\ forall ds, 0 < ds <= d -> runsOk dims np y P0 kSq w ds t0 /\
    Rabs (mixStress dims np y P0 kSq w (waveDKSq dims (fun m => dK (gridPos (computeKMesh dims) m))) ds t0 - F' / 2) <= C * ds ^ 4.
Proof.
  exists [3]%Z, 2%nat, 1%nat, 1%nat, (fun _ => triY), (fun _ => triZ), 1, (fun _ _ => 0), (fun i x => triW i x 0),
    triK, (triKSq [3]%Z), triW, (fun _ => triU), triDK, triDw, (triDc [3]%Z), (fun _ => 0), (fun _ => 1), 0, (limitMix [3]%Z 1 (fun _ => triY) 1 (fun _ => triU) triDK 0).
  split; [discriminate|]. split; [exact (tri_positive _ d3)|]. split; [lra|]. split; [exact (tri_path _ d3)|].
  destruct (C70_code [3]%Z 2 1 1 (fun _ => triY) (fun _ => triZ) 1 (fun _ _ => 0) (fun i x => triW i x 0) triK (triKSq [3]%Z) triW (fun _ => triU) triDK triDw (triDc [3]%Z)
    (fun _ => 0) (fun _ => 1) 0 ltac:(discriminate) (tri_positive _ d3) ltac:(lra) (tri_path _ d3)) as (A & C & d & Pd & B).
  split; [exact A|]. split; [exact (tri_limit _ d3)|]. exists C, d. split; [exact Pd|]. intros ds Hds. destruct (B ds Hds) as [B1 B2]. split; [exact B1|].
  assert (E : limitMix [3]%Z 1 (fun _ => triY) 1 (fun _ => triU) (missedK [3]%Z triDK) 0 = 1 / 2 * limitMix [3]%Z 1 (fun _ => triY) 1 (fun _ => triU) triDK 0).
  { unfold limitMix, limitStress. change (length (y_es triY)) with 1%nat. cbn [rsum].
    rewrite (refStress_scal [3]%Z (y_bs triY) (triU 0) triDK (missedK [3]%Z triDK) (1 / 2)).
    - set (r := refStress _ _ _ _ _). set (c := y_phi triY / _). field.
    - intros p Hp. change (nR [3]%Z) with 3%nat in Hp. destruct p as [|[|[|p]]]; [| | |lia];
        [change (gridPos [3]%Z 0) with [0]%Z|change (gridPos [3]%Z 1) with [1]%Z|change (gridPos [3]%Z 2) with [2]%Z];
        unfold missedK, triDK; cbn; lra. }
  rewrite E in B2. set (L := limitMix _ _ _ _ _ _ _) in *. replace (L / 2) with (L - 1 / 2 * L) by field. exact B2.
Qed.

(** The same path meets the hypotheses of [C70_stress], [C70_code] and, for the
    polymer alone, [C70_polymer]. *)
Example C70_tri : exists F', is_derive (refEnergy [3]%Z 2 1 1 (fun _ => triY) (fun _ => triZ) 1 (fun _ _ => 0) (fun i x => triW i x 0) triW (fun _ => triU)) 0 F' /\
  0 < F' /\ exists C d, 0 < d /\ forall ds, 0 < ds <= d -> runsOk [3]%Z 1 (fun _ => triY) 1 (triKSq [3]%Z) triW ds 0 /\
    Rabs (mixStress [3]%Z 1 (fun _ => triY) 1 (triKSq [3]%Z) triW (fun m => c2rWeight [3]%Z m * triDK (gridPos (computeKMesh [3]%Z) m)) ds 0 - F') <= C * ds ^ 4.
Proof.
  destruct (C70_stress [3]%Z 2 1 1 (fun _ => triY) (fun _ => triZ) 1 (fun _ _ => 0) (fun i x => triW i x 0) triK (triKSq [3]%Z) triW (fun _ => triU) triDK triDw (triDc [3]%Z)
    (fun _ => 0) (fun _ => 1) 0 ltac:(discriminate) (tri_positive _ d3) ltac:(lra) (tri_path _ d3)) as (F & D & B).
  exists F. split; [exact D|]. split; [|exact B].
  assert (D' := exact_derivative [3]%Z 2 1 1 (fun _ => triY) (fun _ => triZ) 1 (fun _ _ => 0) (fun i x => triW i x 0) triK (triKSq [3]%Z) triW (fun _ => triU) triDK triDw (triDc [3]%Z)
    (fun _ => 0) (fun _ => 1) 0 ltac:(discriminate) (tri_positive _ d3) ltac:(lra) (tri_path _ d3)).
  rewrite (derive_value _ _ _ _ D D'). exact (tri_limit _ d3).
Qed.

(** On the mesh 3 x 1 no wave is missed, so the coded stress is right. *)
Example C70_tri_code : exists F', is_derive (refEnergy [3; 1]%Z 2 1 1 (fun _ => triY) (fun _ => triZ) 1 (fun _ _ => 0) (fun i x => triW i x 0) triW (fun _ => triU)) 0 F' /\
  0 < F' /\ exists C d, 0 < d /\ forall ds, 0 < ds <= d -> runsOk [3; 1]%Z 1 (fun _ => triY) 1 (triKSq [3; 1]%Z) triW ds 0 /\
    Rabs (mixStress [3; 1]%Z 1 (fun _ => triY) 1 (triKSq [3; 1]%Z) triW (waveDKSq [3; 1]%Z (fun m => triDK (gridPos (computeKMesh [3; 1]%Z) m))) ds 0 - F') <= C * ds ^ 4.
Proof.
  assert (L : (last [3; 1]%Z 0 <= 2)%Z) by (cbn; lia).
  destruct (C70_code_exact [3; 1]%Z 2 1 1 (fun _ => triY) (fun _ => triZ) 1 (fun _ _ => 0) (fun i x => triW i x 0) triK (triKSq [3; 1]%Z) triW (fun _ => triU) triDK triDw
    (triDc [3; 1]%Z) (fun _ => 0) (fun _ => 1) 0 ltac:(discriminate) (tri_positive _ d31) ltac:(lra) (tri_path _ d31) (or_intror L)) as (F & D & B).
  exists F. split; [exact D|]. split; [|exact B].
  assert (D' := exact_derivative [3; 1]%Z 2 1 1 (fun _ => triY) (fun _ => triZ) 1 (fun _ _ => 0) (fun i x => triW i x 0) triK (triKSq [3; 1]%Z) triW (fun _ => triU) triDK triDw
    (triDc [3; 1]%Z) (fun _ => 0) (fun _ => 1) 0 ltac:(discriminate) (tri_positive _ d31) ltac:(lra) (tri_path _ d31)).
  rewrite (derive_value _ _ _ _ D D'). exact (tri_limit _ d31).
Qed.

Print Assumptions C70_polymer.
Print Assumptions C70_stress.
Print Assumptions C70_code.
Print Assumptions C70_code_exact.
Print Assumptions C70_refuted.
