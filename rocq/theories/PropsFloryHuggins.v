(** C56: thermodynamics of the homogeneous mixture. *)
From Coq Require Import Reals List Arith Bool ZArith SpecFloat Lia Lra.
From Coquelicot Require Import Coquelicot.
From Verif Require Import Base RSum Interaction UnitCellProofs FloryHuggins.
From Coq Require Import List.
Import ListNotations.
Local Open Scope R_scope.

(** *** Specification *)
(** Amount of monomers of type k in a list of (type, amount). *)
Definition amount (cl : list (nat * R)) (k : nat) : R :=
  lsum (fun q => if (fst q =? k)%nat then snd q else 0) cl.
(** A molecule of at least one clump, all of positive size and with valid monomer types,
    whose size is the sum of sizes of its clumps. *)
Definition goodMolecule (nMon : nat) (m : rmol) : Prop :=
  let cl : list (nat * R) := mClumps m in
  cl <> [] /\ (forall q, In q cl -> (fst q < nMon)%nat /\ 0 < snd q) /\ mSize m = lsum snd cl.
Definition goodMixture (nMon : nat) (mols : list rmol) : Prop :=
  mols <> [] /\ Forall (goodMolecule nMon) mols.
(** Volume fractions of all species but the last: valid if they are fractions and leave
    a nonnegative remainder. *)
Definition validPhi (n : nat) (phi : nat -> R) : Prop :=
  (forall i, (i < n - 1)%nat -> 0 <= phi i <= 1) /\ rsum (n - 1) phi <= 1.
Definition fraction (mols : list rmol) (i k : nat) : R := amount (clumps mols i) k / size mols i.
Definition monomers (mols : list rmol) (phi : nat -> R) (k : nat) : R :=
  rsum (length mols) (fun i => phi i * fraction mols i k).
(** Flory-Huggins free energy and chemical potential. *)
Definition idealF (mols : list rmol) (phi : nat -> R) : R :=
  rsum (length mols) (fun i => phi i * (ln (phi i) - 1) / size mols i).
Definition excessF (nMon : nat) (chi : nat -> nat -> R) (c : nat -> R) : R :=
  rsum nMon (fun i => rsum nMon (fun j => chi i j * c i * c j)) / 2.
Definition mixtureF nMon chi mols phi : R := idealF mols phi + excessF nMon chi (monomers mols phi).
Definition chemPot (nMon : nat) (chi : nat -> nat -> R) (mols : list rmol) (phi : nat -> R) (xi : R) (m : nat) : R :=
  ln (phi m) + xi * size mols m +
  rsum nMon (fun k => rsum nMon (fun l => amount (clumps mols m) k * chi k l * monomers mols phi l)).

(** *** Lemmas *)
Lemma rle_true : forall x y, x <= y -> (if Rle_dec x y then true else false) = true.
Proof. intros x y H. now destruct (Rle_dec x y). Qed.
Lemma rlt_true : forall x y, x < y -> (if Rlt_dec x y then true else false) = true.
Proof. intros x y H. now destruct (Rlt_dec x y). Qed.

Lemma checkSum_ok : forall n k (x : nat -> R) s,
  (forall i, (i < n)%nat -> 0 <= x (k + i)%nat <= 1) ->
  checkSum (A := Rarith) k n x s = Ok (s + rsum n (fun i => x (k + i)%nat)).
Proof.
  induction n as [|n IH]; intros k x s H; cbn [checkSum]; [cbn [rsum]; now rewrite Rplus_0_r|].
  assert (H0 := H 0%nat ltac:(lia)). rewrite Nat.add_0_r in H0.
  cbn [aLe Rarith a0 a1 aAdd]. rewrite (rle_true 0 (x k)) by lra. rewrite (rle_true (x k) 1) by lra.
  cbn [check]. rewrite IH.
  - apply (f_equal (@Ok R)). rewrite rsum_S_first. rewrite Nat.add_0_r.
    rewrite (rsum_ext n (fun i => x (S k + i)%nat) (fun i => x (k + S i)%nat)) by (intros; f_equal; lia). ring.
  - intros i Hi. replace (S k + i)%nat with (k + S i)%nat by lia. apply H. lia.
Qed.
Lemma checkSum_throw : forall n k (x : nat -> R) s,
  ~ (forall i, (i < n)%nat -> 0 <= x (k + i)%nat <= 1) -> checkSum (A := Rarith) k n x s = Throw.
Proof.
  induction n as [|n IH]; intros k x s H; cbn [checkSum]; [exfalso; apply H; intros; lia|].
  cbn [aLe Rarith a0 a1 aAdd].
  destruct (Rle_dec 0 (x k)) as [L|L]; cbn [check]; [|reflexivity].
  destruct (Rle_dec (x k) 1) as [L'|L']; cbn [check]; [|reflexivity].
  apply IH. intro K. apply H. intros i Hi. destruct i as [|i].
  - rewrite Nat.add_0_r. lra.
  - replace (k + S i)%nat with (S k + i)%nat by lia. apply K. lia.
Qed.

Lemma checkSum_cases : forall n k (x : nat -> R) s,
  checkSum (A := Rarith) k n x s = Ok (s + rsum n (fun i => x (k + i)%nat)) \/
  checkSum (A := Rarith) k n x s = Throw.
Proof.
  induction n as [|n IH]; intros k x s; cbn [checkSum].
  - left. cbn [rsum]. now rewrite Rplus_0_r.
  - cbn [aLe Rarith a0 a1 aAdd].
    destruct (Rle_dec 0 (x k)) as [L|L]; cbn [check]; [|now right].
    destruct (Rle_dec (x k) 1) as [L'|L']; cbn [check]; [|now right].
    destruct (IH (S k) x (s + x k)) as [E|E]; cbn [Rarith] in E; rewrite E; [left|now right].
    apply (f_equal (@Ok R)). rewrite rsum_S_first, Nat.add_0_r.
    rewrite (rsum_ext n (fun i => x (S k + i)%nat) (fun i => x (k + S i)%nat)) by (intros; f_equal; lia). ring.
Qed.

Lemma addClumps_R : forall cl (a : R) (c : nat -> R) k,
  @eq R (addClumps (A := Rarith) a cl c k) (c k + a * amount cl k).
Proof.
  unfold addClumps, amount. induction cl as [|[t s] cl IH]; intros a c k; cbn [fold_left lsum fst snd].
  - ring.
  - rewrite IH. unfold upd. cbn [aAdd aMul Rarith]. rewrite (Nat.eqb_sym k t).
    destruct (t =? k)%nat eqn:E; [apply Nat.eqb_eq in E; subst t|]; ring.
Qed.
Lemma addMolecules_R : forall mols i (phi c : nat -> R) k,
  @eq R (addMolecules (A := Rarith) mols i phi c k)
  (c k + rsum (length mols) (fun j => phi (i + j)%nat * fraction mols j k)).
Proof.
  induction mols as [|m r IH]; intros i phi c k; cbn [addMolecules length]; [cbn [rsum]; ring|].
  rewrite IH, addClumps_R, rsum_S_first. cbn [aDiv Rarith].
  rewrite (rsum_ext _ (fun j => phi (S i + j)%nat * fraction r j k)
                      (fun j => phi (i + S j)%nat * fraction (m :: r) (S j) k)).
  - rewrite Nat.add_0_r. unfold fraction at 2, clumps, size, mol. cbn [nth]. unfold Rdiv. ring.
  - intros j _. replace (i + S j)%nat with (S i + j)%nat by lia. reflexivity.
Qed.
Lemma computeSize_R : forall cl, @eq R (computeSize (A := Rarith) cl) (lsum snd cl).
Proof.
  assert (K : forall cl (s : R), fold_left (fun s (c : nat * R) => s + snd c) cl s = s + lsum snd cl).
  { induction cl as [|q cl IH]; intros s; cbn [fold_left lsum]; [ring|]. rewrite IH. ring. }
  intros cl. unfold computeSize. cbn [aAdd a0 aT Rarith]. rewrite K. ring.
Qed.
Lemma amount_total : forall nMon cl, (forall q, In q cl -> (fst q < nMon)%nat) ->
  rsum nMon (amount cl) = lsum snd cl.
Proof.
  unfold amount. induction cl as [|[t s] cl IH]; intros H; cbn [lsum snd].
  - apply rsum_zero.
  - rewrite rsum_plus, IH by (intros q Hq; apply H; now right). f_equal.
    rewrite (rsum_single nMon t).
    + cbn [fst snd]. now rewrite Nat.eqb_refl.
    + apply (H (t, s)). now left.
    + intros i _ Hi. cbn [fst]. destruct (t =? i)%nat eqn:E; [apply Nat.eqb_eq in E; lia|reflexivity].
Qed.
Lemma amount_weighted : forall nMon cl (w : nat -> R), (forall q, In q cl -> (fst q < nMon)%nat) ->
  lsum (fun q => snd q * w (fst q)) cl = rsum nMon (fun k => amount cl k * w k).
Proof.
  unfold amount. induction cl as [|[t s] cl IH]; intros w H; cbn [lsum fst snd].
  - rewrite (rsum_ext _ _ (fun _ => 0)) by (intros; ring). now rewrite rsum_zero.
  - rewrite IH by (intros q Hq; apply H; now right).
    symmetry. rewrite (rsum_ext nMon _ (fun k => (if (t =? k)%nat then s else 0) * w k +
      lsum (fun q => if (fst q =? k)%nat then snd q else 0) cl * w k)) by (intros; cbn [fst snd]; ring).
    rewrite rsum_plus. f_equal. rewrite (rsum_single nMon t).
    + now rewrite Nat.eqb_refl.
    + apply (H (t, s)). now left.
    + intros i _ Hi. destruct (t =? i)%nat eqn:E; [apply Nat.eqb_eq in E; lia|ring].
Qed.
Lemma amount_nonneg : forall cl k, (forall q, In q cl -> 0 < snd q) -> 0 <= amount cl k.
Proof.
  unfold amount. induction cl as [|q cl IH]; intros k H; cbn [lsum]; [lra|].
  assert (0 <= lsum (fun q => if (fst q =? k)%nat then snd q else 0) cl) by (apply IH; intros; apply H; now right).
  assert (0 < snd q) by (apply H; now left). destruct (fst q =? k)%nat; lra.
Qed.

Section Mix.
Variable nMon : nat.
Variable mols : list rmol.
Notation n := (length mols).
Hypothesis G : goodMixture nMon mols.

Lemma n_pos : (0 < n)%nat.
Proof. destruct G as [H _]. destruct mols; [congruence|cbn; lia]. Qed.
Lemma mol_good : forall i, (i < n)%nat -> goodMolecule nMon (mol mols i).
Proof. intros i H. destruct G as [_ F]. rewrite Forall_forall in F. apply F. now apply nth_In. Qed.
Lemma clump_ids : forall i q, (i < n)%nat -> In q (clumps mols i) -> (fst q < nMon)%nat.
Proof. intros i q H K. destruct (mol_good i H) as (_ & P & _). now apply P in K. Qed.
Lemma clump_pos : forall i q, (i < n)%nat -> In q (clumps mols i) -> 0 < snd q.
Proof. intros i q H K. destruct (mol_good i H) as (_ & P & _). now apply P in K. Qed.
Lemma size_sum : forall i, (i < n)%nat -> size mols i = lsum snd (clumps mols i).
Proof. intros i H. now destruct (mol_good i H) as (_ & _ & P). Qed.
Lemma lsum_pos : forall (cl : list (nat * R)), cl <> [] -> (forall q, In q cl -> 0 < snd q) -> 0 < lsum snd cl.
Proof.
  induction cl as [|q cl IH]; intros H K; [congruence|]. cbn [lsum].
  assert (0 < snd q) by (apply K; now left).
  destruct cl as [|q' cl]; [cbn [lsum]; lra|].
  assert (0 < lsum snd (q' :: cl)); [|lra]. apply IH; [congruence|]. intros; apply K; now right.
Qed.
Lemma size_pos : forall i, (i < n)%nat -> 0 < size mols i.
Proof.
  intros i H. rewrite (size_sum i H). apply lsum_pos; [|intros q; now apply clump_pos].
  now destruct (mol_good i H).
Qed.
Lemma fraction_nonneg : forall i k, (i < n)%nat -> 0 <= fraction mols i k.
Proof.
  intros i k H. unfold fraction. apply Rmult_le_pos.
  - apply amount_nonneg. intros q; now apply clump_pos.
  - left. apply Rinv_0_lt_compat. now apply size_pos.
Qed.
Lemma fraction_total : forall i, (i < n)%nat -> rsum nMon (fraction mols i) = 1.
Proof.
  intros i H. unfold fraction, Rdiv. rewrite rsum_scal_r, amount_total by (intros q; now apply clump_ids).
  rewrite <- (size_sum i H). assert (P := size_pos i H). field. lra.
Qed.
Lemma monomers_total : forall phi, rsum n phi = 1 -> rsum nMon (monomers mols phi) = 1.
Proof.
  intros phi S. unfold monomers. rewrite rsum_swap.
  rewrite (rsum_ext _ _ phi); [assumption|]. intros i Hi. rewrite rsum_scal, fraction_total by assumption. ring.
Qed.
Lemma monomers_range : forall phi k, rsum n phi = 1 -> (forall i, (i < n)%nat -> 0 <= phi i) -> (k < nMon)%nat ->
  0 <= monomers mols phi k <= 1.
Proof.
  intros phi k S P Hk.
  assert (N : forall k, 0 <= monomers mols phi k).
  { intros j. unfold monomers. apply rsum_pos_le. intros i Hi. apply Rmult_le_pos; auto using fraction_nonneg. }
  split; [apply N|]. rewrite <- (monomers_total phi S).
  assert (E : rsum nMon (fun i => if (i =? k)%nat then monomers mols phi k else 0) = monomers mols phi k).
  { rewrite (rsum_single nMon k); [now rewrite Nat.eqb_refl|assumption|].
    intros i _ Hi. apply Nat.eqb_neq in Hi. now rewrite Hi. }
  rewrite <- E at 1. apply rsum_le. intros i _. destruct (i =? k)%nat eqn:Q; [|apply N].
  apply Nat.eqb_eq in Q. subst i. lra.
Qed.
Lemma idsValid_good : idsValid (A := Rarith) nMon mols = true.
Proof.
  unfold idsValid. apply forallb_forall. intros m Hm. apply forallb_forall. intros q Hq.
  destruct G as [_ F]. rewrite Forall_forall in F. destruct (F m Hm) as (_ & P & _).
  apply Nat.ltb_lt. now apply P.
Qed.
Lemma computeC_good : forall phi, rsum n phi = 1 -> (forall i, (i < n)%nat -> 0 <= phi i) ->
  exists c, fhComputeC (A := Rarith) nMon mols phi = Ok c /\
    forall k, c k = monomers mols phi k.
Proof.
  intros phi S P. unfold fhComputeC. rewrite idsValid_good. cbn [negb]. cbv zeta.
  assert (E : forall k, @eq R (addMolecules (A := Rarith) mols 0 phi (fun _ => a0 Rarith) k) (monomers mols phi k)).
  { intros k. rewrite addMolecules_R. cbn [a0 Rarith]. rewrite Rplus_0_l. reflexivity. }
  rewrite checkSum_ok.
  - cbn [bind a0 aLt aLow aHigh Rarith aDiv].
    assert (T : 0 + rsum nMon (fun i => addMolecules (A := Rarith) mols 0 phi (fun _ => 0) (0 + i)) = 1).
    { rewrite Rplus_0_l, <- (monomers_total phi S). apply rsum_ext. intros i _. apply E. }
    rewrite T. rewrite (rlt_true (9999/10000) 1), (rlt_true 1 (10001/10000)) by lra. cbn [check].
    eexists. split; [reflexivity|]. intros k. cbv beta. rewrite <- E. cbn [a0 Rarith]. apply Rdiv_1.
  - intros i Hi. change (0 + i)%nat with i. rewrite E. now apply monomers_range.
Qed.

Definition complete (phi : nat -> R) (i : nat) : R :=
  if (i =? n - 1)%nat then 1 - rsum (n - 1) phi else phi i.
Lemma complete_sum : forall phi, rsum n (complete phi) = 1.
Proof.
  intros phi. assert (P := n_pos). replace n with (S (n - 1)) at 1 by lia. cbn [rsum].
  rewrite (rsum_ext _ _ phi).
  - unfold complete. rewrite Nat.eqb_refl. ring.
  - intros i Hi. unfold complete. destruct (i =? n - 1)%nat eqn:E; [apply Nat.eqb_eq in E; lia|reflexivity].
Qed.

(** C56: every valid composition is accepted, the last volume fraction is the rest, and
    the monomer fractions are those of the molecules; every other one is refused. *)
Theorem C56_composition : forall phi,
  (validPhi n phi ->
   exists phi' c, setComposition (A := Rarith) nMon mols phi = Ok (phi', c) /\
     (forall i, (i < n - 1)%nat -> phi' i = phi i) /\ rsum n phi' = 1 /\
     (forall i, (i < n)%nat -> 0 <= phi' i <= 1) /\
     (forall k, c k = monomers mols phi' k) /\ rsum nMon c = 1) /\
  (~ validPhi n phi -> setComposition (A := Rarith) nMon mols phi = Throw).
Proof.
  intros phi. assert (NP := n_pos). unfold setComposition.
  assert (M : match mols with [] => False | _ => True end) by (destruct mols; [cbn in NP; lia|exact I]).
  split.
  - intros [V1 V2]. destruct mols as [|m0 r] eqn:EM; [destruct M|]. cbv zeta. rewrite <- EM in *.
    rewrite checkSum_ok by assumption. cbn [bind a0 a1 aLe aSub Rarith].
    rewrite rle_true by (cbn [plus]; rewrite Rplus_0_l; assumption). cbn [check].
    set (phi' := upd (A := Rarith) phi (n - 1) (1 - (0 + rsum (n - 1) (fun i => phi (0 + i)%nat)))).
    assert (E : forall i, phi' i = complete phi i).
    { intros i. unfold phi', upd, complete. destruct (i =? n - 1)%nat; [|reflexivity].
      rewrite Rplus_0_l. reflexivity. }
    assert (S : rsum n phi' = 1) by (rewrite (rsum_ext _ _ (complete phi)) by auto; apply complete_sum).
    assert (P0 : forall i, (i < n)%nat -> 0 <= phi' i <= 1).
    { intros i Hi. rewrite E. unfold complete. destruct (i =? n - 1)%nat eqn:Q.
      - assert (0 <= rsum (n - 1) phi) by (apply rsum_pos_le; intros j Hj; now apply V1). lra.
      - apply Nat.eqb_neq in Q. apply V1. lia. }
    destruct (computeC_good phi' S (fun i Hi => proj1 (P0 i Hi))) as (c & -> & C). cbn [bind].
    exists phi', c. split; [reflexivity|]. split; [|split; [exact S|split; [exact P0|split; [exact C|]]]].
    + intros i Hi. rewrite E. unfold complete. destruct (i =? n - 1)%nat eqn:Q; [apply Nat.eqb_eq in Q; lia|reflexivity].
    + rewrite (rsum_ext _ _ (monomers mols phi')) by auto. now apply monomers_total.
  - intros V. destruct mols as [|m0 r] eqn:EM; [destruct M|]. cbv zeta. rewrite <- EM in *.
    destruct (Rle_dec (rsum (n - 1) phi) 1) as [L|L].
    + rewrite checkSum_throw; [reflexivity|]. intro K. apply V. split; assumption.
    + destruct (checkSum_cases (n - 1) 0 phi (a0 Rarith)) as [->| ->]; cbn [bind a0 Rarith]; [|reflexivity].
      rewrite Rplus_0_l. cbn [aLe a1 Rarith]. destruct (Rle_dec (rsum (n - 1) (fun i => phi (0 + i)%nat)) 1); [contradiction|reflexivity].
Qed.

(** *** Chemical potentials, free energy and pressure *)
Variable chi : nat -> nat -> R.
Definition positive (phi : nat -> R) : Prop := forall i, (i < n)%nat -> 0 < phi i.

Lemma computeW_ext : forall c c' i, (forall k, c k = c' k) -> computeW nMon chi c i = computeW nMon chi c' i.
Proof. intros c c' i H. unfold computeW. apply rsum_ext. intros j _. now rewrite H. Qed.

Theorem C56_mu : forall phi c xi m, (m < n)%nat -> 0 < phi m -> (forall k, c k = monomers mols phi k) ->
  muOf nMon chi mols phi c xi m = Some (chemPot nMon chi mols phi xi m).
Proof.
  intros phi c xi m Hm P C. unfold muOf, flog. destruct (Rlt_dec 0 (phi m)); [|contradiction].
  f_equal. unfold chemPot. f_equal.
  rewrite (amount_weighted nMon _ (computeW nMon chi c)) by (intros q; now apply clump_ids).
  apply rsum_ext. intros k _. unfold computeW. rewrite <- rsum_scal. apply rsum_ext. intros l _. rewrite C. ring.
Qed.

Lemma sumFinite_some : forall k f g, (forall i, (i < k)%nat -> f i = Some (g i)) -> sumFinite k f = Some (rsum k g).
Proof.
  induction k as [|k IH]; intros f g H; cbn [sumFinite rsum]; [reflexivity|].
  rewrite (IH f g) by (intros; apply H; lia). rewrite H by lia. reflexivity.
Qed.
Lemma fHelmholtz_ext : forall c c', (forall k, c k = c' k) -> fHelmholtz nMon chi c = fHelmholtz nMon chi c'.
Proof.
  intros c c' H. unfold fHelmholtz. f_equal. apply rsum_ext. intros i _. apply rsum_ext. intros j _. now rewrite !H.
Qed.
Theorem C56_free_energy : forall phi c, positive phi -> (forall k, c k = monomers mols phi k) ->
  fHelmholtzFH nMon chi mols phi c = Some (mixtureF nMon chi mols phi).
Proof.
  intros phi c P C. unfold fHelmholtzFH.
  rewrite (sumFinite_some n _ (fun i => phi i * (ln (phi i) - 1) / size mols i)).
  - f_equal. unfold mixtureF, idealF, excessF. f_equal. rewrite (fHelmholtz_ext _ _ C). unfold fHelmholtz. field.
  - intros i Hi. unfold idealTerm, flog. destruct (Rlt_dec 0 (phi i)) as [|N]; [reflexivity|]. destruct (N (P i Hi)).
Qed.

(** Sum of phi_i / size_i times the excess chemical potential. *)
Lemma excess_sum : forall phi,
  rsum n (fun i => phi i * rsum nMon (fun k => rsum nMon (fun l => amount (clumps mols i) k * chi k l * monomers mols phi l)) / size mols i)
  = 2 * excessF nMon chi (monomers mols phi).
Proof.
  intros phi. unfold excessF.
  replace (2 * (rsum nMon (fun i => rsum nMon (fun j => chi i j * monomers mols phi i * monomers mols phi j)) / 2))
    with (rsum nMon (fun i => rsum nMon (fun j => chi i j * monomers mols phi i * monomers mols phi j))) by field.
  rewrite (rsum_ext n _ (fun i => rsum nMon (fun k => phi i * fraction mols i k * rsum nMon (fun l => chi k l * monomers mols phi l)))).
  - rewrite rsum_swap. apply rsum_ext. intros k _. rewrite rsum_scal_r. fold (monomers mols phi k).
    rewrite <- rsum_scal. apply rsum_ext. intros l _. ring.
  - intros i Hi. unfold Rdiv. rewrite <- rsum_scal, <- rsum_scal_r. apply rsum_ext. intros k _.
    rewrite <- rsum_scal, <- rsum_scal_r, <- rsum_scal. apply rsum_ext. intros l _. unfold fraction, Rdiv. ring.
Qed.

(** The pressure is the Legendre transform of the free energy, and equals the ideal
    contribution plus the interaction energy plus xi. *)
Theorem C56_pressure : forall phi c xi, positive phi -> rsum n phi = 1 -> (forall k, c k = monomers mols phi k) ->
  exists p, pressureFH nMon chi mols phi c (muOf nMon chi mols phi c xi) = Some p /\
    p = rsum n (fun i => phi i * chemPot nMon chi mols phi xi i / size mols i) - mixtureF nMon chi mols phi /\
    p = xi + rsum n (fun i => phi i / size mols i) + excessF nMon chi (monomers mols phi).
Proof.
  intros phi c xi P S C. unfold pressureFH. rewrite (C56_free_energy phi c P C).
  rewrite (sumFinite_some n _ (fun i => phi i * chemPot nMon chi mols phi xi i / size mols i)).
  2: { intros i Hi. rewrite (C56_mu phi c xi i Hi (P i Hi) C). reflexivity. }
  eexists. split; [reflexivity|]. split; [ring|].
  unfold mixtureF, idealF.
  rewrite (rsum_ext n (fun i => phi i * chemPot nMon chi mols phi xi i / size mols i)
    (fun i => (phi i * (ln (phi i) - 1) / size mols i + phi i / size mols i + phi i * xi) +
       phi i * rsum nMon (fun k => rsum nMon (fun l => amount (clumps mols i) k * chi k l * monomers mols phi l)) / size mols i)).
  - rewrite rsum_plus, excess_sum, !rsum_plus, rsum_scal_r, S. ring.
  - intros i Hi. unfold chemPot. assert (Z := size_pos i Hi). field. lra.
Qed.

(** *** Derivatives *)
(** Volume is moved from species b to species a. *)
Definition shift (phi : nat -> R) (a b : nat) (h : R) (i : nat) : R :=
  phi i + h * ((if (i =? a)%nat then 1 else 0) - (if (i =? b)%nat then 1 else 0)).
Definition delta (a b i : nat) : R := (if (i =? a)%nat then 1 else 0) - (if (i =? b)%nat then 1 else 0).
Lemma rsum_delta : forall N a b f, (a < N)%nat -> (b < N)%nat -> rsum N (fun i => delta a b i * f i) = f a - f b.
Proof.
  intros N a b f Ha Hb. unfold delta.
  rewrite (rsum_ext N _ (fun i => (if (i =? a)%nat then 1 else 0) * f i - (if (i =? b)%nat then 1 else 0) * f i)) by (intros; ring).
  rewrite rsum_minus. rewrite (rsum_single N a), (rsum_single N b); try assumption.
  - rewrite !Nat.eqb_refl. ring.
  - intros i _ Hi. apply Nat.eqb_neq in Hi. rewrite Hi. ring.
  - intros i _ Hi. apply Nat.eqb_neq in Hi. rewrite Hi. ring.
Qed.
Lemma shift_sum : forall phi a b h, (a < n)%nat -> (b < n)%nat -> rsum n (shift phi a b h) = rsum n phi.
Proof.
  intros phi a b h Ha Hb. unfold shift. rewrite rsum_plus, rsum_scal.
  rewrite (rsum_ext n (fun i => (if (i =? a)%nat then 1 else 0) - (if (i =? b)%nat then 1 else 0)) (fun i => delta a b i * 1)).
  - rewrite rsum_delta by assumption. ring.
  - intros i _. unfold delta. ring.
Qed.
Lemma monomers_shift : forall phi a b h k, (a < n)%nat -> (b < n)%nat ->
  monomers mols (shift phi a b h) k = monomers mols phi k + h * (fraction mols a k - fraction mols b k).
Proof.
  intros phi a b h k Ha Hb. unfold monomers, shift.
  rewrite (rsum_ext n _ (fun i => phi i * fraction mols i k + h * (delta a b i * fraction mols i k))).
  - rewrite rsum_plus, rsum_scal, rsum_delta by assumption. reflexivity.
  - intros i _. unfold delta. ring.
Qed.
Lemma shift_positive : forall phi a b, positive phi -> (a < n)%nat -> (b < n)%nat ->
  exists e, 0 < e /\ forall h, Rabs h < e -> positive (shift phi a b h).
Proof.
  intros phi a b P Ha Hb. exists (Rmin (phi a) (phi b)).
  split; [apply Rmin_glb_lt; auto|]. intros h Hh i Hi. apply Rabs_def2 in Hh.
  assert (L1 := Rmin_l (phi a) (phi b)). assert (L2 := Rmin_r (phi a) (phi b)).
  assert (Pi := P i Hi). unfold shift.
  destruct (i =? a)%nat eqn:E1; destruct (i =? b)%nat eqn:E2;
    try (apply Nat.eqb_eq in E1; subst i); try (apply Nat.eqb_eq in E2; subst); lra.
Qed.

(** C56: the difference of chemical potentials per volume is the derivative of the free
    energy with respect to an exchange of volume. *)
Theorem C56_mu_derivative : forall phi xi a b,
  (forall i j, chi i j = chi j i) -> positive phi -> rsum n phi = 1 -> (a < n)%nat -> (b < n)%nat ->
  exists F e, 0 < e /\
    (forall h, Rabs h < e -> exists c,
      fhComputeC (A := Rarith) nMon mols (shift phi a b h) = Ok c /\
      fHelmholtzFH nMon chi mols (shift phi a b h) c = Some (F h)) /\
    is_derive F 0 (chemPot nMon chi mols phi xi a / size mols a - chemPot nMon chi mols phi xi b / size mols b).
Proof.
  intros phi xi a b Sy P S Ha Hb.
  destruct (shift_positive phi a b P Ha Hb) as (e & He & Q).
  exists (fun h => mixtureF nMon chi mols (shift phi a b h)), e. split; [assumption|]. split.
  - intros h Hh. destruct (computeC_good (shift phi a b h)) as (c & E & C).
    + now rewrite shift_sum.
    + intros i Hi. left. now apply (Q h Hh).
    + exists c. split; [assumption|]. apply C56_free_energy; [now apply Q|assumption].
  - unfold mixtureF.
    set (w := fun k => rsum nMon (fun l => chi k l * monomers mols phi l)).
    replace (chemPot nMon chi mols phi xi a / size mols a - chemPot nMon chi mols phi xi b / size mols b)
      with (rsum n (fun i => delta a b i * (ln (phi i) / size mols i)) +
            rsum nMon (fun k => rsum nMon (fun l => chi k l * (fraction mols a k - fraction mols b k) * monomers mols phi l +
                                                  chi k l * monomers mols phi k * (fraction mols a l - fraction mols b l))) / 2).
    + apply (is_derive_plus (fun h => idealF mols (shift phi a b h)) (fun h => excessF nMon chi (monomers mols (shift phi a b h)))).
      * unfold idealF. apply is_derive_rsum. intros i Hi.
        assert (Pi := P i Hi). assert (Z := size_pos i Hi).
        unfold shift, delta. set (d := (if (i =? a)%nat then 1 else 0) - (if (i =? b)%nat then 1 else 0)).
        auto_derive; [rewrite Rmult_0_l, Rplus_0_r; assumption|].
        rewrite Rmult_0_l, Rplus_0_r. field. split; lra.
      * unfold excessF. unfold Rdiv.
        apply (is_derive_ext (fun h => rsum nMon (fun i => rsum nMon (fun j => chi i j *
             (monomers mols phi i + h * (fraction mols a i - fraction mols b i)) *
             (monomers mols phi j + h * (fraction mols a j - fraction mols b j)))) * / 2)).
        { intros h. f_equal. apply rsum_ext. intros i _. apply rsum_ext. intros j _. now rewrite !monomers_shift. }
        apply (is_derive_ext (fun h => / 2 * rsum nMon (fun i => rsum nMon (fun j => chi i j *
             (monomers mols phi i + h * (fraction mols a i - fraction mols b i)) *
             (monomers mols phi j + h * (fraction mols a j - fraction mols b j)))))).
        { intros h. apply Rmult_comm. }
        rewrite Rmult_comm. apply (is_derive_scal (fun h => rsum nMon (fun i => rsum nMon (fun j => chi i j *
             (monomers mols phi i + h * (fraction mols a i - fraction mols b i)) *
             (monomers mols phi j + h * (fraction mols a j - fraction mols b j)))))).
        apply is_derive_rsum. intros i _.
        apply (is_derive_rsum nMon (fun j h => chi i j *
             (monomers mols phi i + h * (fraction mols a i - fraction mols b i)) *
             (monomers mols phi j + h * (fraction mols a j - fraction mols b j)))). intros j _.
        auto_derive; [trivial|]. ring.
    + rewrite rsum_delta by assumption.
      assert (K : forall i, (i < n)%nat -> chemPot nMon chi mols phi xi i / size mols i =
        ln (phi i) / size mols i + xi + rsum nMon (fun k => fraction mols i k * w k)).
      { intros i Hi. unfold chemPot. assert (Z := size_pos i Hi).
        replace (rsum nMon (fun k => fraction mols i k * w k)) with
          (rsum nMon (fun k => rsum nMon (fun l => amount (clumps mols i) k * chi k l * monomers mols phi l)) / size mols i).
        - field. lra.
        - unfold Rdiv. rewrite <- rsum_scal_r. apply rsum_ext. intros k _. unfold w.
          rewrite <- rsum_scal, <- rsum_scal_r. apply rsum_ext. intros l _. unfold fraction, Rdiv. ring. }
      rewrite (K a Ha), (K b Hb).
      assert (T : rsum nMon (fun k => rsum nMon (fun l => chi k l * (fraction mols a k - fraction mols b k) * monomers mols phi l +
                                                  chi k l * monomers mols phi k * (fraction mols a l - fraction mols b l)))
        = 2 * (rsum nMon (fun k => fraction mols a k * w k) - rsum nMon (fun k => fraction mols b k * w k))).
      { rewrite <- rsum_minus.
        rewrite (rsum_ext nMon _ (fun k => rsum nMon (fun l => chi k l * (fraction mols a k - fraction mols b k) * monomers mols phi l) +
           rsum nMon (fun l => chi k l * monomers mols phi k * (fraction mols a l - fraction mols b l)))) by (intros; apply rsum_plus).
        rewrite rsum_plus.
        rewrite (rsum_swap nMon nMon (fun k l => chi k l * monomers mols phi k * (fraction mols a l - fraction mols b l))).
        replace (2 * rsum nMon (fun i => fraction mols a i * w i - fraction mols b i * w i)) with
          (rsum nMon (fun i => fraction mols a i * w i - fraction mols b i * w i) + rsum nMon (fun i => fraction mols a i * w i - fraction mols b i * w i)) by ring.
        f_equal.
        - apply rsum_ext. intros k _. unfold w. rewrite <- Rmult_minus_distr_r, <- rsum_scal. apply rsum_ext. intros l _. ring.
        - apply rsum_ext. intros l _. unfold w. rewrite <- Rmult_minus_distr_r, <- rsum_scal. apply rsum_ext. intros k _.
          rewrite (Sy k l). ring. }
      rewrite T. field. split; assert (Za := size_pos a Ha); assert (Zb := size_pos b Hb); lra.
Qed.

(** The matrix of the Newton iteration is the derivative of the chemical potentials. *)
Theorem C56_jacobian : forall phi c xi m,
  positive phi -> (forall k, c k = monomers mols phi k) -> (m < n)%nat ->
  (forall a, (a < n - 1)%nat ->
    is_derive (fun h => chemPot nMon chi mols (shift phi a (n - 1) h) xi m) 0 (jacobian nMon chi mols phi c m a)) /\
  is_derive (fun x => chemPot nMon chi mols phi x m) xi (jacobian nMon chi mols phi c m (n - 1)).
Proof.
  intros phi c xi m P C Hm. split.
  - intros a Ha. unfold jacobian. destruct (a =? n - 1)%nat eqn:E; [apply Nat.eqb_eq in E; lia|]. clear E.
    assert (Pm := P m Hm).
    assert (D : forall b, (b < n)%nat -> dMuDPhi nMon chi mols phi c m b =
      (if (m =? b)%nat then 1 / phi m else 0) +
      rsum nMon (fun k => rsum nMon (fun l => amount (clumps mols m) k * chi k l * fraction mols b l))).
    { intros b Hb. unfold dMuDPhi. f_equal.
      rewrite (amount_weighted nMon _ (fun t => dWdPhi nMon chi mols c t b)) by (intros q; now apply clump_ids).
      apply rsum_ext. intros k _. unfold dWdPhi, computeDwDc.
      rewrite (lsum_ext _ (fun q => snd q * (chi k (fst q) / size mols b))) by (intros q _; unfold Rdiv; ring).
      rewrite (amount_weighted nMon _ (fun t => chi k t / size mols b)) by (intros q; now apply clump_ids).
      rewrite <- rsum_scal. apply rsum_ext. intros l _. unfold fraction, Rdiv. ring. }
    rewrite (D a), (D (n - 1)%nat) by lia.
    apply (is_derive_ext (fun h => (ln (phi m + h * delta a (n - 1) m) + xi * size mols m) +
      rsum nMon (fun k => rsum nMon (fun l => amount (clumps mols m) k * chi k l *
        (monomers mols phi l + h * (fraction mols a l - fraction mols (n - 1) l)))))).
    { intros h. unfold chemPot. f_equal. apply rsum_ext. intros k _. apply rsum_ext. intros l _.
      rewrite monomers_shift by lia. reflexivity. }
    replace ((if (m =? a)%nat then 1 / phi m else 0) +
       rsum nMon (fun k => rsum nMon (fun l => amount (clumps mols m) k * chi k l * fraction mols a l)) -
       ((if (m =? n - 1)%nat then 1 / phi m else 0) +
       rsum nMon (fun k => rsum nMon (fun l => amount (clumps mols m) k * chi k l * fraction mols (n - 1) l))))
     with (delta a (n - 1) m / phi m +
       rsum nMon (fun k => rsum nMon (fun l => amount (clumps mols m) k * chi k l * (fraction mols a l - fraction mols (n - 1) l)))).
    + apply (is_derive_plus (fun h => ln (phi m + h * delta a (n - 1) m) + xi * size mols m)).
      * auto_derive; rewrite Rmult_0_l, Rplus_0_r; [assumption|]. field. lra.
      * apply is_derive_rsum. intros k _.
        apply (is_derive_rsum nMon (fun l h => amount (clumps mols m) k * chi k l *
          (monomers mols phi l + h * (fraction mols a l - fraction mols (n - 1) l)))). intros l _.
        auto_derive; [trivial|]. ring.
    + rewrite (rsum_ext nMon (fun k => rsum nMon (fun l => amount (clumps mols m) k * chi k l * (fraction mols a l - fraction mols (n - 1) l)))
         (fun k => rsum nMon (fun l => amount (clumps mols m) k * chi k l * fraction mols a l) -
                   rsum nMon (fun l => amount (clumps mols m) k * chi k l * fraction mols (n - 1) l))).
      * rewrite rsum_minus. unfold delta.
        destruct (m =? a)%nat; destruct (m =? n - 1)%nat; field; lra.
      * intros k _. rewrite <- rsum_minus. apply rsum_ext. intros l _. ring.
  - unfold jacobian. rewrite Nat.eqb_refl. unfold chemPot. auto_derive; [trivial|]. ring.
Qed.

(** *** Composition from chemical potentials *)
Lemma fold_max : forall (g : nat -> R) l e0,
  let e := fold_left (fun e i => if Rlt_dec e (g i) then g i else e) l e0 in
  e0 <= e /\ forall i, In i l -> g i <= e.
Proof.
  intros g. induction l as [|a l IH]; intros e0; cbv zeta; cbn [fold_left].
  - split; [lra|intros i []].
  - destruct (IH (if Rlt_dec e0 (g a) then g a else e0)) as [H1 H2]. split.
    + refine (Rle_trans _ _ _ _ H1). destruct (Rlt_dec e0 (g a)); lra.
    + intros i [->|Hi]; [|now apply H2]. refine (Rle_trans _ _ _ _ H1). destruct (Rlt_dec e0 (g i)); lra.
Qed.
Lemma residual_bound : forall target mu i, (i < n)%nat -> Rabs (mu i - target i) <= residualError mols target mu.
Proof.
  intros target mu i Hi. unfold residualError.
  apply (proj2 (fold_max (fun i => Rabs (mu i - target i)) (seq 0 n) 0)). apply in_seq. lia.
Qed.
Lemma allFinite_some : forall k f, allFinite k f = true -> forall i, (i < k)%nat -> exists x, f i = Some x.
Proof.
  induction k as [|k IH]; intros f H i Hi; [lia|]. cbn [allFinite] in H.
  destruct (f k) as [x|] eqn:E; [|discriminate].
  destruct (Nat.eq_dec i k) as [->|N]; [eauto|]. apply (IH f H). lia.
Qed.
Lemma muVec_ok : forall phi c xi mu, (forall k, c k = monomers mols phi k) ->
  computeMuVec nMon chi mols phi c xi = Ok mu ->
  positive phi /\ forall m, (m < n)%nat -> mu m = chemPot nMon chi mols phi xi m.
Proof.
  intros phi c xi mu C H. unfold computeMuVec in H.
  destruct (allFinite n (muOf nMon chi mols phi c xi)) eqn:E; [|discriminate].
  assert (P : positive phi).
  { intros i Hi. destruct (allFinite_some _ _ E i Hi) as [x Hx]. unfold muOf, flog in Hx.
    destruct (Rlt_dec 0 (phi i)); [assumption|discriminate]. }
  split; [assumption|]. injection H as <-. intros m Hm. rewrite (C56_mu phi c xi m Hm (P m Hm) C). reflexivity.
Qed.
Lemma muVec_intro : forall phi c xi, (forall k, c k = monomers mols phi k) -> positive phi ->
  exists mu, computeMuVec nMon chi mols phi c xi = Ok mu /\ forall m, (m < n)%nat -> mu m = chemPot nMon chi mols phi xi m.
Proof.
  intros phi c xi C P. unfold computeMuVec.
  assert (E : allFinite n (muOf nMon chi mols phi c xi) = true).
  { assert (K : forall k f, (forall i, (i < k)%nat -> exists x : R, f i = Some x) -> allFinite k f = true).
    { induction k as [|k IH]; intros f H; cbn [allFinite]; [reflexivity|].
      destruct (H k ltac:(lia)) as [x ->]. apply IH. intros; apply H; lia. }
    apply K. intros i Hi. rewrite (C56_mu phi c xi i Hi (P i Hi) C). eauto. }
  rewrite E. eexists. split; [reflexivity|]. intros m Hm. cbv beta. rewrite (C56_mu phi c xi m Hm (P m Hm) C). reflexivity.
Qed.
Lemma chemPot_xi : forall phi xi d m, chemPot nMon chi mols phi xi m + d * size mols m = chemPot nMon chi mols phi (xi + d) m.
Proof. intros. unfold chemPot. ring. Qed.

(** What is required of a result for given chemical potentials. *)
Definition solution (target : nat -> R) (s : phiState) : Prop :=
  rsum n (pPhi s) = 1 /\ (forall i, (i < n)%nat -> 0 < pPhi s i <= 1) /\
  (forall k, pC s k = monomers mols (pPhi s) k) /\
  forall m, (m < n)%nat -> pMu s m = chemPot nMon chi mols (pPhi s) (pXi s) m /\
    Rabs (chemPot nMon chi mols (pPhi s) (pXi s) m - target m) < 1 / 10 ^ 10.

Lemma finish : forall target phi c mu0 xi0, rsum n phi = 1 -> (forall i, (i < n)%nat -> 0 <= phi i <= 1) ->
  (forall k, c k = monomers mols phi k) -> computeMuVec nMon chi mols phi c xi0 = Ok mu0 ->
  forall mu xi, adjustXi mols target mu0 xi0 = (mu, xi) -> residualError mols target mu < epsilon ->
  solution target (mkPhi phi c mu xi).
Proof.
  intros target phi c mu0 xi0 S P C H mu xi A L. destruct (muVec_ok _ _ _ _ C H) as [P' M].
  unfold solution. cbn [pPhi pC pMu pXi]. split; [assumption|]. split; [|split; [assumption|]].
  - intros i Hi. split; [now apply P'|]. now apply P.
  - unfold adjustXi in A. injection A as A1 A2. intros m Hm.
    assert (E : mu m = chemPot nMon chi mols phi xi m).
    { rewrite <- A1, <- A2, <- chemPot_xi, (M m Hm). reflexivity. }
    split; [assumption|]. rewrite <- E. refine (Rle_lt_trans _ _ _ (residual_bound target mu m Hm) L).
Qed.
Lemma inRange_ok : forall phi, inRange mols phi = true -> forall i, (i < n)%nat -> 0 <= phi i <= 1.
Proof.
  intros phi H i Hi. unfold inRange in H. rewrite forallb_forall in H.
  assert (K := H i ltac:(apply in_seq; lia)). apply andb_prop in K. destruct K as [K1 K2].
  destruct (Rlt_dec (phi i) 0); [discriminate|]. destruct (Rlt_dec 1 (phi i)); [discriminate|]. lra.
Qed.
Lemma newPhi_sum : forall old dX, rsum n (newPhi mols old dX) = 1.
Proof.
  intros old dX. assert (P := n_pos). replace n with (S (n - 1)) at 1 by lia. cbn [rsum].
  rewrite (rsum_ext _ _ (fun i => old i - dX i)).
  - unfold newPhi. rewrite Nat.eqb_refl. ring.
  - intros i Hi. unfold newPhi. destruct (i =? n - 1)%nat eqn:E; [apply Nat.eqb_eq in E; lia|reflexivity].
Qed.
Lemma tryUpdate_ok : forall k old dX phi dX', tryUpdate mols k old dX = Some (phi, dX') ->
  rsum n phi = 1 /\ forall i, (i < n)%nat -> 0 <= phi i <= 1.
Proof.
  induction k as [|k IH]; intros old dX phi dX' H; cbn [tryUpdate] in H; [discriminate|].
  destruct (inRange mols (newPhi mols old dX)) eqn:E; [|now apply IH in H].
  injection H as <- <-. split; [apply newPhi_sum|]. now apply inRange_ok.
Qed.
Lemma loop_solution : forall lu k target s s', phiLoop nMon chi mols lu k target s = Ok s' -> solution target s'.
Proof.
  intros lu. induction k as [|k IH]; intros target s s' H; cbn [phiLoop] in H; [discriminate|]. cbv zeta in H.
  destruct (tryUpdate mols 5 (pPhi s) _) as [[phi dX']|] eqn:E; [|discriminate].
  destruct (tryUpdate_ok _ _ _ _ _ E) as [S P].
  destruct (computeC_good phi S (fun i Hi => proj1 (P i Hi))) as (c & EC & C). rewrite EC in H. cbn [bind] in H.
  destruct (computeMuVec nMon chi mols phi c _) as [mu0| | |] eqn:EM; cbn [bind] in H; try discriminate.
  destruct (adjustXi mols target mu0 _) as [mu xi] eqn:EA.
  destruct (Rlt_dec (residualError mols target mu) epsilon) as [L|L].
  - injection H as <-. eapply finish; eassumption.
  - now apply IH in H.
Qed.

(** C56: whatever the linear solver returns, a composition that is returned has the
    required chemical potentials. *)
Theorem C56_computePhi : forall lu target guess xi0 s,
  computePhi nMon chi mols lu target guess xi0 = Ok s -> solution target s.
Proof.
  intros lu target guess xi0 s H. unfold computePhi in H.
  destruct (C56_composition guess) as [V NV].
  destruct (Classical_Prop.classic (validPhi n guess)) as [Q|Q].
  - destruct (V Q) as (phi & c & E & _ & S & P & C & _). rewrite E in H. cbn [bind] in H.
    destruct (computeMuVec nMon chi mols phi c xi0) as [mu0| | |] eqn:EM; cbn [bind] in H; try discriminate.
    destruct (adjustXi mols target mu0 xi0) as [mu xi] eqn:EA. cbv zeta in H.
    destruct (Rlt_dec (residualError mols target mu) epsilon) as [L|L].
    + injection H as <-. eapply finish; eassumption.
    + now apply loop_solution in H.
  - rewrite (NV Q) in H. discriminate.
Qed.

(** Given the chemical potentials of the initial guess, with any xi, that guess is
    returned with its xi. *)
Theorem C56_inverse : forall lu guess xi xi0 target phi c,
  setComposition (A := Rarith) nMon mols guess = Ok (phi, c) -> positive phi ->
  (forall m, (m < n)%nat -> target m = chemPot nMon chi mols phi xi m) ->
  exists s, computePhi nMon chi mols lu target guess xi0 = Ok s /\ pPhi s = phi /\ pXi s = xi.
Proof.
  intros lu guess xi xi0 target phi c E P T. unfold computePhi.
  assert (C : forall k, c k = monomers mols phi k).
  { destruct (C56_composition guess) as [V NV].
    destruct (Classical_Prop.classic (validPhi n guess)) as [Q|Q]; [|rewrite (NV Q) in E; discriminate].
    destruct (V Q) as (phi1 & c1 & E1 & _ & _ & _ & C & _). rewrite E in E1. injection E1 as -> ->. exact C. }
  rewrite E. cbn [bind]. destruct (muVec_intro phi c xi0 C P) as (mu0 & -> & M). cbn [bind].
  unfold adjustXi.
  assert (Z : 0 < rsum n (size mols)) by (apply rsum_pos; [apply n_pos|apply size_pos]).
  assert (D : rsum n (fun i => target i - mu0 i) / rsum n (size mols) = xi - xi0).
  { rewrite (rsum_ext n _ (fun i => (xi - xi0) * size mols i)).
    - rewrite rsum_scal. field. lra.
    - intros i Hi. rewrite T, M by assumption. unfold chemPot. ring. }
  rewrite D. cbv zeta.
  destruct (Rlt_dec (residualError mols target (fun i => mu0 i + (xi - xi0) * size mols i)) epsilon) as [L|L].
  - eexists. split; [reflexivity|]. cbn [pPhi pXi]. split; [reflexivity|ring].
  - exfalso. apply L. unfold residualError.
    assert (K : forall l, (forall i, In i l -> (i < n)%nat) ->
      fold_left (fun e i => if Rlt_dec e (Rabs (mu0 i + (xi - xi0) * size mols i - target i)) then
        Rabs (mu0 i + (xi - xi0) * size mols i - target i) else e) l 0 = 0).
    { induction l as [|a l IH]; intros Hl; cbn [fold_left]; [reflexivity|].
      replace (mu0 a + (xi - xi0) * size mols a - target a) with 0.
      - rewrite Rabs_R0. destruct (Rlt_dec 0 0); apply IH; intros; apply Hl; now right.
      - rewrite M, T by (apply Hl; now left). unfold chemPot. ring. }
    rewrite K by (intros i Hi; apply in_seq in Hi; lia). unfold epsilon. apply Rdiv_lt_0_compat; [lra|]. apply pow_lt. lra.
Qed.
End Mix.

(** *** Construction of the molecules *)
Lemma typeSize_amount : forall blocks j, typeSize blocks j = amount blocks j.
Proof.
  intros blocks j. unfold typeSize, amount.
  assert (K : forall bl (c : nat -> R), fold_left (fun c (q : nat * R) => upd (A := Rarith) c (fst q) (c (fst q) + snd q)) bl c j
    = c j + lsum (fun q => if (fst q =? j)%nat then snd q else 0) bl).
  { induction bl as [|[t s] bl IH]; intros c; cbn [fold_left lsum fst snd].
    - symmetry. apply Rplus_0_r.
    - rewrite IH. unfold upd. rewrite (Nat.eqb_sym j t).
      destruct (t =? j)%nat eqn:E; [apply Nat.eqb_eq in E; subst t|]; cbn [aT Rarith]; symmetry.
      + symmetry. apply Rplus_assoc.
      + now rewrite Rplus_0_l. }
  rewrite K. apply Rplus_0_l.
Qed.
(** A polymer whose monomer types have amounts above 1e-8, or zero: the molecule has
    the amounts of the polymer. *)
Theorem C56_polymer : forall nMon blocks, blocks <> [] ->
  (forall q, In q blocks -> (fst q < nMon)%nat /\ 0 < snd q) ->
  (forall j, amount blocks j = 0 \/ 1 / 100000000 < amount blocks j) ->
  exists m, polymerMolecule true nMon blocks = Ok m /\ goodMolecule nMon m /\
    mSize m = lsum snd blocks /\ (forall k, (k < nMon)%nat -> amount (mClumps m) k = amount blocks k) /\
    NoDup (map fst (mClumps m)).
Proof.
  intros nMon blocks NE V A. unfold polymerMolecule. cbn [orb check].
  assert (F : forallb (fun q => fst q <? nMon)%nat blocks = true).
  { apply forallb_forall. intros q Hq. apply Nat.ltb_lt. now apply V. }
  rewrite F. cbn [negb]. cbv zeta.
  set (keep := filter (fun j => if Rlt_dec (1 / 100000000) (typeSize blocks j) then true else false) (seq 0 nMon)).
  set (cl := map (fun j => (j, typeSize blocks j)) keep).
  assert (ND : NoDup keep) by (apply NoDup_filter, seq_NoDup).
  assert (KI : forall j, In j keep <-> (j < nMon)%nat /\ 1 / 100000000 < amount blocks j).
  { intros j. unfold keep. rewrite filter_In, in_seq, typeSize_amount.
    destruct (Rlt_dec (1 / 100000000) (amount blocks j)); split; intros [H1 H2]; try discriminate; split; try lia; try lra; auto. }
  assert (AM : forall k, (k < nMon)%nat -> amount cl k = amount blocks k).
  { intros k Hk. unfold cl.
    assert (E : forall l, NoDup l -> amount (map (fun j => (j, typeSize blocks j)) l) k = if in_dec Nat.eq_dec k l then amount blocks k else 0).
    { unfold amount at 1. induction l as [|a l IH]; intros N; cbn [map lsum fst snd]; [now destruct (in_dec Nat.eq_dec k [])|].
      inversion N as [|? ? N1 N2]; subst. rewrite (IH N2), typeSize_amount.
      destruct (a =? k)%nat eqn:Q.
      - apply Nat.eqb_eq in Q. subst a. destruct (in_dec Nat.eq_dec k l); [contradiction|].
        destruct (in_dec Nat.eq_dec k (k :: l)) as [|X]; [ring|]. destruct X. now left.
      - apply Nat.eqb_neq in Q. destruct (in_dec Nat.eq_dec k l) as [I|I]; destruct (in_dec Nat.eq_dec k (a :: l)) as [J|J]; try ring.
        + destruct J. now right.
        + destruct J as [J|J]; [congruence|contradiction]. }
    rewrite (E keep ND). destruct (in_dec Nat.eq_dec k keep) as [I|I]; [reflexivity|].
    destruct (A k) as [Z|Z]; [now rewrite Z|]. destruct I. apply KI. auto. }
  assert (SZ : lsum snd cl = lsum snd blocks).
  { rewrite <- (amount_total nMon cl), <- (amount_total nMon blocks).
    - apply rsum_ext. exact AM.
    - intros q Hq. now apply V.
    - intros q Hq. unfold cl in Hq. apply in_map_iff in Hq. destruct Hq as (j & <- & Hj). now apply KI in Hj. }
  assert (KN : cl <> []).
  { intros Q. rewrite Q in SZ. cbn [lsum] in SZ.
    assert (0 < lsum snd blocks); [|lra]. apply lsum_pos; [assumption|]. intros q Hq. now apply V. }
  assert (KL : (0 <? length keep)%nat = true).
  { apply Nat.ltb_lt. destruct keep as [|a k] eqn:Q; [|cbn; lia]. destruct KN. unfold cl. reflexivity. }
  rewrite KL. cbn [check]. eexists. split; [reflexivity|].
  unfold makeMolecule. cbn [mSize mClumps]. fold cl. split; [|split; [|split]].
  - unfold goodMolecule. cbv zeta. cbn [mSize mClumps]. split; [assumption|]. split.
    + intros q Hq. unfold cl in Hq. apply in_map_iff in Hq. destruct Hq as (j & <- & Hj). apply KI in Hj.
      cbn [fst snd]. rewrite typeSize_amount. destruct Hj. split; [assumption|lra].
    + apply computeSize_R.
  - rewrite <- SZ. apply computeSize_R.
  - exact AM.
  - unfold cl. rewrite map_map. cbn [fst]. now rewrite map_id.
Qed.
Theorem C56_polymer_bead : forall nMon blocks, blocks <> [] -> polymerMolecule false nMon blocks = Throw.
Proof. intros nMon [|q b] H; [congruence|]. reflexivity. Qed.
Theorem C56_solvent : forall nMon id s, (id < nMon)%nat -> 0 < s ->
  goodMolecule nMon (solventMolecule id s) /\ mSize (solventMolecule id s) = s.
Proof.
  intros nMon id s Hi Hs. unfold goodMolecule, solventMolecule, makeMolecule. cbv zeta. cbn [mClumps mSize].
  split; [split; [discriminate|split]|].
  - intros q [<-|[]]. cbn [fst snd]. auto.
  - apply computeSize_R.
  - rewrite computeSize_R. cbn [lsum snd]. apply Rplus_0_r.
Qed.

(** *** Refuted claims *)
(** In double precision a valid composition can be refused: a solution of a solvent of
    size 1 in one of size 3, of the same monomer, with fraction 0.08. *)
Definition fmols : list (molecule Farith) :=
  [makeMolecule (A := Farith) [(0%nat, fl 1)]; makeMolecule (A := Farith) [(0%nat, fl 3)]].
Theorem C56_accepted_refuted : exists phi : nat -> spec_float,
  SFleb (fl 0) (phi 0%nat) = true /\ SFleb (phi 0%nat) (fl 1) = true /\
  setComposition (A := Farith) 1 fmols phi = Throw.
Proof. exists (fun _ => SFdiv 53 1024 (fl 8) (fl 100)). vm_compute. auto. Qed.

(** Mixture of a diblock copolymer and a solvent. *)
Definition mols1 : list rmol :=
  [mkMol (A := Rarith) [(0%nat, 1); (1%nat, 3)] 4; solventMolecule 0 1].
Lemma mols1_good : goodMixture 2 mols1.
Proof.
  split; [discriminate|]. constructor; [|constructor; [|constructor]].
  - unfold goodMolecule. cbn [mClumps mSize]. split; [discriminate|]. split.
    + intros q [<-|[<-|[]]]; cbn [fst snd]; split; try lia; lra.
    + cbn [lsum snd]. cbn [Rarith aT]. ring.
  - apply C56_solvent; [lia|lra].
Qed.
(** A species that is absent is accepted, but then the free energy is not a number. *)
Theorem C56_absent_refuted : exists nMon mols chi phi phi' c,
  goodMixture nMon mols /\ validPhi (length mols) phi /\
  setComposition (A := Rarith) nMon mols phi = Ok (phi', c) /\ fHelmholtzFH nMon chi mols phi' c = None.
Proof.
  assert (V : validPhi 2 (fun _ => 0)).
  { split; [intros; lra|]. cbn [rsum Nat.sub]. lra. }
  destruct (proj1 (C56_composition 2 mols1 mols1_good (fun _ => 0)) V) as (phi' & c & E & P & _).
  exists 2%nat, mols1, (fun _ _ => 0), (fun _ => 0), phi', c. split; [apply mols1_good|]. split; [exact V|].
  split; [exact E|]. assert (P0 : phi' 0%nat = 0) by (apply P; cbn; lia).
  unfold fHelmholtzFH. cbn [length mols1 sumFinite]. unfold idealTerm at 1, flog. rewrite P0.
  destruct (Rlt_dec 0 0); [lra|reflexivity].
Qed.

Example C56_case : validPhi (length mols1) (fun _ => 1/2) /\
  (exists phi c, setComposition (A := Rarith) 2 mols1 (fun _ => 1/2) = Ok (phi, c) /\
     phi 0%nat = 1/2 /\ phi 1%nat = 1/2 /\ c 0%nat = 5/8 /\ c 1%nat = 3/8 /\ positive mols1 phi).
Proof.
  assert (V : validPhi (length mols1) (fun _ => 1/2)).
  { split; [intros; lra|]. cbn [rsum Nat.sub length mols1]. lra. }
  split; [exact V|].
  destruct (proj1 (C56_composition 2 mols1 mols1_good (fun _ => 1/2)) V) as (phi' & c & E & P & S & _ & C & _).
  exists phi', c. split; [exact E|].
  assert (P0 : phi' 0%nat = 1/2) by (apply P; cbn; lia).
  assert (P1 : phi' 1%nat = 1/2) by (cbn [length mols1 rsum] in S; lra).
  split; [exact P0|]. split; [exact P1|]. rewrite !C. unfold monomers. cbn [length mols1 rsum]. rewrite P0, P1.
  unfold fraction, amount, clumps, size, mol.
  cbn [nth mols1 mClumps mSize solventMolecule makeMolecule lsum fst snd Nat.eqb].
  rewrite computeSize_R. cbn [lsum snd]. cbn [aT Rarith]. repeat split; try field.
  intros i Hi. destruct i as [|[|i]]; [lra|lra|cbn in Hi; lia].
Qed.

Print Assumptions C56_composition.
Print Assumptions C56_mu.
Print Assumptions C56_free_energy.
Print Assumptions C56_pressure.
Print Assumptions C56_mu_derivative.
Print Assumptions C56_jacobian.
Print Assumptions C56_computePhi.
Print Assumptions C56_inverse.
Print Assumptions C56_polymer.
Print Assumptions C56_polymer_bead.
Print Assumptions C56_solvent.
Print Assumptions C56_accepted_refuted.
Print Assumptions C56_absent_refuted.
