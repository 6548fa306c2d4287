(** Effect of the functions of GpuBlock.v on the named arrays of a block, in both
    polymer models, in terms of the functions of the CPU solver (Rpc.v, Stress.v). *)
From Coq Require Import Reals ZArith Lia Lra Bool Arith FunctionalExtensionality.
From Coquelicot Require Import Complex.
From Coq Require Import List.
From Verif Require Import Base RSum GpuThreads GpuGrid GpuKernel GpuWaveHost VecOp VecOpSpec VecOpKernel VecOpCall Polymer Solve
  Fft R1d R1dProofs Rpc RpcProofs Stress GpuBlock GpuRep GpuBlockProofs.
Import ListNotations.
Local Open Scope nat_scope.

Ltac upds := unfold upd_ in *; repeat match goal with |- context [nm_eqd ?a ?b] => destruct (nm_eqd a b); try congruence end.

Section Both.
Variables (dev : device) (sched : nat -> vop -> nat -> nat -> list nat) (dims : list Z).
Hypothesis Hfair : forall t o, fair o (sched t o).
Hypothesis Hnx : 0 < nR dims.
Hypothesis Hnk : 0 < nK dims.
Variables (B : garrays) (inp : nat -> darr) (nIn : nat) (ns : nat) (batched : bool) (m0 : memory).
Hypothesis Hns : 3 <= ns.
Notation L := (lay dims B inp).
Notation live m := (liv nIn ns m batched).
Notation runs m := (runs dev nm L (live m) own m0).
Notation at_ m := (at_ dev nm L (live m) own m0).
Notation below m := (below nm L (live m)).

Definition arrays_ok (m : polyModel) : Prop :=
  (forall a, live m a -> own a -> da_ty (L a) = typ a /\ da_cap (L a) = Z.of_nat (size dims a)) /\
  (forall a b, live m a -> own a -> live m b -> a <> b -> forall y, words (L a) y -> ~ words (L b) y) /\
  (isThread m -> da_ty (a_qrPair B) = Re /\ da_cap (a_qrPair B) = Z.of_nat (2 * nR dims)) /\
  (isThread m -> da_ty (a_qkPair B) = Co /\ da_cap (a_qkPair B) = Z.of_nat (2 * nK dims)).

(** ** Setup *)

Definition withFields (m : polyModel) (ds : R) (w : field) (S : contents nm) : contents nm := fun a =>
  match a with
  | N_expW => Rl (expW m ds w) | N_expW2 => Rl (expW2 ds w) | N_expWInv => Rl (expWInv w)
  | _ => S a
  end.
Definition withKsq (m : polyModel) (kSq : nat -> R) (kuhn ds : R) (S : contents nm) : contents nm := fun a =>
  match a with
  | N_expKsq => Rl (expKsq kSq m kuhn ds) | N_expKsq2 => Rl (expKsq2 kSq m kuhn ds)
  | _ => S a
  end.

Lemma run_fields : forall m, arrays_ok m -> forall S k w ds, ok nm L (live m) Re (nR dims) k -> k <> N_expW -> S k = Rl w ->
  runs m S (setupFieldG dev sched B m ds (L k)) (withFields m ds w S).
Proof.
  intros m (H1 & H2 & _) S k w ds Hk Hne HS. destruct m.
  - apply (runs_below dev nm L (live Thread) own m0 _ _ _ _
      (run_fields_thread dev sched dims Hfair Hnx B inp nIn ns Thread batched m0 H1 H2 S k w ds I Hk Hne HS)).
    intros a f La E. exists f. split; [|auto]. destruct a; try destruct La; upds; exact E.
  - apply (runs_below dev nm L (live Bead) own m0 _ _ _ _
      (run_fields_bead dev sched dims Hfair Hnx B inp nIn ns Bead batched m0 H1 H2 S k w ds I Hk Hne HS)).
    intros a f La E. exists f. split; [|auto]. destruct a; try destruct La; upds; exact E.
Qed.

Lemma run_ksq : forall m, arrays_ok m -> forall S k kSq kuhn ds ds', ok nm L (live m) Re (nK dims) k -> k <> N_expKsq -> S k = Rl kSq ->
  match m with Thread => ds' = ds | Bead => True end ->
  runs m S (computeExpKsqG dev sched B m kuhn ds (L k)) (withKsq m kSq kuhn ds' S).
Proof.
  intros m (H1 & H2 & _) S k kSq kuhn ds ds' Hk Hne HS Hds.
  apply (runs_below dev nm L (live m) own m0 _ _ _ _
      (run_expKsq dev sched dims Hfair Hnk B inp nIn ns m batched m0 H1 H2 S k kSq kuhn ds Hk Hne HS)).
  intros a f La E. exists f. split; [|auto]. destruct a; upds; try exact E; cbn in E |- *; destruct m; try subst ds'; exact E.
Qed.

(** ** Slices *)

Definition slicesOf (m : polyModel) (kSq : nat -> R) (kuhn ds : R) (w : field) (he te : bool) (h : field) : list field :=
  match m with
  | Thread => threadSlices dims kSq ns kuhn ds w h
  | Bead => beadSlices dims kSq (ns - 2) kuhn w he te h
  end.
Definition lastSlice (m : polyModel) (te : bool) : nat :=
  match m with Thread => ns - 1 | Bead => if te then ns - 2 else ns - 1 end.

Lemma slice_thread : forall kSq kuhn ds w h j, j < ns ->
  qAt (threadSlices dims kSq ns kuhn ds w h) j =
  thSl dims (expKsq kSq Thread kuhn ds) (expKsq2 kSq Thread kuhn ds) (expW Thread ds w) (expW2 ds w) h j.
Proof. intros kSq kuhn ds w h j Hj. unfold qAt, threadSlices. rewrite nth_iterSlices by exact Hj. reflexivity. Qed.

Lemma slice_bead : forall kSq kuhn ds w he te h j, j < ns - 1 \/ (j = ns - 1 /\ te = false) ->
  qAt (beadSlices dims kSq (ns - 2) kuhn w he te h) j =
  bdSl dims ns (expKsq kSq Bead kuhn ds) (expKsq2 kSq Bead kuhn ds) (expW Bead ds w) he h j.
Proof.
  intros kSq kuhn ds w he te h j Hj. unfold qAt, bdSl. destruct (Nat.eqb_spec j 0) as [->|J0].
  - destruct (ns - 2) as [|n]; reflexivity.
  - destruct (Nat.eqb_spec j (ns - 1)) as [->|J1].
    + destruct Hj as [Hj|[_ ->]]; [lia|].
      pose proof (last_beadSlices dims kSq (ns - 2) kuhn w he false h ltac:(lia)) as E.
      assert (Le : length (beadSlices dims kSq (ns - 2) kuhn w he false h) = ns).
      { destruct (ns - 2) as [|n] eqn:En; [lia|]. unfold beadSlices. cbn [length]. rewrite app_length, iterSlices_length. cbn [length]. lia. }
      rewrite last_nth, Le in E. rewrite E. replace (ns - 2 - 1) with (ns - 3) by lia. unfold endOp. reflexivity.
    + rewrite nth_beadSlices by lia. unfold endOp. reflexivity.
Qed.

Lemma run_solve : forall m, arrays_ok m -> forall S0 kSq kuhn ds w p he te tn fs h,
  S0 N_expW = Rl (expW m ds w) -> S0 N_expW2 = Rl (expW2 ds w) ->
  S0 N_expKsq = Rl (expKsq kSq m kuhn ds) -> S0 N_expKsq2 = Rl (expKsq2 kSq m kuhn ds) ->
  (forall t, In t tn -> ok nm L (live m) Re (nR dims) t /\ t <> N_q p 0) ->
  Forall2 (fun t f => S0 t = Rl f) tn fs ->
  (forall i, i < nR dims -> prod_of fs i = h i) ->
  runs m S0 (solveG dev sched dims B m p ns he te (map L tn))
    (known p (qAt (slicesOf m kSq kuhn ds w he te h)) (lastSlice m te) S0).
Proof.
  intros m (H1 & H2 & H3 & H4) S0 kSq kuhn ds w p he te tn fs h HW HW2 He He2 Ht HF Hh. unfold solveG.
  destruct m.
  - set (sl := thSl dims (expKsq kSq Thread kuhn ds) (expKsq2 kSq Thread kuhn ds) (expW Thread ds w) (expW2 ds w) h).
    apply (runs_below dev nm L (live Thread) own m0 _ _ (known p sl (ns - 1) S0)).
    + apply (runs_bind dev nm L (live Thread) own m0 _ _ (known p sl 0 S0)).
      * apply (run_head dev sched dims Hfair Hnx Hnk B inp nIn ns Thread batched m0 H1 H2 H3 H4 S0 Hns p tn fs sl Ht HF). exact Hh.
      * apply (run_steps_thread dev sched dims Hfair Hnx Hnk B inp nIn ns Thread batched m0 H1 H2 H3 H4 S0
          _ _ _ _ HW He He2 Hns false p h he te I HW2).
    + intros a f La E. exists f. split; [|auto]. destruct a as [| | | | | | | | | | | |p'|p' j|p' j|]; try exact E.
      cbn [known lastSlice slicesOf] in E |- *. cbn in La. destruct (Bool.eqb p p'); [|exact E].
      destruct (Nat.leb_spec j (ns - 1)); [|exact E]. unfold sl. rewrite <- slice_thread by exact La. exact E.
  - set (sl := bdSl dims ns (expKsq kSq Bead kuhn ds) (expKsq2 kSq Bead kuhn ds) (expW Bead ds w) he h).
    apply (runs_below dev nm L (live Bead) own m0 _ _ (known p sl (if xorb te false then ns - 2 else ns - 1) S0)).
    + apply (runs_bind dev nm L (live Bead) own m0 _ _ (known p sl 0 S0)).
      * apply (run_head dev sched dims Hfair Hnx Hnk B inp nIn ns Bead batched m0 H1 H2 H3 H4 S0 Hns p tn fs sl Ht HF). exact Hh.
      * apply (run_steps_bead dev sched dims Hfair Hnx Hnk B inp nIn ns Bead batched m0 H1 H2 H3 H4 S0
          _ _ _ HW He He2 Hns false p h he te I).
    + intros a f La E. exists f. split; [|auto]. destruct a as [| | | | | | | | | | | |p'|p' j|p' j|]; try exact E.
      cbn [known lastSlice slicesOf] in E |- *. cbn in La. rewrite xorb_false_r. destruct (Bool.eqb p p'); [|exact E].
      destruct (Nat.leb_spec j (if te then ns - 2 else ns - 1)); [|exact E]. unfold sl. rewrite <- (slice_bead kSq kuhn ds w he te).
      * exact E.
      * destruct te; [left; lia|]. destruct (Nat.eq_dec j (ns - 1)); [right; auto|left; lia].
Qed.

(** ** Concentrations *)

Definition concOf (m : polyModel) (ds : R) (w : field) (l0 l1 : list field) (prefactor : R) : field :=
  match m with
  | Thread => fun i =>
      let t := fun j => (qAt l0 j i * qAt l1 (ns - 1 - j)%nat i)%R in
      ((qAt l0 0%nat i * qAt l1 (ns - 1)%nat i + qAt l0 (ns - 1)%nat i * qAt l1 0%nat i
        + rsum (ns - 1) (fun j => if Nat.odd j then t j * 4 else 0)
        + rsum (ns - 2) (fun j => if Nat.even j && (2 <=? j)%nat then t j * 2 else 0))
      * (prefactor * (ds / 3)))%R
  | Bead => fun i => (rsum (ns - 2) (fun k => qAt l0 (S k) i * qAt l1 (ns - 1 - S k)%nat i * expWInv w i) * prefactor)%R
  end.
Definition concG_ (m : polyModel) (ds prefactor : R) : gstate -> outcome gstate :=
  match m with
  | Thread => concThreadG dev sched dims B ns ds prefactor
  | Bead => concBeadG dev sched dims B ns prefactor
  end.

Lemma run_conc : forall m, arrays_ok m -> forall S0 ds ds' w l0 l1 te0 te1 prefactor,
  S0 N_expWInv = Rl (expWInv w) -> match m with Thread => ds' = ds | Bead => True end ->
  (forall j, j <= lastSlice m te0 -> S0 (N_q false j) = Rl (qAt l0 j)) ->
  (forall j, j <= lastSlice m te1 -> S0 (N_q true j) = Rl (qAt l1 j)) ->
  runs m S0 (concG_ m ds' prefactor) (upd_ nm nm_eqd S0 N_c (Rl (concOf m ds w l0 l1 prefactor))).
Proof.
  intros m (H1 & H2 & H3 & H4) S0 ds ds' w l0 l1 te0 te1 prefactor HI Hds Q0 Q1.
  set (sl := fun p : bool => if p then qAt l1 else qAt l0). destruct m; cbn [lastSlice concG_] in *.
  - subst ds'.
    apply (run_concThread dev sched dims Hfair Hnx Hnk B inp nIn ns Thread batched m0 H1 H2 H3 H4 S0 Hns sl (fun _ j => j < ns)).
    + intros p j Hj. split; [exact Hj|]. destruct p; [apply Q1|apply Q0]; lia.
    + auto.
  - apply (run_concBead dev sched dims Hfair Hnx Hnk B inp nIn ns Bead batched m0 H1 H2 H3 H4 S0 (expWInv w) Hns sl (fun _ j => j < ns - 1)).
    + intros p j Hj. split; [lia|]. destruct p; [apply Q1; destruct te1|apply Q0; destruct te0]; lia.
    + exact I.
    + exact HI.
    + intros p j Hj. lia.
Qed.

(** ** Stress *)

Definition stressOf (m : polyModel) (kSq dk : nat -> R) (kuhn ds : R) (he te : bool) (l0 l1 : list field) (prefactor : R) : R :=
  match m with
  | Thread => blockStressThread dims dk kuhn ds ns l0 l1 prefactor
  | Bead => blockStressBead dims kSq dk kuhn ns he te l0 l1 prefactor
  end.
Definition stressG_ (m : polyModel) (dn : nat -> darr) (nP : nat) (he te : bool) (kuhn ds prefactor : R) : gstate -> outcome (gstate * (nat -> R)) :=
  match m with
  | Thread => stressThreadG dev sched dims B dn nP batched ns kuhn ds prefactor
  | Bead => stressBeadG dev sched dims B dn nP batched ns he te kuhn prefactor
  end.

Lemma run_stress : forall m, arrays_ok m ->
  (batched = true -> forall p,
    (da_ty (qAll B p) = Re /\ da_cap (qAll B p) = Z.of_nat (ns * nR dims)) /\
    (da_ty (kBatched B p) = Co /\ da_cap (kBatched B p) = Z.of_nat (ns * nK dims))) ->
  forall S0 nP dn dk kSq kuhn ds ds' he te te1 l0 l1 prefactor,
  S0 N_expKsq = Rl (expKsq kSq m kuhn ds) -> S0 N_expKsq2 = Rl (expKsq2 kSq m kuhn ds) ->
  (forall n, n < nP -> ok nm L (live m) Re (nK dims) (dn n) /\ S0 (dn n) = Rl (dk n) /\ match dn n with N_in _ => True | _ => False end) ->
  match m with Thread => ds' = ds | Bead => True end ->
  (forall j, j <= lastSlice m te -> S0 (N_q false j) = Rl (qAt l0 j)) ->
  (forall j, j <= lastSlice m te1 -> S0 (N_q true j) = Rl (qAt l1 j)) ->
  (batched = true -> forall p j, j < ns -> exists f, S0 (N_q p j) = Rl f) ->
  forall g, at_ m S0 g ->
  exists g' y', stressG_ m (fun n => L (dn n)) nP he te kuhn ds' prefactor g = Ok (g', y') /\
    at_ m (S1 S0) g' /\ forall n, n < nP -> y' n = stressOf m kSq (dk n) kuhn ds he te l0 l1 prefactor.
Proof.
  intros m (H1 & H2 & H3 & H4) Hall S0 nP dn dk kSq kuhn ds ds' he te te1 l0 l1 prefactor He He2 Hdn Hds Q0 Q1 Hdef g Hg.
  assert (Wk : forall sl g', at_ m (Sb dims batched S0 sl) g' -> at_ m (S1 S0) g').
  { intros sl g' A. apply (at_below dev nm L (live m) own m0 _ _ _ A). intros a f La E. exists f. split; [|auto].
    unfold Sb. destruct batched; [|exact E]. destruct a; try exact E; discriminate E. }
  destruct m; cbn [lastSlice stressG_ stressOf] in *.
  - subst ds'. set (sl := fun p : bool => if p then qAt l1 else qAt l0).
    destruct (run_stressThread dev sched dims Hfair Hnx Hnk B inp nIn ns Thread batched m0 H1 H2 H3 H4 S0 sl nP dn dk _ _ He He2 Hdn ns)
      with (kuhn := kuhn) (ds := ds) (prefactor := prefactor) (l0 := l0) (l1 := l1) (g := g) as (g' & y' & E & A & V); auto.
    + intros p j Hj. destruct p; [apply Q1|apply Q0]; lia.
    + exists g', y'. split; [exact E|]. split; [now apply (Wk sl)|exact V].
  - destruct batched eqn:Eb.
    + assert (X : exists jl : bool -> field, forall p, S0 (N_q p (ns - 1)) = Rl (jl p)).
      { destruct (Hdef eq_refl false (ns - 1) ltac:(lia)) as [f0 F0]. destruct (Hdef eq_refl true (ns - 1) ltac:(lia)) as [f1 F1].
        exists (fun p : bool => if p then f1 else f0). intros []; assumption. }
      destruct X as [jl Hjl].
      set (sl := fun (p : bool) j => if j =? ns - 1 then jl p else qAt (if p then l1 else l0) j).
      destruct (run_stressBead dev sched dims Hfair Hnx Hnk B inp nIn ns Bead true m0 H1 H2 H3 H4 S0 sl nP dn dk _ _ He He2 Hdn ns)
        with (kuhn := kuhn) (kSq := kSq) (he := he) (te := te) (prefactor := prefactor) (l0 := l0) (l1 := l1) (g := g) as (g' & y' & E & A & V); auto.
      * intros p j Hj. unfold sl. destruct (Nat.eqb_spec j (ns - 1)) as [->|]; [apply Hjl|].
        destruct p; [apply Q1; destruct te1|apply Q0; destruct te]; lia.
      * lia.
      * intros j Hj. unfold sl. destruct (Nat.eqb_spec j (ns - 1)); [lia|]. auto.
      * exists g', y'. split; [exact E|]. split; [now apply (Wk sl)|exact V].
    + set (sl := fun p : bool => if p then qAt l1 else qAt l0).
      destruct (run_stressBead dev sched dims Hfair Hnx Hnk B inp nIn ns Bead false m0 H1 H2 H3 H4 S0 sl nP dn dk _ _ He He2 Hdn (ns - 1))
        with (kuhn := kuhn) (kSq := kSq) (he := he) (te := te) (prefactor := prefactor) (l0 := l0) (l1 := l1) (g := g) as (g' & y' & E & A & V); auto.
      * split; [lia|discriminate].
      * intros p j Hj. destruct p; [apply Q1; destruct te1|apply Q0; destruct te]; lia.
      * exists g', y'. split; [exact E|]. split; [now apply (Wk sl)|exact V].
Qed.

End Both.
