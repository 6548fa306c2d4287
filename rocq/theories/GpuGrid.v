(** CUDA kernels with grid-stride loops.

    Every thread executes
       for (int i = startID; i < n; i += nThreads) { body(i); }
    where startID = blockIdx.x * blockDim.x + threadIdx.x, nThreads =
    blockDim.x * gridDim.x, and body(i) reads and writes only element i of the
    arrays that the kernel changes.  An iteration is one step; the threads of all
    blocks take steps in an order that is given by an arbitrary schedule, a list
    of thread identifiers.  The element i of all arrays that the kernel changes is
    one value of type A. *)
From Coq Require Import ZArith List Bool Arith Lia.
From Verif Require Import Base GpuThreads GpuReduce.
Import ListNotations.

Section Grid.

Context {A : Type}.

(** Contents of the arrays, and the elements that each thread has still to process *)
Record gconf := Gconf { garr : nat -> A; gtodo : nat -> list nat }.

Definition gstep (g : nat -> A -> A) (c : gconf) (t : nat) : gconf :=
  match gtodo c t with
  | [] => c
  | e :: r => Gconf (set (garr c) e (g e (garr c e))) (set (gtodo c) t r)
  end.

(** A kernel with [total] threads, of which thread t processes [todo t], under
    schedule s.  NoFuel: the schedule does not let all threads finish. *)
Definition grid_stride (g : nat -> A -> A) (total : nat) (todo : nat -> list nat)
  (s : list nat) (arr : nat -> A) : outcome (nat -> A) :=
  let c := fold_left (gstep g) s (Gconf arr (fun t => if t <? total then todo t else [])) in
  if forallb (fun t => match gtodo c t with [] => true | _ => false end) (seq 0 total)
  then Ok (garr c) else NoFuel.

End Grid.

(** for (int i = startID; i < n; i += nThreads), nThreads > 0 *)
Fixpoint iterations (fuel i n nT : nat) : list nat :=
  match fuel with
  | O => []
  | S f => if i <? n then i :: iterations f (i + nT) n nT else []
  end.

(** A launch <<<nBlocks, nThreads>>> is refused by the runtime when the block is
    larger than the device allows or when the grid is empty. *)
Definition accepted (dev : device) (nBlocks nThreads : Z) : bool :=
  ((0 <? nThreads) && (nThreads <=? maxPerBlock dev) && (0 <? nBlocks))%Z.

(** ** The result does not depend on the schedule *)

Lemma iterations_in : forall fuel i n nT e, 0 < nT -> n < i + fuel * nT + 1 ->
  In e (iterations fuel i n nT) <-> i <= e < n /\ (e - i) mod nT = 0.
Proof.
  induction fuel; intros i n nT e H0 Hf; cbn [iterations].
  - split; [intros []|]. intros [H _]. lia.
  - destruct (Nat.ltb_spec i n) as [H|H].
    + cbn [In]. rewrite IHfuel by lia. split.
      * intros [<-|[H1 H2]].
        -- split; [lia|]. rewrite Nat.sub_diag. now apply Nat.mod_0_l; lia.
        -- split; [lia|]. replace (e - i) with (e - (i + nT) + 1 * nT) by lia.
           rewrite Nat.mod_add by lia. exact H2.
      * intros [H1 H2]. destruct (Nat.eq_dec i e) as [->|Hn]; [now left|right].
        destruct (Nat.lt_ge_cases (e - i) nT) as [Hs|Hs].
        -- rewrite Nat.mod_small in H2 by auto. lia.
        -- split; [lia|]. replace (e - i) with (e - (i + nT) + 1 * nT) in H2 by lia.
           rewrite Nat.mod_add in H2 by lia. exact H2.
    + split; [intros []|]. intros [H1 _]. lia.
Qed.

Lemma iterations_nodup : forall fuel i n nT, 0 < nT -> NoDup (iterations fuel i n nT).
Proof.
  induction fuel; intros i n nT H0; cbn [iterations]; [constructor|].
  destruct (i <? n); [|constructor]. constructor; auto.
  assert (K : forall f j, i < j -> ~ In i (iterations f j n nT)).
  { induction f; intros j Hj; cbn [iterations]; [intros []|].
    destruct (j <? n); [|intros []]. intros [H|H]; [lia|]. apply (IHf (j + nT)); auto. lia. }
  apply K. lia.
Qed.

Lemma iterations_length : forall fuel i n nT, length (iterations fuel i n nT) <= fuel.
Proof.
  induction fuel; intros; cbn [iterations]; [auto|]. destruct (i <? n); cbn [length]; [|lia].
  specialize (IHfuel (i + nT) n nT). lia.
Qed.

(** Thread t < nT processes the elements e < n with e mod nT = t. *)
Lemma iterations_start : forall t n nT e, t < nT ->
  In e (iterations n t n nT) <-> e < n /\ e mod nT = t.
Proof.
  intros t n nT e Ht. rewrite iterations_in by nia. split.
  - intros [H1 H2]. split; [lia|]. replace e with ((e - t) + t) by lia.
    rewrite Nat.add_mod, H2 by lia. rewrite Nat.add_0_l, Nat.mod_mod by lia.
    now apply Nat.mod_small.
  - intros [H1 H2]. assert (Hle : t <= e) by (rewrite <- H2; apply Nat.mod_le; lia).
    split; [lia|]. rewrite (Nat.div_mod e nT) by lia. rewrite H2.
    replace (nT * (e / nT) + t - t) with ((e / nT) * nT) by lia. apply Nat.mod_mul. lia.
Qed.

Section Result.

Context {A : Type}.
Variables (g : nat -> A -> A) (total : nat) (todo : nat -> list nat) (arr : nat -> A).
Hypothesis Hnd : forall t, t < total -> NoDup (todo t).
Hypothesis Hdis : forall t t' e, t < total -> t' < total -> In e (todo t) -> In e (todo t') -> t = t'.

Let todo0 (t : nat) := if t <? total then todo t else [].

Definition ginv (c : gconf (A := A)) : Prop :=
  (forall t, exists p, todo0 t = p ++ gtodo c t /\
     forall e, In e p -> garr c e = g e (arr e)) /\
  (forall e, (forall t p, todo0 t = p ++ gtodo c t -> ~ In e p) -> garr c e = arr e).

Lemma todo0_in : forall t e, In e (todo0 t) -> t < total.
Proof.
  intros t e H. unfold todo0 in H. destruct (Nat.ltb_spec t total); auto. destruct H.
Qed.

Lemma todo0_nd : forall t, NoDup (todo0 t).
Proof.
  intro t. unfold todo0. destruct (Nat.ltb_spec t total); [auto|constructor].
Qed.

Lemma todo0_dis : forall t t' e, In e (todo0 t) -> In e (todo0 t') -> t = t'.
Proof.
  intros t t' e H H'. pose proof (todo0_in _ _ H). pose proof (todo0_in _ _ H').
  unfold todo0 in H, H'. rewrite (proj2 (Nat.ltb_lt t total)) in H by auto.
  rewrite (proj2 (Nat.ltb_lt t' total)) in H' by auto. exact (Hdis t t' e H0 H1 H H').
Qed.

Lemma app_prefix : forall (p q r : list nat), p ++ r = q ++ r -> p = q.
Proof. intros p q r H. now apply app_inv_tail in H. Qed.

Lemma gstep_inv : forall c t, ginv c -> ginv (gstep g c t).
Proof.
  intros c t [H1 H2]. unfold gstep. destruct (gtodo c t) as [|e r] eqn:E; [split; auto|].
  destruct (H1 t) as (p & Ep & Hp). rewrite E in Ep.
  assert (He : In e (todo0 t)) by (rewrite Ep; apply in_or_app; right; now left).
  assert (Hnp : ~ In e p).
  { intro Hi. pose proof (todo0_nd t) as Hn. rewrite Ep in Hn.
    apply NoDup_remove_2 in Hn. apply Hn. apply in_or_app. now left. }
  assert (Hold : garr c e = arr e).
  { apply H2. intros t' p' Ep' Hi.
    assert (In e (todo0 t')) by (rewrite Ep'; apply in_or_app; now left).
    assert (t' = t) by (eapply todo0_dis; eauto). subst t'. rewrite E, Ep in Ep'.
    apply app_prefix in Ep'. now subst p'. }
  split; cbn [garr gtodo].
  - intro t'. destruct (Nat.eq_dec t' t) as [->|Hn].
    + exists (p ++ [e]). unfold set at 1. rewrite Nat.eqb_refl. rewrite <- app_assoc. split; [exact Ep|].
      intros e' Hi. unfold set. destruct (Nat.eqb_spec e' e) as [->|Hne]; [now rewrite Hold|].
      apply Hp. apply in_app_or in Hi. destruct Hi as [Hi|[Hi|[]]]; [auto|congruence].
    + destruct (H1 t') as (p' & Ep' & Hp'). exists p'. unfold set at 1.
      rewrite (proj2 (Nat.eqb_neq t' t) Hn). split; auto.
      intros e' Hi. unfold set. destruct (Nat.eqb_spec e' e) as [->|Hne]; [|auto].
      exfalso. apply Hn. eapply todo0_dis; [|exact He]. rewrite Ep'. apply in_or_app. now left.
  - intros e' Hnot. unfold set. destruct (Nat.eqb_spec e' e) as [->|Hne].
    + exfalso. apply (Hnot t (p ++ [e])); [|apply in_or_app; right; now left].
      unfold set. rewrite Nat.eqb_refl, <- app_assoc. exact Ep.
    + apply H2. intros t' p' Ep' Hi. destruct (Nat.eq_dec t' t) as [->|Hn].
      * apply (Hnot t (p ++ [e])); [unfold set; rewrite Nat.eqb_refl, <- app_assoc; exact Ep|].
        rewrite E, Ep in Ep'. apply app_prefix in Ep'. subst p'. apply in_or_app. now left.
      * apply (Hnot t' p'); auto. unfold set. now rewrite (proj2 (Nat.eqb_neq t' t) Hn).
Qed.

Lemma gstep_length : forall c t t',
  length (gtodo (gstep g c t) t') = length (gtodo c t') - (if t' =? t then 1 else 0).
Proof.
  intros c t t'. unfold gstep. destruct (gtodo c t) as [|e r] eqn:E.
  - destruct (Nat.eqb_spec t' t) as [->|Hn]; [rewrite E; reflexivity|lia].
  - cbn [gtodo]. unfold set. destruct (Nat.eqb_spec t' t) as [->|Hn]; [rewrite E; cbn [length]; lia|lia].
Qed.

Lemma run_length : forall s c t,
  length (gtodo (fold_left (gstep g) s c) t) = length (gtodo c t) - count_occ Nat.eq_dec s t.
Proof.
  induction s as [|a s IH]; intros c t; cbn [fold_left count_occ]; [lia|].
  rewrite IH, gstep_length. destruct (Nat.eq_dec a t) as [->|Hn].
  - rewrite Nat.eqb_refl. lia.
  - rewrite (proj2 (Nat.eqb_neq t a)) by auto. lia.
Qed.

Theorem grid_stride_ok : forall s,
  (forall t, t < total -> length (todo t) <= count_occ Nat.eq_dec s t) ->
  exists arr', grid_stride g total todo s arr = Ok arr' /\
    (forall t e, t < total -> In e (todo t) -> arr' e = g e (arr e)) /\
    (forall e, (forall t, t < total -> ~ In e (todo t)) -> arr' e = arr e).
Proof.
  intros s Hs. unfold grid_stride. fold todo0.
  set (c := fold_left (gstep g) s (Gconf arr todo0)).
  assert (Hinv : ginv c).
  { unfold c. assert (K : forall s c, ginv c -> ginv (fold_left (gstep g) s c)).
    { induction s0 as [|a s0 IH]; intros c0 Hc; cbn [fold_left]; auto. apply IH. now apply gstep_inv. }
    apply K. split; cbn [garr gtodo].
    - intro t. exists []. split; [reflexivity|]. intros e [].
    - auto. }
  assert (Hdone : forall t, gtodo c t = []).
  { intro t. apply length_zero_iff_nil. unfold c. rewrite run_length. cbn [gtodo].
    unfold todo0. destruct (Nat.ltb_spec t total) as [Ht|Ht]; [specialize (Hs t Ht); lia|reflexivity]. }
  exists (garr c). split.
  { assert (K : forallb (fun t => match gtodo c t with [] => true | _ => false end) (seq 0 total) = true).
    { apply forallb_forall. intros t _. now rewrite Hdone. }
    now rewrite K. }
  destruct Hinv as [H1 H2]. split.
  - intros t e Ht Hi. destruct (H1 t) as (p & Ep & Hp). rewrite Hdone, app_nil_r in Ep.
    apply Hp. rewrite <- Ep. unfold todo0. now rewrite (proj2 (Nat.ltb_lt t total) Ht).
  - intros e Hn. apply H2. intros t p Ep Hi. rewrite Hdone, app_nil_r in Ep. subst p.
    pose proof (todo0_in _ _ Hi) as Ht. apply (Hn t Ht).
    unfold todo0 in Hi. now rewrite (proj2 (Nat.ltb_lt t total) Ht) in Hi.
Qed.

End Result.

(** The loop over all elements of an array of n elements *)
Theorem grid_stride_all : forall {A} (g : nat -> A -> A) total n s arr, 0 < total ->
  (forall t, t < total -> n <= count_occ Nat.eq_dec s t) ->
  exists arr', grid_stride g total (fun t => iterations n t n total) s arr = Ok arr' /\
    forall e, arr' e = if e <? n then g e (arr e) else arr e.
Proof.
  intros A g total n s arr H0 Hs.
  destruct (grid_stride_ok g total (fun t => iterations n t n total) arr) with (s := s)
    as (arr' & E & E1 & E2).
  - intros t _. now apply iterations_nodup.
  - intros t t' e Ht Ht' Hi Hi'. apply iterations_start in Hi; auto. apply iterations_start in Hi'; auto. lia.
  - intros t Ht. pose proof (iterations_length n t n total). specialize (Hs t Ht). lia.
  - exists arr'. split; auto. intro e. destruct (Nat.ltb_spec e n) as [He|He].
    + apply (E1 (e mod total)); [apply Nat.mod_upper_bound; lia|].
      apply iterations_start; [apply Nat.mod_upper_bound; lia|auto].
    + apply E2. intros t Ht Hi. apply iterations_start in Hi; auto. lia.
Qed.
