(** The wrappers of the element-wise operations. *)
From Coq Require Import Reals ZArith Bool Arith Lia Lra.
From Coquelicot Require Import Complex.
From Coq Require Import List.
From Verif Require Import Base GpuThreads GpuGrid GpuWaveHost GpuKernel VecOp VecOpSpec VecOpProofs VecOpValue VecOpKernel.
Import ListNotations.
Local Open Scope nat_scope.

Lemma slices_nth : forall ds k p, nth_error ds k = Some p -> slices ds k = slice (fst p) (snd p).
Proof. intros ds k [d b] H. unfold slices. now rewrite H. Qed.

Section Launch.

Variables (o : vop) (ds : list (darr * Z)) (sc : list (R * R)) (n : Z) (m : memory) (v : nat -> nat -> C).
Hypothesis Ho : op_ok o.
Hypothesis Hn : (0 < n)%Z.
Hypothesis Hc : call o ds sc n m v.
Hypothesis Hb : forall p, In p ds -> in_bounds n p.

Let A := Args (slices ds) (scalars sc).

Lemma ds_length : length ds = length (types o).
Proof. rewrite <- (call_types _ _ _ _ _ _ Hc). now rewrite map_length. Qed.
Lemma ds_nth : forall k, k < length (types o) -> exists p, nth_error ds k = Some p /\ In p ds /\
  da_ty (fst p) = nth k (types o) Re.
Proof.
  intros k Hk. rewrite <- ds_length in Hk. destruct (nth_error ds k) as [p|] eqn:E.
  - exists p. split; [reflexivity|]. split; [now apply nth_error_In in E|].
    rewrite <- (call_types _ _ _ _ _ _ Hc). rewrite (nth_error_nth _ k Re (x := da_ty (fst p))); [reflexivity|].
    now rewrite nth_error_map, E.
  - apply nth_error_None in E. lia.
Qed.

Lemma addr_word_at : forall k p c i, nth_error ds k = Some p ->
  addr A k c i = word_at (fst p) (snd p + Z.of_nat i) c.
Proof.
  intros k p c i E. unfold addr, A. cbn [arr]. rewrite (slices_nth _ _ _ E). unfold slice, word_at.
  cbn [fst snd]. lia.
Qed.
Lemma holds_elem : forall m' k p i z, nth_error ds k = Some p ->
  holds A m' k i z <-> elem m' (fst p) (snd p + Z.of_nat i) z.
Proof.
  intros m' k p i z E. unfold holds, elem. rewrite !(addr_word_at k p) by exact E.
  unfold A. cbn [arr]. rewrite (slices_nth _ _ _ E). unfold slice. cbn [snd]. tauto.
Qed.
Lemma in_array_slice : forall k p y, nth_error ds k = Some p -> in_array A (Z.to_nat n) k y <-> in_slice n p y.
Proof.
  intros k p y E. unfold in_array, word_of, in_slice.
  assert (W : width (snd (arr A k)) = width (da_ty (fst p))).
  { unfold A. cbn [arr]. rewrite (slices_nth _ _ _ E). reflexivity. }
  rewrite W. split.
  - intros (i & Hi & c & Hw & ->). rewrite (addr_word_at k p) by exact E. unfold word_at. nia.
  - intros H. unfold word_at in H.
    set (w := width (da_ty (fst p))) in *.
    assert (Hw : 0 < w) by (unfold w; destruct (da_ty (fst p)); cbn; lia).
    set (x := (y - da_addr (fst p) - Z.of_nat w * snd p)%Z).
    assert (Hx : (0 <= x < Z.of_nat w * n)%Z) by (unfold x; nia).
    pose proof (Z.div_mod x (Z.of_nat w) ltac:(lia)) as D.
    pose proof (Z.mod_pos_bound x (Z.of_nat w) ltac:(lia)) as M.
    assert (Q : (0 <= x / Z.of_nat w < n)%Z).
    { split; [apply Z.div_pos; lia|]. apply Z.div_lt_upper_bound; lia. }
    exists (Z.to_nat (x / Z.of_nat w)). split; [lia|]. exists (Z.to_nat (x mod Z.of_nat w)).
    split; [lia|]. rewrite (addr_word_at k p) by exact E. unfold word_at. fold w. rewrite !Z2Nat.id by lia.
    unfold x in *. lia.
Qed.

Lemma call_kernel : forall total s, 0 < total ->
  match kernel A (body o) total (Z.to_nat n) s m with
  | Ok m' => done o ds sc n m v m'
  | NoFuel => ~ enough total (Z.to_nat n * length (body o)) s
  | _ => False
  end.
Proof.
  intros total s Ht.
  assert (Hty : forall k, k < length (types o) -> snd (arr A k) = nth k (types o) Re).
  { intros k Hk. destruct (ds_nth k Hk) as (p & E & _ & T). unfold A. cbn [arr].
    rewrite (slices_nth _ _ _ E). exact T. }
  assert (Hop : forall k, In k (operands o) -> k < length (types o)).
  { clear. intros k. pose proof (nout_le o).
    destruct o as [t|t|p|p|p|p|p|p|t|t| |t|p|p|p|p|p|p|t|t| | | | | | | | | |q|q| | | | | | ];
      intros Hk; unfold operands in Hk; try (destruct Hk; fail); apply in_seq in Hk; lia. }
  assert (K : match kernel A (body o) total (Z.to_nat n) s m with
    | Ok m' =>
      (forall i k, i < Z.to_nat n -> k < nout o -> holds A m' k i (formula o (v i) (scalars sc) k)) /\
      (forall y, (forall k, k < nout o -> ~ in_array A (Z.to_nat n) k y) -> m' y = m y)
    | NoFuel => True
    | _ => False
    end).
  { apply op_kernel; auto.
    - intros k l Hk Hl Hne. pose proof (nout_le o).
      destruct (ds_nth k ltac:(lia)) as (p & Ep & _). destruct (ds_nth l Hl) as (q & Eq & _).
      destruct (call_slices _ _ _ _ _ _ Hc k l p q Hk Hne Ep Eq) as [H1|(H1 & -> & H2)].
      + left. intros y. rewrite (in_array_slice k p), (in_array_slice l q) by auto. apply H1.
      + right. split; [exact H1|]. split; [|exact H2]. unfold A. cbn [arr].
        now rewrite (slices_nth _ _ _ Ep), (slices_nth _ _ _ Eq).
    - intros i k Hi Hk. destruct (ds_nth k (Hop k Hk)) as (p & E & _).
      rewrite (holds_elem _ k p) by exact E. apply (call_values _ _ _ _ _ _ Hc); [lia|exact Hk|exact E].
    - intros Hr k. unfold scalars. destruct (nth_in_or_default k sc (0%R, 0%R)) as [Hin| ->]; [|reflexivity].
      now apply (call_real _ _ _ _ _ _ Hc).
    - intros i z Hi. apply (call_divisors _ _ _ _ _ _ Hc). lia.
    - intros k y Hk. pose proof (nout_le o). destruct (ds_nth k ltac:(lia)) as (p & E & Hin & _).
      rewrite (in_array_slice k p) by exact E. intros Hy.
      apply (call_alloc _ _ _ _ _ _ Hc p Hin). destruct (Hb p Hin) as [B1 B2].
      unfold in_slice, word_at in *. nia. }
  pose proof (kernel_finishes A (body o) total (Z.to_nat n) s m) as F.
  destruct (kernel A (body o) total (Z.to_nat n) s m) as [m'| | |]; auto.
  - destruct K as [K1 K2]. split.
    + intros i k p Hi Hk E. rewrite <- (holds_elem _ k p) by exact E. apply K1; [lia|exact Hk].
    + intros y Hy. apply K2. intros k Hk. pose proof (nout_le o).
      destruct (ds_nth k ltac:(lia)) as (p & E & _). rewrite (in_array_slice k p) by exact E. now apply (Hy k).
  - intros H. now apply F.
Qed.

Lemma launch_done : forall checked dev sch st, ready dev st ->
  match launch checked dev sch o ds sc n st m with
  | Ok (m', st') => ready dev st' /\ done o ds sc n m v m'
  | NoFuel => ~ fair o sch
  | _ => False
  end.
Proof.
  intros checked dev sch st R. unfold launch.
  destruct (logical_ready dev n st R Hn) as (st' & E & R' & _ & _ & C1 & A1 & B1).
  rewrite E. cbn [bind]. rewrite A1. fold A.
  set (total := Z.to_nat (blocks st' * tpb st')).
  assert (Ht : 0 < total) by (unfold total; lia).
  pose proof (call_kernel total (sch total (Z.to_nat n)) Ht) as K.
  destruct (kernel A (body o) total (Z.to_nat n) (sch total (Z.to_nat n)) m); cbn [bind]; auto.
Qed.

End Launch.
