(** The value that one iteration of each element-wise operation computes. *)
From Coq Require Import Reals ZArith Bool Arith Lia Lra.
From Coquelicot Require Import Complex.
From Coq Require Import List.
From Verif Require Import Base GpuThreads GpuGrid GpuKernel VecOp VecOpSpec VecOpProofs.
Import ListNotations.
Local Open Scope nat_scope.

Lemma addr01 : forall A k i, (addr A k 1 i =? addr A k 0 i)%Z = false.
Proof. intros. apply Z.eqb_neq. unfold addr. lia. Qed.
Lemma addr10 : forall A k i, (addr A k 0 i =? addr A k 1 i)%Z = false.
Proof. intros. apply Z.eqb_neq. unfold addr. lia. Qed.

Lemma Cmod_sq : forall z, (Cmod z ^ 2 = fst z * fst z + snd z * snd z)%R.
Proof.
  intros z. unfold Cmod. rewrite pow2_sqrt; [ring|]. pose proof (pow2_ge_0 (fst z)). pose proof (pow2_ge_0 (snd z)). lra.
Qed.

Section Value.

Variables (o : vop) (A : args) (m0 : memory) (i : nat) (v s : nat -> C).
Hypothesis Hty : forall k, k < length (types o) -> snd (arr A k) = nth k (types o) Re.
Hypothesis Hv : forall k, In k (operands o) -> holds A m0 k i (v k).
Hypothesis Hs : forall k, sca A k = s k.
Hypothesis Hr : real_scalar o = true -> forall k, snd (s k) = 0%R.
Hypothesis Hd : forall z, In z (divisors o v s) -> z <> RtoC 0.

Definition computes : Prop := forall loc, exists ws loc',
  pure A m0 i loc (body o) = Ok (ws, loc') /\
  ((nout o = 2 -> addr A 0 0 i <> addr A 1 0 i) ->
   forall k, k < nout o -> holds A (stores ws m0) k i (formula o v s k)).

End Value.

Lemma many_pure : forall A m0 i (v : nat -> C) (f : expr -> expr -> expr) (rop : R -> R -> R),
  (forall loc a b x y, eval A m0 loc i a = Ok x -> eval A m0 loc i b = Ok y ->
     eval A m0 loc i (f a b) = Ok (rop x y)) ->
  forall l loc x, loc 0 = Some x -> (forall j, In j l -> m0 (addr A (1 + j) 0 i) = Val (fst (v (1 + j)))) ->
  exists loc', pure A m0 i loc (map (fun j => Loc 0 (f (Lv 0) (Ld (1 + j) 0))) l ++ [St 0 0 (Lv 0)])
    = Ok ([(addr A 0 0 i, fold_left (fun a j => rop a (fst (v (1 + j)))) l x)], loc').
Proof.
  intros A m0 i v f rop Hf. induction l as [|j l IH]; intros loc x Hx Hl; cbn [map app pure].
  - cbn [eval]. rewrite Hx. cbn [bind fst snd]. eexists. reflexivity.
  - rewrite (Hf loc (Lv 0) (Ld (1 + j) 0) x (fst (v (1 + j)))).
    + cbn [bind fold_left]. apply IH; [reflexivity|]. intros. apply Hl. now right.
    + cbn [eval]. now rewrite Hx.
    + cbn [eval]. rewrite (Hl j) by (now left). reflexivity.
Qed.

Lemma Csum_fold : forall (v : nat -> C) n, (forall k, 1 <= k <= S n -> snd (v k) = 0%R) ->
  Csum (S n) (fun j => v (S j)) =
  RtoC (fold_left (fun a j => (a + fst (v (1 + j)%nat))%R) (seq 1 n) (fst (v 1))).
Proof.
  intros v n Hv. induction n.
  - cbn [Csum seq fold_left]. rewrite Cplus_0_l. unfold RtoC. rewrite <- (Hv 1) by lia. now destruct (v 1).
  - rewrite seq_S, fold_left_app. cbn [fold_left]. rewrite RtoC_plus, <- IHn by (intros; apply Hv; lia).
    replace (1 + (1 + n)) with (S (S n)) by lia.
    change (Csum (S (S n)) (fun j => v (S j))) with (Csum (S n) (fun j => v (S j)) + v (S (S n)))%C.
    f_equal. unfold RtoC. rewrite <- (Hv (S (S n))) by lia. now destruct (v (S (S n))).
Qed.
Lemma Cprod_fold : forall (v : nat -> C) n, (forall k, 1 <= k <= S n -> snd (v k) = 0%R) ->
  Cprod (S n) (fun j => v (S j)) =
  RtoC (fold_left (fun a j => (a * fst (v (1 + j)%nat))%R) (seq 1 n) (fst (v 1))).
Proof.
  intros v n Hv. induction n.
  - cbn [Cprod seq fold_left]. rewrite Cmult_1_l. unfold RtoC. rewrite <- (Hv 1) by lia. now destruct (v 1).
  - rewrite seq_S, fold_left_app. cbn [fold_left]. rewrite RtoC_mult, <- IHn by (intros; apply Hv; lia).
    replace (1 + (1 + n)) with (S (S n)) by lia.
    change (Cprod (S (S n)) (fun j => v (S j))) with (Cprod (S n) (fun j => v (S j)) * v (S (S n)))%C.
    f_equal. unfold RtoC. rewrite <- (Hv (S (S n))) by lia. now destruct (v (S (S n))).
Qed.

(** Loads of the operands *)
Ltac fact Hv Hty k :=
  let H := fresh "F" in
  assert (H := Hv k ltac:(cbn; tauto)); unfold holds in H;
  rewrite (Hty k) in H by (cbn; lia); cbn [types pair_types eq_types nth] in H; destruct H as [? ?].
Ltac facts Hv Hty :=
  try (fact Hv Hty 0); try (fact Hv Hty 1); try (fact Hv Hty 2); try (fact Hv Hty 3); try (fact Hv Hty 4).

Lemma not0 : forall z : C, z <> RtoC 0 -> snd z = 0%R -> fst z <> 0%R.
Proof. intros [x y] H E K. cbn in *. subst. now apply H. Qed.

Ltac nonzero Hd :=
  cbn [divisors] in Hd;
  try (match type of Hd with forall z, In z [?a] -> _ =>
         let H := fresh "D" in assert (H := not0 a (Hd a (or_introl eq_refl)) ltac:(auto)) end);
  try (match type of Hd with forall z, In z [?a; ?b] -> _ =>
         let H := fresh "D" in assert (H := not0 a (Hd a (or_introl eq_refl)) ltac:(auto));
         let H' := fresh "D" in assert (H' := not0 b (Hd b (or_intror (or_introl eq_refl))) ltac:(auto)) end).

Ltac evaluate :=
  repeat (cbn [pure eval bind fst snd Nat.eqb setl];
          repeat match goal with
          | H : ?m ?a = Val _ |- context [match ?m ?a with _ => _ end] => rewrite H
          | H : forall k, sca _ k = _ |- context [sca _ _] => rewrite !H
          | |- context [if Req_EM_T ?y 0 then _ else _] =>
              destruct (Req_EM_T y 0) as [?E0|?E0];
              [exfalso; first [lra | apply Rmult_integral in E0; tauto]|]
          end).

Ltac algebra :=
  repeat match goal with
  | H : snd (?f ?k) = 0%R |- context [?f ?k] => destruct (f k) as [? ?] eqn:?; cbn [fst snd] in *; subst
  | H : fst (?f ?k) <> 0%R |- context [?f ?k] => destruct (f k) as [? ?] eqn:?; cbn [fst snd] in *
  | |- context [fst (?f ?k)] => destruct (f k) as [? ?] eqn:?; cbn [fst snd] in *
  | |- context [snd (?f ?k)] => destruct (f k) as [? ?] eqn:?; cbn [fst snd] in *
  end.

Ltac fin :=
  first
    [ reflexivity | assumption
    | unfold Cdiv, Cinv, Cminus, Cplus, Copp, Cmult, Cexp, Cconj, RtoC; cbn [fst snd];
      repeat match goal with
      | H : snd (?f ?k) = 0%R |- _ => rewrite H in *; clear H
      end;
      first [ring | field; repeat split; first [assumption | lra | nra]
            | field; intros ?K; nra ]
    ].

Lemma op_value : forall o A m0 i (v s : nat -> C),
  match o with addVMany n | mulVMany n => 0 < n | _ => True end ->
  (forall k, k < length (types o) -> snd (arr A k) = nth k (types o) Re) ->
  (forall k, In k (operands o) -> holds A m0 k i (v k)) ->
  (forall k, sca A k = s k) ->
  (real_scalar o = true -> forall k, snd (s k) = 0%R) ->
  (forall z, In z (divisors o v s) -> z <> RtoC 0) ->
  computes o A m0 i v s.
Proof.
  intros o A m0 i v s Ho Hty Hv Hs Hr Hd loc.
  destruct o as [t|t|p|p|p|p|p|p|t|t| |t|p|p|p|p|p|p|t|t| | | | | | | | | |n|n| | | | | | ];
    try destruct t; try destruct p;
    try (specialize (Hr eq_refl); pose proof (Hr 0); pose proof (Hr 1); pose proof (Hr 2));
    try (facts Hv Hty; nonzero Hd;
         cbn [body add_body sub_body mul_body]; evaluate;
         eexists; eexists; split; [reflexivity|]; intros Hne k Hk;
         cbn [nout] in Hk, Hne;
         destruct k as [|[|k]]; try (exfalso; lia);
         unfold holds; rewrite Hty by (cbn; lia);
         cbn [types pair_types eq_types nth stores fold_left fst snd]; unfold upd;
         rewrite ?Z.eqb_refl, ?addr01, ?addr10;
         try (specialize (Hne eq_refl);
              replace (addr A 0 0 i =? addr A 1 0 i)%Z with false by (symmetry; now apply Z.eqb_neq);
              replace (addr A 1 0 i =? addr A 0 0 i)%Z with false by (symmetry; apply Z.eqb_neq; congruence));
         cbn [formula];
         (split;
          repeat match goal with
                 | H : ?m ?a = Val _ |- ?m ?a = Val _ => rewrite H
                 | |- Val _ = Val _ => apply f_equal
                 end);
         try fin).
  - (* expV Re *) unfold Cexp. cbn [fst]. rewrite H3, cos_0. ring.
  - unfold Cexp. cbn [snd]. rewrite H3, sin_0. ring.
  - (* expVc *) unfold Cexp, Cmult. cbn [fst snd]. rewrite H, H3.
    rewrite !Rmult_0_l, !Rmult_0_r, Rplus_0_r, Rminus_0_r, cos_0. ring.
  - unfold Cexp, Cmult. cbn [fst snd]. rewrite H, H3. rewrite !Rmult_0_l, !Rmult_0_r, Rplus_0_r, sin_0. ring.
  - (* mulVVPair *) cbn [Nat.add]. fin.
  - cbn [Nat.add]. fin.
  - cbn [Nat.add]. fin.
  - cbn [Nat.add]. fin.
  - (* addVMany *)
    assert (Hl : forall k, 1 <= k <= n -> m0 (addr A k 0 i) = Val (fst (v k)) /\ snd (v k) = 0%R).
    { intros k Hk. assert (Hin : In k (operands (addVMany n))).
      { cbn [operands types nout length]. rewrite repeat_length. apply in_seq. lia. }
      specialize (Hv k Hin). unfold holds in Hv. rewrite Hty in Hv by (cbn [types length]; rewrite repeat_length; lia).
      cbn [types] in Hv. destruct k; [lia|]. cbn [nth] in Hv. rewrite nth_repeat_Re in Hv. exact Hv. }
    destruct n as [|n]; [lia|].
    destruct (many_pure A m0 i v Add Rplus) with (l := seq 1 n) (loc := setl loc 0 (fst (v 1))) (x := fst (v 1))
      as [loc' E].
    { intros l a b x y Ha Hb. cbn [eval]. now rewrite Ha, Hb. }
    { reflexivity. }
    { intros j Hj. apply in_seq in Hj. apply Hl. lia. }
    exists [(addr A 0 0 i, fold_left (fun a j => (a + fst (v (1 + j)%nat))%R) (seq 1 n) (fst (v 1)))], loc'.
    split.
    + cbn [body pure]. cbn [eval]. rewrite (proj1 (Hl 1 ltac:(lia))). cbn [bind].
      replace (S n - 1) with n by lia. exact E.
    + intros _ k Hk. cbn [nout] in Hk. assert (k = 0) by lia. subst k. unfold holds.
      rewrite Hty by (cbn [types length]; lia). cbn [types nth formula stores fold_left fst snd].
      rewrite Csum_fold by (intros; apply Hl; lia). unfold upd. rewrite Z.eqb_refl. split; reflexivity.
  - (* mulVMany *)
    assert (Hl : forall k, 1 <= k <= n -> m0 (addr A k 0 i) = Val (fst (v k)) /\ snd (v k) = 0%R).
    { intros k Hk. assert (Hin : In k (operands (mulVMany n))).
      { cbn [operands types nout length]. rewrite repeat_length. apply in_seq. lia. }
      specialize (Hv k Hin). unfold holds in Hv. rewrite Hty in Hv by (cbn [types length]; rewrite repeat_length; lia).
      cbn [types] in Hv. destruct k; [lia|]. cbn [nth] in Hv. rewrite nth_repeat_Re in Hv. exact Hv. }
    destruct n as [|n]; [lia|].
    destruct (many_pure A m0 i v Mul Rmult) with (l := seq 1 n) (loc := setl loc 0 (fst (v 1))) (x := fst (v 1))
      as [loc' E].
    { intros l a b x y Ha Hb. cbn [eval]. now rewrite Ha, Hb. }
    { reflexivity. }
    { intros j Hj. apply in_seq in Hj. apply Hl. lia. }
    exists [(addr A 0 0 i, fold_left (fun a j => (a * fst (v (1 + j)%nat))%R) (seq 1 n) (fst (v 1)))], loc'.
    split.
    + cbn [body pure]. cbn [eval]. rewrite (proj1 (Hl 1 ltac:(lia))). cbn [bind].
      replace (S n - 1) with n by lia. exact E.
    + intros _ k Hk. cbn [nout] in Hk. assert (k = 0) by lia. subst k. unfold holds.
      rewrite Hty by (cbn [types length]; lia). cbn [types nth formula stores fold_left fst snd].
      rewrite Cprod_fold by (intros; apply Hl; lia). unfold upd. rewrite Z.eqb_refl. split; reflexivity.
  - (* sqNormV *) unfold RtoC. cbn [fst]. now rewrite Cmod_sq.
  - (* sqSqNormV *) unfold RtoC. cbn [fst]. replace (Cmod (v 1%nat) ^ 4)%R with ((Cmod (v 1%nat) ^ 2) * (Cmod (v 1%nat) ^ 2))%R by ring.
    now rewrite Cmod_sq.
Qed.
