(** Finite sums and products of reals over an initial segment of [nat]. *)
From Coq Require Import Reals List Lra Lia Arith.
Import ListNotations.
Local Open Scope R_scope.

Fixpoint rsum (n : nat) (f : nat -> R) : R :=
  match n with
  | O => 0
  | S k => rsum k f + f k
  end.

Lemma rsum_ext : forall n f g, (forall i, (i < n)%nat -> f i = g i) -> rsum n f = rsum n g.
Proof.
  induction n; intros f g H; simpl; auto.
  rewrite (IHn f g), (H n); auto.
Qed.

Lemma rsum_plus : forall n f g, rsum n (fun i => f i + g i) = rsum n f + rsum n g.
Proof. induction n; intros; simpl; [lra|]. rewrite IHn; lra. Qed.

Lemma rsum_minus : forall n f g, rsum n (fun i => f i - g i) = rsum n f - rsum n g.
Proof. induction n; intros; simpl; [lra|]. rewrite IHn; lra. Qed.

Lemma rsum_scal : forall n c f, rsum n (fun i => c * f i) = c * rsum n f.
Proof. induction n; intros; simpl; [lra|]. rewrite IHn; lra. Qed.

Lemma rsum_scal_r : forall n c f, rsum n (fun i => f i * c) = rsum n f * c.
Proof. induction n; intros; simpl; [lra|]. rewrite IHn; lra. Qed.

Lemma rsum_opp : forall n f, rsum n (fun i => - f i) = - rsum n f.
Proof. induction n; intros; simpl; [lra|]. rewrite IHn; lra. Qed.

Lemma rsum_zero : forall n, rsum n (fun _ => 0) = 0.
Proof. induction n; simpl; lra. Qed.

Lemma rsum_const : forall n c, rsum n (fun _ => c) = INR n * c.
Proof. induction n; intros; [simpl; lra|]. rewrite S_INR. simpl. rewrite IHn. lra. Qed.

Lemma rsum_swap : forall n m (f : nat -> nat -> R),
  rsum n (fun i => rsum m (fun j => f i j)) = rsum m (fun j => rsum n (fun i => f i j)).
Proof.
  induction n; intros; simpl.
  - rewrite rsum_zero; auto.
  - rewrite IHn, <- rsum_plus. reflexivity.
Qed.

Lemma rsum_S_first : forall n f, rsum (S n) f = f O + rsum n (fun i => f (S i)).
Proof.
  induction n; intros; [simpl; lra|].
  change (rsum (S (S n)) f) with (rsum (S n) f + f (S n)). rewrite IHn. simpl. lra.
Qed.

Lemma rsum_add : forall n m f, rsum (n + m) f = rsum n f + rsum m (fun i => f (n + i)%nat).
Proof.
  induction m; intros.
  - rewrite Nat.add_0_r. simpl; lra.
  - rewrite Nat.add_succ_r. simpl. rewrite IHm. lra.
Qed.

Lemma rsum_rev : forall n f, rsum n f = rsum n (fun i => f (n - 1 - i)%nat).
Proof.
  induction n; intros; auto.
  rewrite rsum_S_first. simpl rsum at 2. rewrite Nat.sub_0_r, Nat.sub_diag.
  rewrite (IHn (fun i => f (S i))). rewrite Rplus_comm. f_equal.
  apply rsum_ext. intros. f_equal. lia.
Qed.

Lemma rsum_pos_le : forall n f, (forall i, (i < n)%nat -> 0 <= f i) -> 0 <= rsum n f.
Proof. induction n; intros; simpl; [lra|]. assert (0 <= f n) by auto. assert (0 <= rsum n f) by auto. lra. Qed.

Lemma rsum_pos : forall n f, (0 < n)%nat -> (forall i, (i < n)%nat -> 0 < f i) -> 0 < rsum n f.
Proof.
  destruct n; intros; [lia|]. simpl. assert (0 <= rsum n f).
  { apply rsum_pos_le. intros. left. auto. }
  assert (0 < f n) by auto. lra.
Qed.

Lemma rsum_le : forall n f g, (forall i, (i < n)%nat -> f i <= g i) -> rsum n f <= rsum n g.
Proof. induction n; intros; simpl; [lra|]. assert (f n <= g n) by auto. assert (rsum n f <= rsum n g) by auto. lra. Qed.

Lemma rsum_single : forall n k f, (k < n)%nat -> (forall i, (i < n)%nat -> i <> k -> f i = 0) ->
  rsum n f = f k.
Proof.
  induction n; intros k f Hk H; [lia|]. simpl.
  destruct (Nat.eq_dec k n) as [->|N].
  - rewrite (rsum_ext n f (fun _ => 0)), rsum_zero; [lra|]. intros; apply H; lia.
  - rewrite (IHn k f) by (try lia; intros; apply H; lia). rewrite (H n) by lia. lra.
Qed.

(** Sum over a list. *)
Fixpoint lsum {A} (f : A -> R) (l : list A) : R :=
  match l with [] => 0 | a :: l' => f a + lsum f l' end.
Fixpoint lprod {A} (f : A -> R) (l : list A) : R :=
  match l with [] => 1 | a :: l' => f a * lprod f l' end.

Lemma lsum_ext : forall {A} (f g : A -> R) l, (forall a, In a l -> f a = g a) -> lsum f l = lsum g l.
Proof. induction l; intros; simpl; auto. rewrite IHl by (intros; apply H; simpl; auto). rewrite H; simpl; auto. Qed.

Lemma lsum_app : forall {A} (f : A -> R) l1 l2, lsum f (l1 ++ l2) = lsum f l1 + lsum f l2.
Proof. induction l1; intros; simpl; [lra|]. rewrite IHl1; lra. Qed.

Lemma lsum_seq : forall n s f, lsum f (seq s n) = rsum n (fun i => f (s + i)%nat).
Proof.
  induction n; intros; [reflexivity|]. rewrite rsum_S_first. simpl. rewrite Nat.add_0_r. f_equal.
  rewrite IHn. apply rsum_ext. intros. f_equal. lia.
Qed.

Lemma lsum_scal : forall {A} c (f : A -> R) l, lsum (fun a => c * f a) l = c * lsum f l.
Proof. induction l; simpl; [lra|]. rewrite IHl; lra. Qed.

Lemma lsum_plus : forall {A} (f g : A -> R) l, lsum (fun a => f a + g a) l = lsum f l + lsum g l.
Proof. induction l; simpl; [lra|]. rewrite IHl; lra. Qed.
