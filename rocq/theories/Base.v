(** Outcomes shared by all models.

    [Throw] models UTIL_CHECK / UTIL_THROW (an exception), [UB] models an
    out-of-range access or another operation whose C++ behaviour is undefined,
    [NoFuel] is only produced by loops that carry fuel and says that the loop
    has not ended within that many iterations. *)
From Coq Require Import ZArith List.
Import ListNotations.

Inductive outcome (A : Type) : Type :=
| Ok : A -> outcome A
| Throw : outcome A
| UB : outcome A
| NoFuel : outcome A.
Arguments Ok {A} _.
Arguments Throw {A}.
Arguments UB {A}.
Arguments NoFuel {A}.

Definition bind {A B} (x : outcome A) (f : A -> outcome B) : outcome B :=
  match x with
  | Ok a => f a
  | Throw => Throw
  | UB => UB
  | NoFuel => NoFuel
  end.

(** UTIL_CHECK(b) *)
Definition check (b : bool) : outcome unit := if b then Ok tt else Throw.

Notation "x <- e ;; f" := (bind e (fun x => f))
  (at level 61, e at next level, right associativity).
Notation "e ;; f" := (bind e (fun _ => f))
  (at level 61, right associativity).

Fixpoint update {A} (l : list A) (i : nat) (x : A) : list A :=
  match l, i with
  | [], _ => []
  | _ :: l', O => x :: l'
  | a :: l', S i' => a :: update l' i' x
  end.

Lemma update_length : forall {A} (l : list A) i x, length (update l i x) = length l.
Proof. induction l; destruct i; simpl; intros; auto. Qed.

Lemma nth_update_same : forall {A} (l : list A) i x d,
  i < length l -> nth i (update l i x) d = x.
Proof.
  induction l; destruct i; simpl; intros; auto; try (inversion H; fail).
  apply IHl. now apply PeanoNat.Nat.succ_lt_mono.
Qed.

Lemma nth_update_other : forall {A} (l : list A) i j x d,
  i <> j -> nth j (update l i x) d = nth j l d.
Proof.
  induction l; destruct i, j; simpl; intros; auto; try congruence.
Qed.

Lemma nth_error_update_same : forall {A} (l : list A) i x,
  i < length l -> nth_error (update l i x) i = Some x.
Proof.
  induction l; destruct i; simpl; intros; auto; try (inversion H; fail).
  apply IHl. now apply PeanoNat.Nat.succ_lt_mono.
Qed.

Lemma nth_error_update_other : forall {A} (l : list A) i j x,
  i <> j -> nth_error (update l i x) j = nth_error l j.
Proof.
  induction l; destruct i, j; simpl; intros; auto; try congruence.
Qed.
