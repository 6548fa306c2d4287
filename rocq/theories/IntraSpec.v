(** Specification of the intramolecular correlation function of ideal branched
    chains: the sum of exp(- k^2 R^2 / 6) over all pairs of segments, where R^2 is
    the mean square distance along the path that joins the segments. *)
From Coq Require Import Reals List Bool Arith.
From Coquelicot Require Import Coquelicot.
From Verif Require Import RSum PolymerSpec.
Import ListNotations.
Local Open Scope R_scope.

(** Propagators that follow each other, without turning back *)
Fixpoint chained (es : list (nat * nat)) (l : list (nat * bool)) : Prop :=
  match l with
  | x :: ((y :: _) as l') => feeds es x y /\ chained es l'
  | _ => True
  end.
(** From block A through the blocks of l to block B *)
Definition route (es : list (nat * nat)) (A B : nat) (x : nat * bool) (l : list (nat * bool)) (y : nat * bool) : Prop :=
  fst x = A /\ fst y = B /\ chained es (x :: l ++ [y]).

Section Chains.
Variables (es : list (nat * nat)) (kuhn : nat -> R) (ksq : R).

(** Segments of a continuous block are numbers between 0 and its length, counted
    from vertex 0; contour length from a segment to the end, and from the start of
    a propagator to a segment *)
Definition toEnd (x : nat * bool) (L s : R) : R := if snd x then s else L - s.
Definition fromStart (y : nat * bool) (L t : R) : R := if snd y then L - t else t.
(** Beads are numbers 0, ..., n - 1; bonds are halved at the ends of a block *)
Definition toEndB (x : nat * bool) (n i : nat) : R := (if snd x then INR i else INR (n - 1 - i)) + / 2.
Definition fromStartB (y : nat * bool) (n j : nat) : R := (if snd y then INR (n - 1 - j) else INR j) + / 2.
Definition throughBlocks (len : nat -> R) (l : list (nat * bool)) : R :=
  fold_right (fun z r => len (fst z) * kuhn (fst z) ^ 2 + r) 0 l.

(** W is the matrix of sums (integrals) over pairs of segments of two blocks *)
Record threadPairs (len : nat -> R) (W : nat -> nat -> R) : Prop := {
  thread_same : forall A, (A < length es)%nat ->
    W A A = RInt (fun s => RInt (fun t => exp (- (ksq * (kuhn A ^ 2 * Rabs (s - t)) / 6))) 0 (len A)) 0 (len A);
  thread_other : forall A B x l y, A <> B -> route es A B x l y ->
    W A B = RInt (fun s => RInt (fun t =>
      exp (- (ksq * (kuhn A ^ 2 * toEnd x (len A) s + throughBlocks len l + kuhn B ^ 2 * fromStart y (len B) t) / 6)))
      0 (len B)) 0 (len A)
}.
Record beadPairs (beads : nat -> nat) (W : nat -> nat -> R) : Prop := {
  bead_same : forall A, (A < length es)%nat ->
    W A A = rsum (beads A) (fun i => rsum (beads A) (fun j => exp (- (ksq * (kuhn A ^ 2 * Rabs (INR i - INR j)) / 6))));
  bead_other : forall A B x l y, A <> B -> route es A B x l y ->
    W A B = rsum (beads A) (fun i => rsum (beads B) (fun j =>
      exp (- (ksq * (kuhn A ^ 2 * toEndB x (beads A) i + throughBlocks (fun z => INR (beads z)) l +
                     kuhn B ^ 2 * fromStartB y (beads B) j) / 6))))
}.
End Chains.
