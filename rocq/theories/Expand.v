(** Expansion in the step size of operators built from exp(h X) and exp(h Y),
    X and Y bounded linear maps on fields with n points. *)
From Coq Require Import Reals QArith Qreals List Bool Arith Lia Lra.
From Verif Require Import Base RSum Solve R1d.
Import ListNotations.
Local Open Scope R_scope.

(** Polynomials in two noncommuting letters: true is X, false is Y. *)
Definition npoly := list (Q * list bool).
Definition pmul (p q : npoly) : npoly :=
  flat_map (fun a => map (fun b => (Qred (fst a * fst b), snd a ++ snd b)%Q) q) p.
Definition pscal (c : Q) (p : npoly) : npoly := map (fun a => (Qred (c * fst a), snd a)%Q) p.
Fixpoint addm (c : Q) (w : list bool) (p : npoly) : npoly :=
  match p with
  | [] => [(c, w)]
  | (d, v) :: r => if list_eq_dec bool_dec w v then (Qred (c + d), v)%Q :: r else (d, v) :: addm c w r
  end.
Fixpoint pnorm (p : npoly) : npoly := match p with [] => [] | (c, w) :: r => addm c w (pnorm r) end.
Definition pzero (p : npoly) : bool := forallb (fun a => Qeq_bool (fst a) 0) (pnorm p).
Definition peqb (p q : npoly) : bool := pzero (p ++ pscal (-1) q).

(** Series up to the fourth power of h. *)
Definition nseries := nat -> npoly.
Definition smul (s u : nseries) : nseries := fun k =>
  flat_map (fun a => pmul (s a) (u (k - a)%nat)) (seq 0 (S k)).
Definition slin (c : Q) (s : nseries) (d : Q) (u : nseries) : nseries := fun k => pscal c (s k) ++ pscal d (u k).
Fixpoint qfact (k : nat) : Q := match k with O => 1%Q | S j => (inject_Z (Z.of_nat k) * qfact j)%Q end.
Fixpoint qpow (c : Q) (k : nat) : Q := match k with O => 1%Q | S j => (c * qpow c j)%Q end.
(** exp(c h X), exp(c h Y) *)
Definition sexp (x : bool) (c : Q) : nseries := fun k => [(Qred (qpow c k / qfact k), repeat x k)].
(** exp(h (X + Y)) *)
Fixpoint wordsOf (k : nat) : list (list bool) :=
  match k with O => [[]] | S j => flat_map (fun w => [true :: w; false :: w]) (wordsOf j) end.
Definition sexact : nseries := fun k => map (fun w => (Qred (1 / qfact k), w)%Q) (wordsOf k).
Definition seqb (s u : nseries) : bool := forallb (fun k => peqb (s k) (u k)) (seq 0 5).

(** One step of the Richardson-extrapolated splitting. *)
Definition sRichardson : nseries :=
  slin (4#3) (smul (sexp true (1#4)) (smul (sexp false (1#2)) (smul (sexp true (1#2)) (smul (sexp false (1#2)) (sexp true (1#4))))))
       (-1#3) (smul (sexp true (1#2)) (smul (sexp false 1) (sexp true (1#2)))).
Lemma richardson_exact : seqb sRichardson sexact = true.
Proof. vm_compute. reflexivity. Qed.
