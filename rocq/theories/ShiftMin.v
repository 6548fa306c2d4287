(** Model of src/prdc/crystal/shiftToMinimum.cpp: minimum image of a wavevector.
    Integer vectors are functions of the Cartesian index; squared norms are
    exact reals (no rounding). *)
From Coq Require Import Reals List Arith ZArith Bool.
From Verif Require Import Base RSum UnitCell.
Import ListNotations.
Local Open Scope Z_scope.

(** pscf/math/IntVec.h 196-209: operator <, lexicographic order. *)
Fixpoint lexlt_from (n i : nat) (u v : nat -> Z) : bool :=
  match n with
  | O => false
  | S n' => if v i <? u i then false else if u i <? v i then true else lexlt_from n' (S i) u v
  end.
Definition lexlt (D : nat) (u v : nat -> Z) : bool := lexlt_from D 0 u v.

(** 21, 38 and 73. *)
Definition epsilon : R := (1 / 100000000)%R.

(** 16-32: one dimension.  The UTIL_ASSERT of line 30 is only active in debug
    builds, so it is not modelled. *)
Definition shift1 (v d : Z) : Z :=
  if (Z.quot d 2) <? v then v - d
  else if v <? - (Z.quot d 2) then v + d
  else v.

(** 53-59 and 89-95: one candidate u; the state is the present minimum image r
    and its squared norm (Gsq_min_lo and Gsq_min_hi are that minus and plus
    epsilon). *)
Definition consider (D : nat) (g : (nat -> Z) -> R) (st : (nat -> Z) * R) (u : nat -> Z) : (nat -> Z) * R :=
  let Gsq := g u in
  if Rlt_dec Gsq (snd st + epsilon)
  then if Rlt_dec Gsq (snd st - epsilon) then (u, Gsq)
       else if lexlt D (fst st) u then (u, Gsq) else st
  else st.

(** 48-52 and 83-88: the nested loops over shifts -2, ..., 2. *)
Definition range2 : list Z := [-2; -1; 0; 1; 2].
Fixpoint shifts (D : nat) : list (list Z) :=
  match D with
  | O => [[]]
  | S n => flat_map (fun s => map (cons s) (shifts n)) range2
  end.
Definition image (D : nat) (v d : nat -> Z) (s : list Z) (i : nat) : Z :=
  if (i <? D)%nat then v i + nth i s 0 * d i else 0.
Definition candidates (D : nat) (v d : nat -> Z) : list (nat -> Z) := map (image D v d) (shifts D).

(** 34-65 (D = 2) and 67-102 (D = 3). *)
Definition shiftLoop (D : nat) (g : (nat -> Z) -> R) (v d : nat -> Z) : nat -> Z :=
  fst (fold_left (consider D g) (candidates D v d) (v, g v)).

(** The function template, for each number of dimensions. *)
Definition shiftToMinimum (D : nat) (v d : nat -> Z) (k : nat -> nat -> R) : nat -> Z :=
  match D with
  | 1%nat => fun i => if (i =? 0)%nat then shift1 (v 0%nat) (d 0%nat) else 0
  | _ => shiftLoop D (ksq D k) v d
  end.
