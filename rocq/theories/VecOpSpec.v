(** Specification of element-wise operations: each output element is the value,
    in the complex numbers, of the formula in the documentation of the operation,
    with the values that the operands had before.  Real numbers are complex
    numbers without imaginary part. *)
From Coq Require Import Reals ZArith Bool.
From Coquelicot Require Import Complex.
From Coq Require Import List.
From Verif Require Import Base GpuKernel VecOp.
Import ListNotations.
Local Open Scope C_scope.

Definition Cexp (z : C) : C := (exp (fst z) * cos (snd z), exp (fst z) * sin (snd z))%R.

Fixpoint Csum (n : nat) (f : nat -> C) : C := match n with O => RtoC 0 | S k => Csum k f + f k end.
Fixpoint Cprod (n : nat) (f : nat -> C) : C := match n with O => RtoC 1 | S k => Cprod k f * f k end.

(** Value of output k; v j is the value of array argument j, s j that of scalar
    argument j. *)
Definition formula (o : vop) (v s : nat -> C) (k : nat) : C :=
  match o with
  | eqV _ => v 1%nat
  | eqS _ => s 0%nat
  | addVV _ => v 1%nat + v 2%nat
  | addVS _ => v 1%nat + s 0%nat
  | subVV _ => v 1%nat - v 2%nat
  | subVS _ => v 1%nat - s 0%nat
  | mulVV _ => v 1%nat * v 2%nat
  | mulVS _ => v 1%nat * s 0%nat
  | divVV _ => v 1%nat / v 2%nat
  | divVS _ => v 1%nat / s 0%nat
  | divSV => s 0%nat / v 1%nat
  | expV _ => Cexp (v 1%nat)
  | addEqV _ => v 0%nat + v 1%nat
  | addEqS _ => v 0%nat + s 0%nat
  | subEqV _ => v 0%nat - v 1%nat
  | subEqS _ => v 0%nat - s 0%nat
  | mulEqV _ => v 0%nat * v 1%nat
  | mulEqS _ => v 0%nat * s 0%nat
  | divEqV _ => v 0%nat / v 1%nat
  | divEqS _ => v 0%nat / s 0%nat
  | addVcVc => v 1%nat * s 0%nat + v 2%nat * s 1%nat
  | addVcVcVc => v 1%nat * s 0%nat + v 2%nat * s 1%nat + v 3%nat * s 2%nat
  | addEqVc => v 0%nat + v 1%nat * s 0%nat
  | subVVS => v 1%nat - v 2%nat - s 0%nat
  | divEqVc => v 0%nat / (v 1%nat * s 0%nat)
  | expVc => Cexp (v 1%nat * s 0%nat)
  | eqVPair => v 2%nat
  | mulVVPair => v (2 + k)%nat * v 4%nat
  | mulEqVPair => v k * v 2%nat
  | addVMany nVecs => Csum nVecs (fun j => v (S j))
  | mulVMany nVecs => Cprod nVecs (fun j => v (S j))
  | sqNormV => RtoC (Cmod (v 1%nat) ^ 2)
  | sqSqNormV => RtoC (Cmod (v 1%nat) ^ 4)
  | realMulVConjVV => RtoC (fst (v 1%nat * Cconj (v 2%nat) * v 3%nat))
  | richardsonEx => (RtoC 4 * (v 2%nat * v 3%nat) - v 1%nat) / RtoC 3
  | addEqMulVVc => v 0%nat + v 1%nat * v 2%nat * s 0%nat
  | addEqMulVVV => v 0%nat + v 1%nat * v 2%nat * v 3%nat
  end.

(** Divisors *)
Definition divisors (o : vop) (v s : nat -> C) : list C :=
  match o with
  | divVV _ => [v 2%nat]
  | divSV | divEqV _ => [v 1%nat]
  | divVS _ | divEqS _ => [s 0%nat]
  | divEqVc => [v 1%nat; s 0%nat]
  | _ => []
  end.

(** Arrays whose elements are operands *)
Definition operands (o : vop) : list nat :=
  match o with
  | eqS _ => []
  | addEqV _ | subEqV _ | mulEqV _ | divEqV _ | addEqS _ | subEqS _ | mulEqS _ | divEqS _
  | addEqVc | divEqVc | mulEqVPair | addEqMulVVc | addEqMulVVV => seq 0 (length (types o))
  | _ => seq (nout o) (length (types o) - nout o)
  end.

(** Scalar arguments that are real by their declaration *)
Definition real_scalar (o : vop) : bool :=
  match o with
  | eqS Co | addVS CC | addVS RC | subVS CC | subVS RC | mulVS CC | mulVS RC
  | addEqS ECC | subEqS ECC | mulEqS ECC => false
  | _ => true
  end.

(** May the output k also be the argument l?  Not if an element of the output is
    written before all of the element was used. *)
Definition may_share (o : vop) (k l : nat) : bool :=
  match o with
  | mulVV CC | mulVS CC | expV Co => false
  | mulVVPair => negb (Nat.eqb k 0 && Nat.eqb l 3)
  | _ => true
  end.

(** Element i of array k is the number z *)
Definition holds (A : args) (m : memory) (k i : nat) (z : C) : Prop :=
  match snd (arr A k) with
  | Re => m (addr A k 0 i) = Val (fst z) /\ snd z = 0%R
  | Co => m (addr A k 0 i) = Val (fst z) /\ m (addr A k 1 i) = Val (snd z)
  end.

(** Words of element i of array k, and of the first n elements *)
Definition word_of (A : args) (k i : nat) (y : Z) : Prop :=
  exists c, (c < width (snd (arr A k)))%nat /\ y = addr A k c i.
Definition in_array (A : args) (n k : nat) (y : Z) : Prop := exists i, (i < n)%nat /\ word_of A k i y.

(** The arrays in use share no memory with an output, or are that output *)
Definition separate (A : args) (o : vop) (n : nat) : Prop :=
  forall k l, (k < nout o)%nat -> (l < length (types o))%nat -> k <> l ->
    (forall y, in_array A n k y -> ~ in_array A n l y) \/
    ((nout o <= l)%nat /\ arr A k = arr A l /\ may_share o k l = true).

(** ** Calls on slices of device arrays *)

(** Address of component c of element j of an array *)
Definition word_at (d : darr) (j : Z) (c : nat) : Z :=
  (da_addr d + Z.of_nat (width (da_ty d)) * j + Z.of_nat c)%Z.
Definition elem (m : memory) (d : darr) (j : Z) (z : C) : Prop :=
  match da_ty d with
  | Re => m (word_at d j 0) = Val (fst z) /\ snd z = 0%R
  | Co => m (word_at d j 0) = Val (fst z) /\ m (word_at d j 1) = Val (snd z)
  end.
Definition allocated (m : memory) (d : darr) : Prop :=
  forall y, (word_at d 0 0 <= y < word_at d (da_cap d) 0)%Z -> m y <> Free.

(** Words of n elements of an array from a first one *)
Definition in_slice (n : Z) (p : darr * Z) (y : Z) : Prop :=
  (word_at (fst p) (snd p) 0 <= y < word_at (fst p) (snd p + n) 0)%Z.
Definition in_bounds (n : Z) (p : darr * Z) : Prop := (0 <= snd p /\ n + snd p <= da_cap (fst p))%Z.

(** Outputs do not meet other slices, or are the same slice as an argument with
    which they may be shared *)
Definition slices_ok (o : vop) (n : Z) (ds : list (darr * Z)) : Prop :=
  forall k l p q, (k < nout o)%nat -> k <> l -> nth_error ds k = Some p -> nth_error ds l = Some q ->
    (forall y, in_slice n p y -> ~ in_slice n q y) \/ ((nout o <= l)%nat /\ p = q /\ may_share o k l = true).

(** What the arguments are before the call; v i k is the value of element i of
    the slice of array k *)
Record call (o : vop) (ds : list (darr * Z)) (sc : list (R * R)) (n : Z) (m : memory)
  (v : nat -> nat -> C) : Prop := Call {
  call_types : map (fun p => da_ty (fst p)) ds = types o;
  call_alloc : forall p, In p ds -> allocated m (fst p);
  call_slices : slices_ok o n ds;
  call_real : real_scalar o = true -> forall z, In z sc -> snd z = 0%R;
  call_values : forall i k p, (Z.of_nat i < n)%Z -> In k (operands o) -> nth_error ds k = Some p ->
    elem m (fst p) (snd p + Z.of_nat i)%Z (v i k);
  call_divisors : forall i z, (Z.of_nat i < n)%Z -> In z (divisors o (v i) (scalars sc)) -> z <> RtoC 0
}.

(** What they are afterwards *)
Definition done (o : vop) (ds : list (darr * Z)) (sc : list (R * R)) (n : Z) (m : memory)
  (v : nat -> nat -> C) (m' : memory) : Prop :=
  (forall i k p, (Z.of_nat i < n)%Z -> (k < nout o)%nat -> nth_error ds k = Some p ->
     elem m' (fst p) (snd p + Z.of_nat i)%Z (formula o (v i) (scalars sc) k)) /\
  (forall y, (forall k p, (k < nout o)%nat -> nth_error ds k = Some p -> ~ in_slice n p y) -> m' y = m y).

(** Every thread gets enough steps *)
Definition fair (o : vop) (sch : nat -> nat -> list nat) : Prop :=
  forall total n, enough total (n * length (body o)) (sch total n).
