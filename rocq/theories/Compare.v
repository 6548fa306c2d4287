(** Comparison of fields: pscf/math/FieldComparison.tpp (real fields and basis
    components) and prdc/cpu/CFieldComparison.tpp (complex fields).
    Simplifications: numbers are reals or NaN ([None]); infinities and rounding are
    not modelled; begin_ is a natural number. *)
From Coq Require Import Reals List Arith Bool Lra.
From Verif Require Import Base RSum.
Import ListNotations.
Local Open Scope R_scope.

Section Loops.
Variable E : Type.
(** Absolute difference of two elements and its square, as computed by the loops
    (FieldComparison.tpp 37, 48; CFieldComparison.tpp 38-41, 50). *)
Variables diff diffSq : E -> E -> option R.

(** Value stored when a NaN is found (FieldComparison.tpp 41-42). *)
Definition nanValue : R := 100000000.

(** The loop over elements (FieldComparison.tpp 36-49, CFieldComparison.tpp 37-51)
    from maxDiff_ = m and rmsDiff_ = s; [None]: the function returned after a NaN. *)
Fixpoint elements (l : list (E * E)) (m s : R) : option (R * R) :=
  match l with
  | [] => Some (m, s)
  | (x, y) :: r =>
    match diff x y, diffSq x y with
    | Some d, Some q => elements r (if Rlt_dec m d then d else m) (s + q)
    | _, _ => None
    end
  end.

(** compare for single fields; the result is (maxDiff_, rmsDiff_)
    (FieldComparison.tpp 27-53, CFieldComparison.tpp 27-59). *)
Definition compare1 (begin : nat) (a b : list E) : outcome (R * R) :=
  check (0 <? length a)%nat ;;
  check (length a =? length b)%nat ;;
  match elements (skipn begin (combine a b)) 0 0 with
  | None => Ok (nanValue, nanValue)
  | Some (m, s) => Ok (m, sqrt (s / INR (length a)))
  end.

(** The loop over fields (FieldComparison.tpp 68-88, CFieldComparison.tpp 74-97);
    n is the size of the field treated last.  [Ok None]: return after a NaN. *)
Fixpoint fieldsLoop (begin : nat) (l : list (list E * list E)) (m s : R) (n : nat) : outcome (option (R * R * nat)) :=
  match l with
  | [] => Ok (Some (m, s, n))
  | (x, y) :: r =>
    check (0 <? length x)%nat ;;
    check (length x =? length y)%nat ;;
    match elements (skipn begin (combine x y)) m s with
    | None => Ok None
    | Some (m', s') => fieldsLoop begin r m' s' (length x)
    end
  end.

(** compare for arrays of fields (FieldComparison.tpp 56-92, CFieldComparison.tpp
    62-101). *)
Definition compareN (begin : nat) (a b : list (list E)) : outcome (R * R) :=
  check (0 <? length a)%nat ;;
  check (length a =? length b)%nat ;;
  check (0 <? length (hd [] a))%nat ;;
  r <- fieldsLoop begin (combine a b) 0 0 0%nat ;;
  match r with
  | None => Ok (nanValue, nanValue)
  | Some (m, s, n) => Ok (m, sqrt (s / INR (length a * n)))
  end.
End Loops.

(** FieldComparison.tpp 37: std::abs(a[i] - b[i]) and 48: diff*diff *)
Definition rDiff (x y : option R) : option R :=
  match x, y with Some u, Some v => Some (Rabs (u - v)) | _, _ => None end.
Definition rDiffSq (x y : option R) : option R :=
  match rDiff x y with Some d => Some (d * d) | None => None end.

(** CFieldComparison.tpp 38-41; an element is a pair of real and imaginary part. *)
Definition cDiffSq (x y : option R * option R) : option R :=
  match x, y with
  | (Some x0, Some x1), (Some y0, Some y1) =>
    Some ((x0 - y0) * (x0 - y0) + (x1 - y1) * (x1 - y1))
  | _, _ => None
  end.
Definition cDiff (x y : option R * option R) : option R :=
  match cDiffSq x y with Some q => Some (sqrt q) | None => None end.

(** FieldComparison<FT>::compare, with begin_ *)
Definition compareField := compare1 _ rDiff rDiffSq.
Definition compareFields := compareN _ rDiff rDiffSq.
(** CFieldComparison<D>::compare starts at element 0. *)
Definition compareCField := compare1 _ cDiff cDiffSq 0.
Definition compareCFields := compareN _ cDiff cDiffSq 0.

(** FieldIoTmpl.tpp 729-733: compareFieldsBasis uses begin = 1. *)
Definition compareFieldsBasis := compareFields 1.
