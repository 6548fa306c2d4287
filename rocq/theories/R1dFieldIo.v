(** Model of src/r1d/misc/FieldIo.cpp: field files of one-dimensional systems,
    interpolation onto a new mesh and extension of the mesh.

    A stream is its list of tokens with the failure flag of std::istream; white
    space and the format of numbers are left out, but the number that is read
    back from the text of [x] is [fmt x], for an arbitrary [fmt].  Arithmetic is
    exact (R). *)
From Coq Require Import Reals ZArith String List Bool Arith.
From Verif Require Import Base RSum.
Import ListNotations.

(** One token of the text: a word, an integer, or another number. *)
Inductive token := TW (s : string) | TI (n : Z) | TD (x : R).
Record stream := mkStream { toks : list token; bad : bool }.

(** in >> label.  A failed stream, or one at its end, leaves the old value.
    Simplification: the text of a number, read as a word, is the empty word (it
    is only compared to "nx" and "nm"). *)
Definition readWord (cur : string) (s : stream) : string * stream :=
  if bad s then (cur, s) else
  match toks s with
  | [] => (cur, mkStream [] true)
  | TW w :: t => (w, mkStream t false)
  | _ :: t => (EmptyString, mkStream t false)
  end.
(** in >> n for int n, whose value may be indeterminate ([None]).  Text that is
    not a number gives 0 and fails.  Simplification: so does a number that is
    not an integer (C++ reads its integer part and leaves the rest). *)
Definition readInt (cur : option Z) (s : stream) : option Z * stream :=
  if bad s then (cur, s) else
  match toks s with
  | [] => (cur, mkStream [] true)
  | TI n :: t => (Some n, mkStream t false)
  | l => (Some 0%Z, mkStream l true)
  end.
(** in >> x for double x *)
Definition readDbl (cur : R) (s : stream) : R * stream :=
  if bad s then (cur, s) else
  match toks s with
  | [] => (cur, mkStream [] true)
  | TI n :: t => (IZR n, mkStream t false)
  | TD x :: t => (x, mkStream t false)
  | l => (0%R, mkStream l true)
  end.

(** The part of r1d/domain/Domain.h used here: nx_, xMin_, xMax_, and dx_ as
    set in Domain.cpp 44, 55, 67 (lines 78 and 89 have xMin_ = 0). *)
Record domain := mkDomain { dnx : Z; xMin : R; xMax : R }.
Definition domDx (d : domain) : R := ((xMax d - xMin d) / IZR (dnx d - 1))%R.

(** FieldIo.cpp 88-90: for (j ...) in >> fields[j][i] *)
Fixpoint readRow (i : nat) (fs : list (list R)) (s : stream) : list (list R) * stream :=
  match fs with
  | [] => ([], s)
  | f :: r =>
      let '(v, s1) := readDbl (nth i f 0%R) s in
      let '(r', s2) := readRow i r s1 in
      (update f i v :: r', s2)
  end.
(** FieldIo.cpp 84-91, [n] rows from row [i] *)
Fixpoint readRows (n i : nat) (idum : option Z) (fs : list (list R)) (s : stream) : outcome (list (list R) * stream) :=
  match n with
  | O => Ok (fs, s)
  | S n' =>
      let '(id, s1) := readInt idum s in
      match id with
      | None => UB
      | Some v =>
          check (v =? Z.of_nat i)%Z ;;
          let '(fs', s2) := readRow i fs s1 in
          readRows n' (S i) id fs' s2
      end
  end.
(** FieldIo.cpp 61-92 *)
Definition readFields (d : domain) (fs : list (list R)) (s : stream) : outcome (list (list R) * stream) :=
  let '(label, s1) := readWord EmptyString s in
  check (String.eqb label "nx") ;;
  let '(ox, s2) := readInt None s1 in
  match ox with
  | None => UB
  | Some nx =>
      check (0 <? nx)%Z ;; check (nx =? dnx d)%Z ;;
      let '(label2, s3) := readWord label s2 in
      check (String.eqb label2 "nm") ;;
      let '(om, s4) := readInt None s3 in
      match om with
      | None => UB
      | Some nm =>
          check (0 <? nm)%Z ;;
          check (nm =? Z.of_nat (length fs))%Z ;;
          check (forallb (fun f => (nx =? Z.of_nat (length f))%Z) fs) ;;
          readRows (Z.to_nat nx) 0 None fs s4
      end
  end.

(** out << "nx     " << nx << std::endl << "nm     " << nm << std::endl *)
Definition header (nx nm : Z) : list token := [TW "nx"; TI nx; TW "nm"; TI nm].
(** out << Int(i, 5) and one number from each field *)
Definition rowOf (fmt : R -> R) (id : Z) (row : list R) : list token := TI id :: map (fun x => TD (fmt x)) row.
Definition atRow (fs : list (list R)) (i : nat) : list R := map (fun f => nth i f 0%R) fs.

(** FieldIo.cpp 129-155 *)
Definition writeFields (d : domain) (fmt : R -> R) (fs : list (list R)) (writeHeader : bool) : outcome (list token) :=
  check (0 <? Z.of_nat (length fs))%Z ;;
  let nx := Z.of_nat (length (nth 0 fs [])) in
  check (nx =? dnx d)%Z ;;
  check (forallb (fun f => (nx =? Z.of_nat (length f))%Z) fs) ;;
  Ok ((if writeHeader then header nx (Z.of_nat (length fs)) else [])
      ++ flat_map (fun i => rowOf fmt (Z.of_nat i) (atRow fs i)) (seq 0 (Z.to_nat nx))).

(** int yi = y: truncation; undefined outside of the range of int *)
Definition truncInt (y : R) : outcome Z :=
  let z := if Rle_dec 0 y then Int_part y else (- Int_part (- y))%Z in
  if ((-2147483648 <=? z) && (z <=? 2147483647))%Z%bool then Ok z else UB.
(** FieldIo.cpp 303-316: line [i] of the interpolated file *)
Definition remeshRow (d : domain) (fmt : R -> R) (fs : list (list R)) (dx : R) (i : nat) : outcome (list token) :=
  let y := (dx * INR i / domDx d)%R in
  yi <- truncInt y ;;
  check (0 <=? yi)%Z ;;
  check (yi + 1 <? dnx d)%Z ;;
  let fu := (y - IZR yi)%R in
  let fl := (1 - fu)%R in
  let k := Z.to_nat yi in
  Ok (rowOf fmt (Z.of_nat i) (map (fun f => fl * nth k f 0 + fu * nth (S k) f 0)%R fs)).
Fixpoint remeshRows (d : domain) (fmt : R -> R) (fs : list (list R)) (dx : R) (l : list nat) : outcome (list token) :=
  match l with
  | [] => Ok []
  | i :: r => t <- remeshRow d fmt fs dx i ;; u <- remeshRows d fmt fs dx r ;; Ok (t ++ u)
  end.
(** FieldIo.cpp 268-327.  Access of fields[j][0] needs a nonempty field.  With
    [nx = 1] the code divides by zero, but does not use the result. *)
Definition remesh (d : domain) (fmt : R -> R) (fs : list (list R)) (nx : Z) : outcome (list token) :=
  check (0 <? Z.of_nat (length fs))%Z ;;
  check (forallb (fun f => (Z.of_nat (length f) =? dnx d)%Z) fs) ;;
  if (dnx d <=? 0)%Z then UB else
  let dx := ((xMax d - xMin d) / IZR (nx - 1))%R in
  mid <- remeshRows d fmt fs dx (seq 1 (Z.to_nat (nx - 2))) ;;
  Ok (header nx (Z.of_nat (length fs)) ++ rowOf fmt 0 (atRow fs 0) ++ mid
      ++ rowOf fmt (nx - 1) (atRow fs (Z.to_nat (dnx d - 1)))).

(** FieldIo.cpp 341-378 *)
Definition extend (d : domain) (fmt : R -> R) (fs : list (list R)) (m : Z) : outcome (list token) :=
  check (0 <? Z.of_nat (length fs))%Z ;;
  let nx := Z.of_nat (length (nth 0 fs [])) in
  check (nx =? dnx d)%Z ;;
  check (forallb (fun f => (nx =? Z.of_nat (length f))%Z) fs) ;;
  if (nx =? 0)%Z && (0 <? m)%Z then UB else
  Ok (header (nx + m) (Z.of_nat (length fs))
      ++ flat_map (fun i => rowOf fmt (Z.of_nat i) (atRow fs i)) (seq 0 (Z.to_nat nx))
      ++ flat_map (fun i => rowOf fmt (Z.of_nat i) (atRow fs (Z.to_nat nx - 1))) (seq (Z.to_nat nx) (Z.to_nat m))).
