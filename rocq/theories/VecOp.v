(** Model of src/prdc/cuda/VecOp.{h,cu}, VecOpMisc.{h,cu} and of the kernels at the
    top of src/rpg/solvers/Block.tpp: element-wise operations on arrays in device
    memory.  Every kernel has the grid-stride loop of GpuKernel.v; its body is
    transcribed below, statement by statement.  Array arguments are numbered in the
    order of the parameters of the kernel, the output first; scalar arguments are
    numbered separately. *)
From Coq Require Import Reals ZArith List Bool Arith.
From Verif Require Import Base GpuThreads GpuGrid GpuKernel.
Import ListNotations.
Local Open Scope nat_scope.

(** Types of two operands: both real, both complex, only the second complex, only
    the first complex *)
Inductive pr := RR | CC | RC | CR.
(** The same for the operations with assignment, where a real output does not take
    a complex operand *)
Inductive pe := ERR | ECC | ECR.

Inductive vop :=
| eqV (t : ty) | eqS (t : ty)
| addVV (p : pr) | addVS (p : pr) | subVV (p : pr) | subVS (p : pr) | mulVV (p : pr) | mulVS (p : pr)
| divVV (t : ty) | divVS (t : ty) | divSV | expV (t : ty)
| addEqV (p : pe) | addEqS (p : pe) | subEqV (p : pe) | subEqS (p : pe) | mulEqV (p : pe) | mulEqS (p : pe)
| divEqV (t : ty) | divEqS (t : ty)
| addVcVc | addVcVcVc | addEqVc | subVVS | divEqVc | expVc
| eqVPair | mulVVPair | mulEqVPair
| addVMany (nVecs : nat) | mulVMany (nVecs : nat)
| sqNormV | sqSqNormV
| realMulVConjVV | richardsonEx | addEqMulVVc | addEqMulVVV.

(** a[i].x or a[i]; a[i].y; components of scalars *)
Local Notation X k := (Ld k 0).
Local Notation Y k := (Ld k 1).
Local Notation sX k := (Sc k 0).
Local Notation sY k := (Sc k 1).

(** VecOp.cu 97-162, 172-237: addition *)
Definition add_body (v : bool) (p : pr) : list stmt :=
  let cx := if v then X 2 else sX 0 in
  let cy := if v then Y 2 else sY 0 in
  match p with
  | RR => [St 0 0 (Add (X 1) cx)]
  | CC => [St 0 0 (Add (X 1) cx); St 0 1 (Add (Y 1) cy)]
  | RC => [St 0 0 (Add (X 1) cx); St 0 1 cy]
  | CR => [St 0 0 (Add (X 1) cx); St 0 1 (Y 1)]
  end.
(** VecOp.cu 247-312, 322-387: subtraction *)
Definition sub_body (v : bool) (p : pr) : list stmt :=
  let cx := if v then X 2 else sX 0 in
  let cy := if v then Y 2 else sY 0 in
  match p with
  | RR => [St 0 0 (Sub (X 1) cx)]
  | CC => [St 0 0 (Sub (X 1) cx); St 0 1 (Sub (Y 1) cy)]
  | RC => [St 0 0 (Sub (X 1) cx); St 0 1 (Sub (Num 0) cy)]
  | CR => [St 0 0 (Sub (X 1) cx); St 0 1 (Y 1)]
  end.
(** VecOp.cu 397-462, 472-537: multiplication *)
Definition mul_body (v : bool) (p : pr) : list stmt :=
  let cx := if v then X 2 else sX 0 in
  let cy := if v then Y 2 else sY 0 in
  match p with
  | RR => [St 0 0 (Mul (X 1) cx)]
  | CC => [St 0 0 (Sub (Mul (X 1) cx) (Mul (Y 1) cy));
           St 0 1 (Add (Mul (X 1) cy) (Mul (Y 1) cx))]
  | RC => [St 0 0 (Mul (X 1) cx); St 0 1 (Mul (X 1) cy)]
  | CR => [St 0 0 (Mul (X 1) cx); St 0 1 (Mul (Y 1) cx)]
  end.

Definition body (o : vop) : list stmt :=
  match o with
  (* VecOp.cu 30-54, 63-87 *)
  | eqV Re => [St 0 0 (X 1)]
  | eqV Co => [St 0 0 (X 1); St 0 1 (Y 1)]
  | eqS Re => [St 0 0 (sX 0)]
  | eqS Co => [St 0 0 (sX 0); St 0 1 (sY 0)]
  | addVV p => add_body true p
  | addVS p => add_body false p
  | subVV p => sub_body true p
  | subVS p => sub_body false p
  | mulVV p => mul_body true p
  | mulVS p => mul_body false p
  (* VecOp.cu 547-574, 584-611, 621-629 *)
  | divVV Re => [St 0 0 (Div (X 1) (X 2))]
  | divVV Co => [St 0 0 (Div (X 1) (X 2)); St 0 1 (Div (Y 1) (X 2))]
  | divVS Re => [St 0 0 (Div (X 1) (sX 0))]
  | divVS Co => [St 0 0 (Div (X 1) (sX 0)); St 0 1 (Div (Y 1) (sX 0))]
  | divSV => [St 0 0 (Div (sX 0) (X 1))]
  (* VecOp.cu 638-662 *)
  | expV Re => [St 0 0 (Exp (X 1))]
  | expV Co => [St 0 0 (Mul (Exp (X 1)) (Cos (Y 1))); St 0 1 (Mul (Exp (X 1)) (Sin (Y 1)))]
  (* VecOp.cu 671-711, 720-761 *)
  | addEqV ERR => [St 0 0 (Add (X 0) (X 1))]
  | addEqV ECC => [St 0 0 (Add (X 0) (X 1)); St 0 1 (Add (Y 0) (Y 1))]
  | addEqV ECR => [St 0 0 (Add (X 0) (X 1))]
  | addEqS ERR => [St 0 0 (Add (X 0) (sX 0))]
  | addEqS ECC => [St 0 0 (Add (X 0) (sX 0)); St 0 1 (Add (Y 0) (sY 0))]
  | addEqS ECR => [St 0 0 (Add (X 0) (sX 0))]
  (* VecOp.cu 770-810, 819-859 *)
  | subEqV ERR => [St 0 0 (Sub (X 0) (X 1))]
  | subEqV ECC => [St 0 0 (Sub (X 0) (X 1)); St 0 1 (Sub (Y 0) (Y 1))]
  | subEqV ECR => [St 0 0 (Sub (X 0) (X 1))]
  | subEqS ERR => [St 0 0 (Sub (X 0) (sX 0))]
  | subEqS ECC => [St 0 0 (Sub (X 0) (sX 0)); St 0 1 (Sub (Y 0) (sY 0))]
  | subEqS ECR => [St 0 0 (Sub (X 0) (sX 0))]
  (* VecOp.cu 868-912, 921-965: the complex product goes through local variables *)
  | mulEqV ERR => [St 0 0 (Mul (X 0) (X 1))]
  | mulEqV ECC => [Loc 0 (Sub (Mul (X 0) (X 1)) (Mul (Y 0) (Y 1)));
                   Loc 1 (Add (Mul (X 0) (Y 1)) (Mul (Y 0) (X 1)));
                   St 0 0 (Lv 0); St 0 1 (Lv 1)]
  | mulEqV ECR => [St 0 0 (Mul (X 0) (X 1)); St 0 1 (Mul (Y 0) (X 1))]
  | mulEqS ERR => [St 0 0 (Mul (X 0) (sX 0))]
  | mulEqS ECC => [Loc 0 (Sub (Mul (X 0) (sX 0)) (Mul (Y 0) (sY 0)));
                   Loc 1 (Add (Mul (X 0) (sY 0)) (Mul (Y 0) (sX 0)));
                   St 0 0 (Lv 0); St 0 1 (Lv 1)]
  | mulEqS ECR => [St 0 0 (Mul (X 0) (sX 0)); St 0 1 (Mul (Y 0) (sX 0))]
  (* VecOp.cu 974-998, 1007-1031 *)
  | divEqV Re => [St 0 0 (Div (X 0) (X 1))]
  | divEqV Co => [St 0 0 (Div (X 0) (X 1)); St 0 1 (Div (Y 0) (X 1))]
  | divEqS Re => [St 0 0 (Div (X 0) (sX 0))]
  | divEqS Co => [St 0 0 (Div (X 0) (sX 0)); St 0 1 (Div (Y 0) (sX 0))]
  (* VecOpMisc.cu 35-43, 57-66, 76-84, 95-103, 113-122, 132-140 *)
  | addVcVc => [St 0 0 (Add (Mul (X 1) (sX 0)) (Mul (X 2) (sX 1)))]
  | addVcVcVc => [St 0 0 (Add (Add (Mul (X 1) (sX 0)) (Mul (X 2) (sX 1))) (Mul (X 3) (sX 2)))]
  | addEqVc => [St 0 0 (Add (X 0) (Mul (X 1) (sX 0)))]
  | subVVS => [St 0 0 (Sub (Sub (X 1) (X 2)) (sX 0))]
  | divEqVc => [St 0 0 (Div (X 0) (Mul (X 1) (sX 0))); St 0 1 (Div (Y 0) (Mul (X 1) (sX 0)))]
  | expVc => [St 0 0 (Exp (Mul (X 1) (sX 0)))]
  (* VecOpMisc.cu 150-161, 173-185, 195-206: pairs of outputs *)
  | eqVPair => [Loc 0 (X 2); St 0 0 (Lv 0); St 1 0 (Lv 0)]
  | mulVVPair => [Loc 0 (X 4); St 0 0 (Mul (X 2) (Lv 0)); St 1 0 (Mul (X 3) (Lv 0))]
  | mulEqVPair => [Loc 0 (X 2); St 0 0 (Mul (X 0) (Lv 0)); St 1 0 (Mul (X 1) (Lv 0))]
  (* VecOpMisc.cu 222-234, 250-262: vecs[j] is array 1 + j *)
  | addVMany nVecs =>
      Loc 0 (X 1) :: map (fun j => Loc 0 (Add (Lv 0) (Ld (1 + j) 0))) (seq 1 (nVecs - 1)) ++ [St 0 0 (Lv 0)]
  | mulVMany nVecs =>
      Loc 0 (X 1) :: map (fun j => Loc 0 (Mul (Lv 0) (Ld (1 + j) 0))) (seq 1 (nVecs - 1)) ++ [St 0 0 (Lv 0)]
  (* VecOpMisc.cu 271-278, 287-296 *)
  | sqNormV => [St 0 0 (Add (Mul (X 1) (X 1)) (Mul (Y 1) (Y 1)))]
  | sqSqNormV => [Loc 0 (Add (Mul (X 1) (X 1)) (Mul (Y 1) (Y 1))); St 0 0 (Mul (Lv 0) (Lv 0))]
  (* rpg/solvers/Block.tpp 35-53: bt = b[i], ct = c[i]; 58-69, 74-85, 90-101 *)
  | realMulVConjVV =>
      [Loc 0 (X 1); Loc 1 (Y 1); Loc 2 (X 2); Loc 3 (Y 2);
       St 0 0 (Mul (Add (Mul (Lv 0) (Lv 2)) (Mul (Lv 1) (Lv 3))) (X 3))]
  | richardsonEx =>
      [Loc 0 (Mul (X 2) (X 3)); St 0 0 (Div (Sub (Mul (Num 4) (Lv 0)) (X 1)) (Num 3))]
  | addEqMulVVc => [St 0 0 (Add (X 0) (Mul (Mul (X 1) (X 2)) (sX 0)))]
  | addEqMulVVV => [St 0 0 (Add (X 0) (Mul (Mul (X 1) (X 2)) (X 3)))]
  end.

(** Types of the array parameters, and number of outputs, from the declarations of
    the kernels *)
Definition pair_types (v : bool) (p : pr) : list ty :=
  match p with
  | RR => Re :: Re :: if v then [Re] else []
  | CC => Co :: Co :: if v then [Co] else []
  | RC => Co :: Re :: if v then [Co] else []
  | CR => Co :: Co :: if v then [Re] else []
  end.
Definition eq_types (v : bool) (p : pe) : list ty :=
  match p with
  | ERR => Re :: if v then [Re] else []
  | ECC => Co :: if v then [Co] else []
  | ECR => Co :: if v then [Re] else []
  end.
Definition types (o : vop) : list ty :=
  match o with
  | eqV t => [t; t] | eqS t => [t]
  | addVV p | subVV p | mulVV p => pair_types true p
  | addVS p | subVS p | mulVS p => pair_types false p
  | divVV t => [t; t; Re] | divVS t => [t; t] | divSV => [Re; Re] | expV t => [t; t]
  | addEqV p | subEqV p | mulEqV p => eq_types true p
  | addEqS p | subEqS p | mulEqS p => eq_types false p
  | divEqV t => [t; Re] | divEqS t => [t]
  | addVcVc => [Re; Re; Re] | addVcVcVc => [Re; Re; Re; Re]
  | addEqVc => [Re; Re] | subVVS => [Re; Re; Re] | divEqVc => [Co; Re] | expVc => [Re; Re]
  | eqVPair => [Re; Re; Re] | mulVVPair => [Re; Re; Re; Re; Re] | mulEqVPair => [Re; Re; Re]
  | addVMany nVecs | mulVMany nVecs => Re :: repeat Re nVecs
  | sqNormV | sqSqNormV => [Re; Co]
  | realMulVConjVV => [Re; Co; Co; Re] | richardsonEx => [Re; Re; Re; Re]
  | addEqMulVVc => [Re; Re; Re] | addEqMulVVV => [Re; Re; Re; Re]
  end.
Definition nout (o : vop) : nat :=
  match o with eqVPair | mulVVPair | mulEqVPair => 2 | _ => 1 end.

(** ** Wrappers *)

(** pscf/cuda/DeviceArray.h: address of element 0, type and number of elements of a
    DeviceArray *)
Record darr := Darr { da_addr : Z; da_ty : ty; da_cap : Z }.

(** a.cArray() + beginId *)
Definition slice (d : darr) (begin : Z) : Z * ty :=
  (da_addr d + Z.of_nat (width (da_ty d)) * begin, da_ty d)%Z.
Definition slices (ds : list (darr * Z)) (k : nat) : Z * ty :=
  match nth_error ds k with Some (d, b) => slice d b | None => (0%Z, Re) end.
Definition scalars (sc : list (R * R)) (k : nat) : R * R := nth k sc (0%R, 0%R).

(** The end of every wrapper, e.g. VecOp.cu 1045-1051: ThreadArray, launch, and
    cudaErrorCheck, which stops the program when the launch was refused.  The
    wrappers of Block.tpp do not have it ([checked] false): memory then is left as
    it was. *)
Definition launch (checked : bool) (dev : device) (sch : nat -> nat -> list nat) (o : vop)
  (ds : list (darr * Z)) (sc : list (R * R)) (n : Z) (st : tarr) (m : memory)
  : outcome (memory * tarr) :=
  st1 <- setThreadsLogical dev n st ;;
  if accepted dev (blocks st1) (tpb st1) then
    let total := Z.to_nat (blocks st1 * tpb st1) in
    m' <- kernel (Args (slices ds) (scalars sc)) (body o) total (Z.to_nat n) (sch total (Z.to_nat n)) m ;;
    Ok (m', st1)
  else if checked then Throw else Ok (m, st1).

(** VecOp.cu 1038-2031: wrappers on slices of arrays.  The sums n + beginId are
    taken not to leave the range of int. *)
Definition vec (dev : device) (sch : nat -> nat -> list nat) (o : vop) (ds : list (darr * Z))
  (sc : list (R * R)) (n : Z) (st : tarr) (m : memory) : outcome (memory * tarr) :=
  check (forallb (fun p => n + snd p <=? da_cap (fst p))%Z ds) ;;
  launch true dev sch o ds sc n st m.

(** VecOp.h, the inline overloads, e.g. 94-95: whole arrays *)
Definition whole (ds : list darr) : list (darr * Z) := map (fun d => (d, 0%Z)) ds.
Definition capacity0 (ds : list darr) : Z := match ds with d :: _ => da_cap d | [] => 0%Z end.
Definition vec_all (dev : device) (sch : nat -> nat -> list nat) (o : vop) (ds : list darr)
  (sc : list (R * R)) (st : tarr) (m : memory) : outcome (memory * tarr) :=
  vec dev sch o (whole ds) sc (capacity0 ds) st m.

(** VecOpMisc.cu 304-458, 586-615 and Block.tpp 115-205: n is the capacity of the
    first output; a second output, and the inputs of richardsonEx, must have
    capacity n, the other inputs at least n. *)
Definition cap_ok (o : vop) (n : Z) (k : nat) (d : darr) : bool :=
  if (k <? nout o) || match o with richardsonEx => true | _ => false end
  then (da_cap d =? n)%Z else (n <=? da_cap d)%Z.
Definition in_block (o : vop) : bool :=
  match o with realMulVConjVV | richardsonEx | addEqMulVVc | addEqMulVVV => true | _ => false end.
Definition misc (dev : device) (sch : nat -> nat -> list nat) (o : vop) (ds : list darr)
  (sc : list (R * R)) (st : tarr) (m : memory) : outcome (memory * tarr) :=
  let n := capacity0 ds in
  check (forallb (fun p => cap_ok o n (fst p) (snd p)) (combine (seq 0 (length ds)) ds)) ;;
  launch (negb (in_block o)) dev sch o (whole ds) sc n st m.

(** VecOpMisc.cu 460-584: addVMany and mulVMany, both overloads.  The capacity of
    the first vector is the number of elements; that of the output and of the
    other vectors is not looked at, unless there are two vectors. *)
Definition many (dev : device) (sch : nat -> nat -> list nat) (mul : bool) (a : darr) (vecs : list darr)
  (st : tarr) (m : memory) : outcome (memory * tarr) :=
  let nVecs := length vecs in
  check (1 <? nVecs) ;;
  if nVecs =? 2 then vec_all dev sch (if mul then mulVV RR else addVV RR) (a :: vecs) [] st m
  else launch true dev sch (if mul then mulVMany nVecs else addVMany nVecs) (whole (a :: vecs)) []
         (capacity0 vecs) st m.
