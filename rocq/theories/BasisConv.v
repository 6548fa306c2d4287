(** Change of basis of monomer fields: prdc/cpu/FieldBasisConverter.tpp.
    Simplifications: reals for doubles; the arrays in and out are distinct. *)
From Coq Require Import Reals List Arith Bool.
From Verif Require Import Base RSum.
Import ListNotations.
Local Open Scope R_scope.

(** basis_ and nMonomer_ after setBasis, FieldBasisConverter.tpp 50-63: the matrix has
    n1 rows and n2 columns. *)
Record converter := mkConv { cvN : nat; cvB : nat -> nat -> R }.
Definition setBasis (n1 n2 : nat) (B : nat -> nat -> R) : outcome converter :=
  check (1 <? n1)%nat ;; check (n1 =? n2)%nat ;; Ok (mkConv n1 B).

(** maxBasisError, FieldBasisConverter.tpp 65-92. *)
Definition rowError (v : converter) (normSq : R) (i j : nat) : R :=
  let error := rsum (cvN v) (fun k => cvB v i k * cvB v j k) in
  let error := if (i =? j)%nat then error - normSq else error in
  Rabs error.
Definition rowErrors (v : converter) (normSq : R) (i : nat) : list R :=
  map (rowError v normSq i) (seq 0 (S i)).
Definition maxBasisError (v : converter) (normSq : R) : outcome R :=
  check (1 <? cvN v)%nat ;;
  check (if Rlt_dec 0 normSq then true else false) ;;
  Ok (fold_left (fun m e => if Rlt_dec m e then e else m)
                (concat (map (rowErrors v normSq) (seq 0 (cvN v)))) 0).

(** Preconditions of the conversions, FieldBasisConverter.tpp 104-114 and 148-158:
    [sizes] are the capacities of the output fields. *)
Definition convChecks (v : converter) (inp : list (list R)) (sizes : list nat) : outcome nat :=
  check (1 <? cvN v)%nat ;;
  check (0 <? length inp)%nat ;;
  check (0 <? length sizes)%nat ;;
  check (length inp =? cvN v)%nat ;;
  check (length sizes =? cvN v)%nat ;;
  let meshSize := length (hd [] inp) in
  check (forallb (fun f => length f =? meshSize)%nat inp && forallb (fun s => s =? meshSize)%nat sizes) ;;
  Ok meshSize.
Definition at2 (f : list (list R)) (j k : nat) : R := nth k (nth j f []) 0.
(** convertToBasis, FieldBasisConverter.tpp 97-138. *)
Definition convertToBasis (v : converter) (inp : list (list R)) (sizes : list nat) (prefactor : R) : outcome (list (list R)) :=
  meshSize <- convChecks v inp sizes ;;
  Ok (map (fun i => map (fun k => rsum (cvN v) (fun j => cvB v i j * prefactor * at2 inp j k)) (seq 0 meshSize))
          (seq 0 (cvN v))).
(** convertFromBasis, FieldBasisConverter.tpp 143-183. *)
Definition convertFromBasis (v : converter) (inp : list (list R)) (sizes : list nat) (prefactor : R) : outcome (list (list R)) :=
  meshSize <- convChecks v inp sizes ;;
  Ok (map (fun i => map (fun k => rsum (cvN v) (fun j => cvB v j i * prefactor * at2 inp j k)) (seq 0 meshSize))
          (seq 0 (cvN v))).
