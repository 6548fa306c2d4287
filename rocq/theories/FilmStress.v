(** Stress contributions of the thin-film generators. *)
From Coq Require Import Reals ZArith Bool Arith List.
From Verif Require Import Base RSum UnitCell Environment Film.
Import ListNotations.
Local Open Scope R_scope.

(** What the stress functions read besides the members in [fsys]: w().rgrid(i)[k],
    c().rgrid(i)[k], chi(i,j), scft().pressure() (computed if not available) and
    mask().phiTot(). *)
Record fsol := mkFsol {
  sW : nat -> nat -> R; sC : nat -> nat -> R; sChi : nat -> nat -> R; sPress : R; sPhiTot : R
}.

(** The k-th grid point, in the order of the nested loops. *)
Definition pointAt (w : fsys) (k : nat) : nat * nat * nat := nth k (points (dim3 w)) (0, 0, 0)%nat.
(** Domain::mesh().size(). *)
Definition meshSize (w : fsys) : nat := List.length (points (dim3 w)).

(** rpc/environment/FilmFieldGenMask.tpp 96-122 and FilmFieldGenExt.tpp 99-120:
    the derivative of the mask at the k-th grid point. *)
Definition derivAt (w : fsys) (it : R) (n : nat) (m : list R) (k : nat) : R :=
  maskDeriv it (INR (coord (pointAt w k) n) / INR (dim3 w n)) (nth k m 0).

(** FilmFieldGenMask.tpp 124-152: the Lagrange multiplier field. *)
Definition xiAt (w : fsys) (s : fsol) (k : nat) : R :=
  sW s 0%nat k
  - rsum (fNMon w) (fun j => if Rlt_dec (/ 1000000) (Rabs (sChi s 0%nat j)) then sC s j k * sChi s 0%nat j else 0)
  - match fH w with Some h => nth k (nth 0 h []) 0 | None => 0 end.

(** FilmFieldGenMask.tpp 60-171: stress.  The index of the parameter that is
    compared with paramId is that of the full list of parameters converted to
    the reduced list. *)
Definition maskStress (w : fsys) (s : fsol) (g : maskGen) (i : nat) : outcome R :=
  id <- fullToReduced (fLat w) (mNv g) ;;
  if negb (id =? Z.of_nat i)%Z then Ok 0 else
  match fMask w with
  | None => Throw
  | Some m =>
      n <- index3 (mNv g) ;;
      let L := fP w i in
      let nx := meshSize w in
      let intTerm := rsum nx (fun k => xiAt w s k * derivAt w (mIT g) n m k) / (sPhiTot s * INR nx) in
      let pTerm := sPress s * mET g / (sPhiTot s * L * L) in
      Ok (pTerm - intTerm)
  end.

(** FilmFieldGenExt.tpp 58-150: stress.  The sum over grid points inside the loop
    over monomers runs over all points; both loops accumulate one number. *)
Definition extStress (w : fsys) (s : fsol) (g : extGen) (i : nat) : outcome R :=
  a <- isAthermal (fNMon w) g ;;
  if (a : bool) then Ok 0 else
  check (0 <=? xNv g)%Z ;;
  id <- fullToReduced (fLat w) (xNv g) ;;
  if negb (id =? Z.of_nat i)%Z then Ok 0 else
  check (gtb (xIT g) 0) ;;
  match fMask w, fH w with
  | Some m, Some _ =>
      n <- index3 (xNv g) ;;
      let nx := meshSize w in
      let term := rsum (fNMon w) (fun j => rsum nx (fun k =>
        sC s j k * hDeriv (dim3 w n) (coord (pointAt w k) n) (nth j (xB g) 0) (nth j (xT g) 0)
                     (derivAt w (xIT g) n m k))) in
      Ok (term / (sPhiTot s * INR nx))
  | _, _ => Throw
  end.
