(** Model of prdc/crystal: UnitCell<D>, replicateUnitCell, parameter indices.
    double is modelled by R; Constants::Pi by PI. *)
From Coq Require Import Reals List Arith ZArith Bool Lia.
From Verif Require Import Base RSum.
Import ListNotations.
Local Open Scope R_scope.

(** UnitCell.h 112, 255, 400: the enumerations LatticeSystem of the three
    specializations in one type (Null is modelled by [None] where it occurs). *)
Inductive lattice :=
| Lamellar
| Square | Rectangular | Rhombic | Hexagonal2 | Oblique
| Cubic | Tetragonal | Orthorhombic | Monoclinic | Triclinic | Rhombohedral | Hexagonal3.

(** The template parameter D. *)
Definition dim (l : lattice) : nat :=
  match l with
  | Lamellar => 1
  | Square | Rectangular | Rhombic | Hexagonal2 | Oblique => 2
  | _ => 3
  end%nat.

Definition lattice_eq_dec (a b : lattice) : {a = b} + {a <> b}.
Proof. decide equality. Defined.
Definition lattice_eqb (a b : lattice) : bool := if lattice_eq_dec a b then true else false.

(** UnitCell1.cpp 28-36, UnitCell2.cpp 28-48, UnitCell3.cpp 46-71: setNParameter. *)
Definition nParam (l : lattice) : nat :=
  match l with
  | Lamellar => 1
  | Square => 1 | Hexagonal2 => 1 | Rectangular => 2 | Rhombic => 2 | Oblique => 3
  | Cubic => 1 | Tetragonal => 2 | Orthorhombic => 3 | Monoclinic => 4 | Triclinic => 6
  | Rhombohedral => 2 | Hexagonal3 => 2
  end%nat.

(** Assignments to elements of arrays that initializeToZero() has set to zero:
    the last assignment to an element determines it. *)
Definition get2 (w : list (nat * nat * R)) (i j : nat) : R :=
  fold_left (fun acc e => let '(a, b, v) := e in if Nat.eqb a i && Nat.eqb b j then v else acc) w 0.
Definition get3 (w : list (nat * nat * nat * R)) (k i j : nat) : R :=
  fold_left (fun acc e => let '(c, a, b, v) := e in
               if Nat.eqb c k && (Nat.eqb a i && Nat.eqb b j) then v else acc) w 0.

Definition e2 (i j : nat) (v : R) := (i, j, v).
Definition e3 (k i j : nat) (v : R) := (k, i, j, v).

Definition twoPi : R := 2 * PI.

(** UnitCell3.cpp 152: theta of the rhombohedral lattice. *)
Definition rhTheta (beta : R) : R := acos (sqrt ((2 * cos beta + 1) / 3)).
(** UnitCell3.cpp 222. *)
Definition rhAlpha (beta : R) : R := - sin beta / (3 * cos (rhTheta beta) * sin (rhTheta beta)).

(** rBasis_: UnitCell1.cpp 46; UnitCell2.cpp 63, 71, 81-84, 106-109, 134-137;
    UnitCell3.cpp 93, 101-103, 117, 128-131, 192-199, 258-261, 306-311. *)
Definition rWrites (l : lattice) (p : nat -> R) : list (nat * nat * R) :=
  match l with
  | Lamellar => [e2 0 0 (p 0%nat)]
  | Square => [e2 0 0 (p 0%nat); e2 1 1 (p 0%nat)]
  | Rectangular => [e2 0 0 (p 0%nat); e2 1 1 (p 1%nat)]
  | Hexagonal2 => let a := p 0%nat in
      [e2 0 0 (a); e2 0 1 (0); e2 1 0 (-(1/2)*a); e2 1 1 ((1/2)*sqrt 3*a)]
  | Rhombic => let a := p 0%nat in let cg := cos (p 1%nat) in let sg := sin (p 1%nat) in
      [e2 0 0 (a); e2 0 1 (0); e2 1 0 (cg*a); e2 1 1 (sg*a)]
  | Oblique => let a := p 0%nat in let b := p 1%nat in let cg := cos (p 2%nat) in let sg := sin (p 2%nat) in
      [e2 0 0 (a); e2 0 1 (0); e2 1 0 (cg*b); e2 1 1 (sg*b)]
  | Cubic => [e2 0 0 (p 0%nat); e2 1 1 (p 0%nat); e2 2 2 (p 0%nat)]
  | Tetragonal => [e2 0 0 (p 0%nat); e2 1 1 (p 0%nat); e2 2 2 (p 1%nat)]
  | Orthorhombic => [e2 0 0 (p 0%nat); e2 1 1 (p 1%nat); e2 2 2 (p 2%nat)]
  | Hexagonal3 => let a := p 0%nat in let c := p 1%nat in
      [e2 0 0 (a); e2 1 0 (-(1/2)*a); e2 1 1 ((1/2)*sqrt 3*a); e2 2 2 (c)]
  | Rhombohedral => let a := p 0%nat in let cosT := cos (rhTheta (p 1%nat)) in let sinT := sin (rhTheta (p 1%nat)) in
      let sinPi3 := (1/2)*sqrt 3 in let cosPi3 := 1/2 in
      [e2 0 0 (sinT*a); e2 0 2 (cosT*a);
       e2 1 0 (-cosPi3*sinT*a); e2 1 1 (sinPi3*sinT*a); e2 1 2 (cosT*a);
       e2 2 0 (-cosPi3*sinT*a); e2 2 1 (-sinPi3*sinT*a); e2 2 2 (cosT*a)]
  | Monoclinic => let a := p 0%nat in let b := p 1%nat in let c := p 2%nat in let cb := cos (p 3%nat) in let sb := sin (p 3%nat) in
      [e2 0 0 (a); e2 1 1 (b); e2 2 0 (c*cb); e2 2 2 (c*sb)]
  | Triclinic => let a := p 0%nat in let b := p 1%nat in let c := p 2%nat in
      let phi := p 3%nat in let theta := p 4%nat in let gamma := p 5%nat in
      [e2 0 0 (a); e2 1 0 (b*cos gamma); e2 1 1 (b*sin gamma);
       e2 2 0 (c*sin theta*cos phi); e2 2 1 (c*sin theta*sin phi); e2 2 2 (c*cos theta)]
  end.

(** kBasis_: UnitCell1.cpp 47; UnitCell2.cpp 64, 72, 91-94, 118-121, 146-149;
    UnitCell3.cpp 94, 109-111, 119, 138-142, 202-209, 273-276, 329-337. *)
Definition kWrites (l : lattice) (p : nat -> R) : list (nat * nat * R) :=
  match l with
  | Lamellar => [e2 0 0 (twoPi/p 0%nat)]
  | Square => [e2 0 0 (twoPi/p 0%nat); e2 1 1 (twoPi/p 0%nat)]
  | Rectangular => [e2 0 0 (twoPi/p 0%nat); e2 1 1 (twoPi/p 1%nat)]
  | Hexagonal2 => let a := p 0%nat in
      [e2 0 0 (twoPi/a); e2 0 1 (twoPi/(sqrt 3*a)); e2 1 0 (0); e2 1 1 (twoPi/((1/2)*sqrt 3*a))]
  | Rhombic => let a := p 0%nat in let cg := cos (p 1%nat) in let sg := sin (p 1%nat) in
      [e2 0 0 (twoPi/a); e2 0 1 (-twoPi*cg/(sg*a)); e2 1 0 (0); e2 1 1 (twoPi/(a*sg))]
  | Oblique => let a := p 0%nat in let b := p 1%nat in let cg := cos (p 2%nat) in let sg := sin (p 2%nat) in
      [e2 0 0 (twoPi/a); e2 0 1 (-twoPi*cg/(sg*a)); e2 1 0 (0); e2 1 1 (twoPi/(b*sg))]
  | Cubic => [e2 0 0 (twoPi/p 0%nat); e2 1 1 (twoPi/p 0%nat); e2 2 2 (twoPi/p 0%nat)]
  | Tetragonal => [e2 0 0 (twoPi/p 0%nat); e2 1 1 (twoPi/p 0%nat); e2 2 2 (twoPi/p 1%nat)]
  | Orthorhombic => [e2 0 0 (twoPi/p 0%nat); e2 1 1 (twoPi/p 1%nat); e2 2 2 (twoPi/p 2%nat)]
  | Hexagonal3 => let a := p 0%nat in let c := p 1%nat in
      [e2 0 0 (twoPi/a); e2 0 1 (twoPi/(sqrt 3*a)); e2 1 0 (0); e2 1 1 (twoPi/((1/2)*sqrt 3*a)); e2 2 2 (twoPi/c)]
  | Rhombohedral => let a := p 0%nat in let cosT := cos (rhTheta (p 1%nat)) in let sinT := sin (rhTheta (p 1%nat)) in
      let sinPi3 := (1/2)*sqrt 3 in let cosPi3 := 1/2 in
      [e2 0 0 (2*twoPi/(3*sinT*a)); e2 0 2 (twoPi/(3*cosT*a));
       e2 1 0 (-2*cosPi3*twoPi/(3*sinT*a)); e2 1 1 (2*sinPi3*twoPi/(3*sinT*a)); e2 1 2 (twoPi/(3*cosT*a));
       e2 2 0 (-2*cosPi3*twoPi/(3*sinT*a)); e2 2 1 (-2*sinPi3*twoPi/(3*sinT*a)); e2 2 2 (twoPi/(3*cosT*a))]
  | Monoclinic => let a := p 0%nat in let b := p 1%nat in let c := p 2%nat in let cb := cos (p 3%nat) in let sb := sin (p 3%nat) in
      [e2 0 0 (twoPi/a); e2 0 2 (-twoPi*cb/(a*sb)); e2 1 1 (twoPi/b); e2 2 2 (twoPi/(c*sb))]
  | Triclinic => let a := p 0%nat in let b := p 1%nat in let c := p 2%nat in
      let phi := p 3%nat in let theta := p 4%nat in let gamma := p 5%nat in
      let t02 := sin theta*(cos gamma*sin phi - sin gamma*cos phi) in
      [e2 0 0 (twoPi/a); e2 0 1 (-twoPi*cos gamma/(a*sin gamma)); e2 0 2 (t02);
       e2 0 2 (twoPi*t02/(a*sin gamma*cos theta));
       e2 1 1 (twoPi/(b*sin gamma)); e2 1 2 (-twoPi*sin phi*sin theta/(b*cos theta*sin gamma));
       e2 2 2 (twoPi/(c*cos theta))]
  end.

(** drBasis_: UnitCell1.cpp 48; UnitCell2.cpp 65, 73, 86-89, 111-116, 139-144;
    UnitCell3.cpp 95, 105-107, 118, 133-136, 212-232, 265-270, 314-326. *)
Definition drWrites (l : lattice) (p : nat -> R) : list (nat * nat * nat * R) :=
  match l with
  | Lamellar => [e3 0 0 0 (1)]
  | Square => [e3 0 0 0 (1); e3 0 1 1 (1)]
  | Rectangular => [e3 0 0 0 (1); e3 1 1 1 (1)]
  | Hexagonal2 => [e3 0 0 0 (1); e3 0 0 1 (0); e3 0 1 0 (-(1/2)); e3 0 1 1 ((1/2)*sqrt 3)]
  | Rhombic => let a := p 0%nat in let cg := cos (p 1%nat) in let sg := sin (p 1%nat) in
      [e3 0 0 0 (1); e3 0 0 1 (0); e3 0 1 0 (cg); e3 0 1 1 (sg); e3 1 1 0 (-sg*a); e3 1 1 1 (cg*a)]
  | Oblique => let a := p 0%nat in let b := p 1%nat in let cg := cos (p 2%nat) in let sg := sin (p 2%nat) in
      [e3 0 0 0 (1); e3 0 0 1 (0); e3 1 1 0 (cg); e3 1 1 1 (sg); e3 1 1 0 (-sg*b); e3 1 1 1 (cg*b)]
  | Cubic => [e3 0 0 0 (1); e3 0 1 1 (1); e3 0 2 2 (1)]
  | Tetragonal => [e3 0 0 0 (1); e3 0 1 1 (1); e3 1 2 2 (1)]
  | Orthorhombic => [e3 0 0 0 (1); e3 1 1 1 (1); e3 2 2 2 (1)]
  | Hexagonal3 => [e3 0 0 0 (1); e3 0 1 0 (-(1/2)); e3 0 1 1 ((1/2)*sqrt 3); e3 1 2 2 (1)]
  | Rhombohedral => let a := p 0%nat in let cosT := cos (rhTheta (p 1%nat)) in let sinT := sin (rhTheta (p 1%nat)) in
      let sinPi3 := (1/2)*sqrt 3 in let cosPi3 := 1/2 in let alpha := rhAlpha (p 1%nat) in
      [e3 0 0 0 (sinT); e3 0 0 2 (cosT);
       e3 0 1 0 (-cosPi3*sinT); e3 0 1 1 (sinPi3*sinT); e3 0 1 2 (cosT);
       e3 0 2 0 (-cosPi3*sinT); e3 0 2 1 (-sinPi3*sinT); e3 0 2 2 (cosT);
       e3 1 0 0 (cosT*alpha*a); e3 1 0 2 (-sinT*alpha*a);
       e3 1 1 0 (-cosPi3*cosT*alpha*a); e3 1 1 1 (sinPi3*cosT*alpha*a); e3 1 1 2 (-sinT*alpha*a);
       e3 1 2 0 (-cosPi3*cosT*alpha*a); e3 1 2 1 (-sinPi3*cosT*alpha*a); e3 1 2 2 (-sinT*alpha*a)]
  | Monoclinic => let c := p 2%nat in let cb := cos (p 3%nat) in let sb := sin (p 3%nat) in
      [e3 0 0 0 (1); e3 1 1 1 (1); e3 2 2 0 (cb); e3 2 2 2 (sb); e3 3 2 0 (c*sb); e3 3 2 2 (-c*cb)]
  | Triclinic => let b := p 1%nat in let c := p 2%nat in
      let phi := p 3%nat in let theta := p 4%nat in let gamma := p 5%nat in
      [e3 0 0 0 (1); e3 1 1 0 (cos gamma); e3 1 1 1 (sin gamma);
       e3 2 2 0 (sin theta*cos phi); e3 2 2 1 (sin theta*sin phi); e3 2 2 2 (cos theta);
       e3 3 2 0 (-c*sin theta*sin phi); e3 3 2 1 (c*sin theta*cos phi);
       e3 4 2 0 (c*cos theta*cos phi); e3 4 2 1 (c*cos theta*sin phi); e3 4 2 2 (-c*sin theta);
       e3 5 1 0 (-b*sin gamma); e3 5 1 1 (b*cos gamma)]
  end.

Definition rBasis (l : lattice) (p : nat -> R) : nat -> nat -> R := get2 (rWrites l p).
Definition kBasis (l : lattice) (p : nat -> R) : nat -> nat -> R := get2 (kWrites l p).
Definition drBasis (l : lattice) (p : nat -> R) : nat -> nat -> nat -> R := get3 (drWrites l p).

(** UnitCellBase.tpp 149-188: computeDerivatives, as functions of the arrays
    rBasis_, kBasis_ and drBasis_. *)
Definition dkOf (D np : nat) (k : nat -> nat -> R) (dr : nat -> nat -> nat -> R) (p q r : nat) : R :=
  if (p <? np)%nat
  then (0 - rsum D (fun s => rsum D (fun t => k q s * dr p t s * k t r))) / (2 * PI)
  else 0.
Definition drrOf (D np : nat) (rB : nat -> nat -> R) (dr : nat -> nat -> nat -> R) (p q r : nat) : R :=
  if (p <? np)%nat then rsum D (fun s => rB q s * dr p r s + rB r s * dr p q s) else 0.
Definition dkkOf (D np : nat) (k : nat -> nat -> R) (dk : nat -> nat -> nat -> R) (p q r : nat) : R :=
  if (p <? np)%nat then rsum D (fun s => k q s * dk p r s + k r s * dk p q s) else 0.

Definition dkBasis (l : lattice) (p : nat -> R) := dkOf (dim l) (nParam l) (kBasis l p) (drBasis l p).
Definition drrBasis (l : lattice) (p : nat -> R) := drrOf (dim l) (nParam l) (rBasis l p) (drBasis l p).
Definition dkkBasis (l : lattice) (p : nat -> R) := dkkOf (dim l) (nParam l) (kBasis l p) (dkBasis l p).

(** UnitCellBase.tpp 70-84: ksq; 89-104: dksq. *)
Definition ksq (D : nat) (k : nat -> nat -> R) (v : nat -> Z) : R :=
  rsum D (fun j => let g := rsum D (fun i => k i j * IZR (v i)) in g * g).
Definition dksq (D : nat) (dkk : nat -> nat -> nat -> R) (v : nat -> Z) (n : nat) : R :=
  rsum D (fun p => rsum D (fun q => IZR (v p) * IZR (v q) * dkk n p q)).

(** UnitCell1.cpp 101-104, UnitCell2.cpp 206-212, UnitCell3.cpp 375-385: volume. *)
Definition volumeOf (D : nat) (r : nat -> nat -> R) : R :=
  match D with
  | 1%nat => r 0%nat 0%nat
  | 2%nat => r 0%nat 0%nat * r 1%nat 1%nat - r 0%nat 1%nat * r 1%nat 0%nat
  | 3%nat => r 0%nat 0%nat * r 1%nat 1%nat * r 2%nat 2%nat - r 0%nat 0%nat * r 1%nat 2%nat * r 2%nat 1%nat + r 0%nat 1%nat * r 1%nat 2%nat * r 2%nat 0%nat
         - r 0%nat 1%nat * r 1%nat 0%nat * r 2%nat 2%nat + r 0%nat 2%nat * r 1%nat 0%nat * r 2%nat 1%nat - r 0%nat 2%nat * r 1%nat 1%nat * r 2%nat 0%nat
  | _ => 0
  end.
Definition volume (l : lattice) (p : nat -> R) : R := volumeOf (dim l) (rBasis l p).

(* ---------- the unit cell object ---------- *)
(** UnitCellBase.h 186-262 and the member lattice_.  The template parameter D is
    a field; the Signal is not part of this model. *)
Record ucell := mkUcell {
  uD : nat;
  uLat : option lattice;                     (* lattice_, None = Null *)
  uN : nat;                                  (* nParameter_ *)
  uP : nat -> R;                             (* parameters_ *)
  uInit : bool;                              (* isInitialized_ *)
  uR : nat -> nat -> R; uK : nat -> nat -> R; uDr : nat -> nat -> nat -> R;
  uDk : nat -> nat -> nat -> R; uDrr : nat -> nat -> nat -> R; uDkk : nat -> nat -> nat -> R
}.

(** UnitCellBase.tpp 26-30, UnitCell1.cpp 21-23, ...: constructors; the
    (indeterminate) initial parameters_ are an argument. *)
Definition newCell (D : nat) (junk : nat -> R) : ucell :=
  mkUcell D None 0 junk false (fun _ _ => 0) (fun _ _ => 0)
    (fun _ _ _ => 0) (fun _ _ _ => 0) (fun _ _ _ => 0) (fun _ _ _ => 0).

(** UnitCellBase.tpp 193-203: setLattice(); setBasis() checks lattice_ and
    nParameter_ (UnitCell1.cpp 43-44, UnitCell2.cpp 55-56, 61, ..., UnitCell3.cpp 82-83, ...). *)
Definition setLattice (c : ucell) : outcome ucell :=
  match uLat c with
  | None => Throw
  | Some l =>
      check (Nat.eqb (uN c) (nParam l)) ;;
      let r := rBasis l (uP c) in let k := kBasis l (uP c) in let dr := drBasis l (uP c) in
      let dk := dkOf (uD c) (uN c) k dr in
      Ok (mkUcell (uD c) (uLat c) (uN c) (uP c) true r k dr dk
            (drrOf (uD c) (uN c) r dr) (dkkOf (uD c) (uN c) k dk))
  end.

(** UnitCell1.cpp 73-82, UnitCell2.cpp 178-187, UnitCell3.cpp 347-356: set(lattice). *)
Definition setLat (c : ucell) (l : lattice) : outcome ucell :=
  match uLat c with
  | Some l' => check (lattice_eqb l l')
  | None => Ok tt
  end ;;
  Ok (mkUcell (uD c) (Some l) (nParam l) (uP c) false (uR c) (uK c) (uDr c) (uDk c) (uDrr c) (uDkk c)).

(** Copy the first n parameters from a list. *)
Definition putParams (n : nat) (ps : list R) (p : nat -> R) (i : nat) : R :=
  if (i <? n)%nat then nth i ps 0 else p i.
Definition withParams (c : ucell) (p : nat -> R) (init : bool) : ucell :=
  mkUcell (uD c) (uLat c) (uN c) p init (uR c) (uK c) (uDr c) (uDk c) (uDrr c) (uDkk c).

(** UnitCell1.cpp 87-96, UnitCell2.cpp 192-201, UnitCell3.cpp 361-370: set(lattice, parameters). *)
Definition setLatParams (c : ucell) (l : lattice) (ps : list R) : outcome ucell :=
  c1 <- setLat c l ;;
  check (Nat.eqb (length ps) (uN c1)) ;;
  setLattice (withParams c1 (putParams (uN c1) ps (uP c1)) false).

(** UnitCellBase.tpp 42-52: setParameters. *)
Definition setParameters (c : ucell) (ps : list R) : outcome ucell :=
  check (Nat.eqb (length ps) (uN c)) ;;
  setLattice (withParams c (putParams (uN c) ps (uP c)) false).

(** UnitCell1.cpp 54-68, UnitCell2.cpp 159-173, UnitCell3.cpp 28-42: operator =. *)
Definition assignCell (c o : ucell) : outcome ucell :=
  match uLat o with
  | None => match uLat c with Some _ => Throw | None => Throw end   (* setNParameter checks Null *)
  | Some l =>
      match uLat c with Some l' => check (lattice_eqb l l') | None => Ok tt end ;;
      check (Nat.eqb (nParam l) (uN o)) ;;
      setLattice (mkUcell (uD c) (Some l) (nParam l) (putParams (nParam l) (map (uP o) (seq 0 (nParam l))) (uP c))
                    false (uR c) (uK c) (uDr c) (uDk c) (uDrr c) (uDkk c))
  end.

(** UnitCell.h 547-559: operator >>, given the lattice and parameters in the stream. *)
Definition readCell (c : ucell) (l : lattice) (ps : list R) : outcome ucell :=
  c1 <- setLat c l ;;
  setLattice (withParams c1 (putParams (uN c1) ps (uP c1)) false).

(** UnitCell.h 518-527: serialize, loading from an archive. *)
Definition loadCell (c : ucell) (l : option lattice) (n : nat) (ps : list R) : outcome ucell :=
  Ok (mkUcell (uD c) l n (putParams n ps (uP c)) (uInit c) (uR c) (uK c) (uDr c) (uDk c) (uDrr c) (uDkk c)).

(* ---------- replicateUnitCell.cpp ---------- *)
(** 21-46, 51-125, 130-242: the lattice and parameters of the replicated cell. *)
Definition replicateChoice (rep : nat -> Z) (l : lattice) (p : nat -> R) : outcome (lattice * list R) :=
  let m := fun i j : nat => IZR (rep i) * p j in
  let e := fun i j : nat => Z.eqb (rep i) (rep j) in
  match l with
  | Lamellar => Ok (Lamellar, [m 0%nat 0%nat])
  | Square => if e 0%nat 1%nat then Ok (Square, [m 0%nat 0%nat]) else Ok (Rectangular, [m 0%nat 0%nat; m 1%nat 0%nat])
  | Rectangular => Ok (Rectangular, [m 0%nat 0%nat; m 1%nat 1%nat])
  | Hexagonal2 => if e 0%nat 1%nat then Ok (Hexagonal2, [m 0%nat 0%nat]) else Throw
  | Rhombic => if e 0%nat 1%nat then Ok (Rhombic, [m 0%nat 0%nat; p 1%nat]) else Ok (Oblique, [m 0%nat 0%nat; m 1%nat 0%nat; p 1%nat])
  | Oblique => Ok (Oblique, [m 0%nat 0%nat; m 1%nat 1%nat; p 2%nat])
  | Cubic => if e 0%nat 1%nat then (if e 1%nat 2%nat then Ok (Cubic, [m 0%nat 0%nat]) else Ok (Tetragonal, [m 0%nat 0%nat; m 2%nat 0%nat]))
             else Ok (Orthorhombic, [m 0%nat 0%nat; m 1%nat 0%nat; m 2%nat 0%nat])
  | Tetragonal => if e 0%nat 1%nat then Ok (Tetragonal, [m 0%nat 0%nat; m 2%nat 1%nat]) else Ok (Orthorhombic, [m 0%nat 0%nat; m 1%nat 0%nat; m 2%nat 1%nat])
  | Orthorhombic => Ok (Orthorhombic, [m 0%nat 0%nat; m 1%nat 1%nat; m 2%nat 2%nat])
  | Monoclinic => Ok (Monoclinic, [m 0%nat 0%nat; m 1%nat 1%nat; m 2%nat 2%nat; p 3%nat])
  | Triclinic => Ok (Triclinic, [m 0%nat 0%nat; m 1%nat 1%nat; m 2%nat 2%nat; p 3%nat; p 4%nat; p 5%nat])
  | Rhombohedral => if e 0%nat 1%nat && e 1%nat 2%nat then Ok (Rhombohedral, [m 0%nat 0%nat; p 1%nat]) else Throw
  | Hexagonal3 => if e 0%nat 1%nat then Ok (Hexagonal3, [m 0%nat 0%nat; m 2%nat 1%nat]) else Throw
  end.
Definition replicateUnitCell (rep : nat -> Z) (cin cout : ucell) : outcome ucell :=
  match uLat cin with
  | None => Throw
  | Some l =>
      check (Nat.eqb (uN cin) (nParam l)) ;;
      r <- replicateChoice rep l (uP cin) ;;
      let '(l', ps) := r in
      c1 <- setLat cout l' ;;
      check (Nat.eqb (uN c1) (length ps)) ;;
      setLatParams c1 l' ps
  end.

(* ---------- paramIdConversions.cpp ---------- *)
Local Open Scope Z_scope.
(** 15-94: convertFullParamIdToReduced. *)
Definition fullToReduced (l : lattice) (f : Z) : outcome Z :=
  match dim l with
  | 1%nat => check (f =? 0) ;; Ok 0
  | 2%nat =>
      check ((-1 <? f) && (f <? 3)) ;;
      if f =? 0 then Ok 0
      else if f =? 1 then match l with Rectangular | Oblique => Ok 1 | _ => Ok 0 end
      else match l with Oblique => Ok 2 | Rhombic => Ok 1 | _ => Ok (-1) end
  | _ =>
      check ((-1 <? f) && (f <? 6)) ;;
      if f =? 0 then Ok 0
      else if f =? 1 then match l with Orthorhombic | Monoclinic | Triclinic => Ok 1 | _ => Ok 0 end
      else if f =? 2 then match l with Cubic | Rhombohedral => Ok 0 | Tetragonal | Hexagonal3 => Ok 1 | _ => Ok 2 end
      else if (f =? 3) || (f =? 5) then match l with Triclinic => Ok f | Rhombohedral => Ok 1 | _ => Ok (-1) end
      else match l with Triclinic => Ok f | Monoclinic => Ok 3 | Rhombohedral => Ok 1 | _ => Ok (-1) end
  end.
(** 96-177: convertReducedParamIdToFull. *)
Definition reducedToFull (l : lattice) (r : Z) : outcome Z :=
  match l with
  | Lamellar => check (r =? 0) ;; Ok 0
  | Square | Hexagonal2 => check (-1 <? r) ;; check (r =? 0) ;; Ok r
  | Rectangular => check (-1 <? r) ;; check (r <? 2) ;; Ok r
  | Rhombic => check (-1 <? r) ;; check (r <? 2) ;; if r =? 0 then Ok 0 else Ok 2
  | Oblique => check (-1 <? r) ;; check (r <? 3) ;; Ok r
  | Cubic => check (-1 <? r) ;; check (r =? 0) ;; Ok r
  | Hexagonal3 | Tetragonal => check (-1 <? r) ;; check (r <? 2) ;; if r =? 0 then Ok 0 else Ok 2
  | Rhombohedral => check (-1 <? r) ;; check (r <? 2) ;; if r =? 0 then Ok 0 else Ok 3
  | Orthorhombic => check (-1 <? r) ;; check (r <? 3) ;; Ok r
  | Monoclinic => check (-1 <? r) ;; check (r <? 4) ;; if r <? 3 then Ok r else Ok 4
  | Triclinic => check (-1 <? r) ;; check (r <? 6) ;; Ok r
  end.
