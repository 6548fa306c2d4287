(** Model of the one-dimensional solver: src/r1d/domain/Domain.cpp,
    src/r1d/solvers/{Block,Propagator,Polymer}.cpp, in exact real arithmetic. *)
From Coq Require Import Reals ZArith List Bool Arith.
From Verif Require Import Base RSum Polymer Solve Species Tridiag.
Import ListNotations.
Local Open Scope R_scope.

(* ------------------------------------------------------------------ *)
(** ** Domain *)

Inductive mode := Planar | Cylindrical | Spherical.
Record domain := mkDomain {
  d_mode : mode; d_shell : bool; d_xMin : R; d_xMax : R; d_nx : nat }.

(** Domain.cpp 48-91: the four ways of setting the parameters. *)
Definition setPlanar (xMin xMax : R) (nx : nat) : domain := mkDomain Planar false xMin xMax nx.
Definition setShell (m : mode) (xMin xMax : R) (nx : nat) : domain := mkDomain m true xMin xMax nx.
Definition setCylinder (xMax : R) (nx : nat) : domain := mkDomain Cylindrical false 0 xMax nx.
Definition setSphere (xMax : R) (nx : nat) : domain := mkDomain Spherical false 0 xMax nx.

(** Domain.cpp 44, 55, 67, 78, 89: dx_ = (xMax_ - xMin_)/double(nx_ - 1). *)
Definition d_dx (d : domain) : R := (d_xMax d - d_xMin d) / INR (d_nx d - 1).

(** Domain.cpp 126-195: the variables sum and norm of spatialAverage. *)
Definition avgSum (d : domain) (f : field) : R :=
  let nx := d_nx d in
  let x0 := d_xMin d / d_dx d in
  match d_mode d with
  | Planar =>
      1/2 * f O + rsum (nx - 2) (fun k => f (S k)) + 1/2 * f (nx - 1)%nat
  | Cylindrical =>
      (if d_shell d then 1/2 * x0 * f O else f O / 8)
      + rsum (nx - 2) (fun k => (x0 + INR (S k)) * f (S k))
      + 1/2 * (x0 + INR (nx - 1)) * f (nx - 1)%nat
  | Spherical =>
      (if d_shell d then 1/2 * x0 * x0 * f O else f O / 24)
      + rsum (nx - 2) (fun k => (x0 + INR (S k)) * (x0 + INR (S k)) * f (S k))
      + 1/2 * (x0 + INR (nx - 1)) * (x0 + INR (nx - 1)) * f (nx - 1)%nat
  end.
Definition avgNorm (d : domain) : R :=
  let nx := d_nx d in
  let x0 := d_xMin d / d_dx d in
  match d_mode d with
  | Planar => INR (nx - 1)
  | Cylindrical =>
      (if d_shell d then 1/2 * x0 else 1 / 8)
      + rsum (nx - 2) (fun k => x0 + INR (S k))
      + 1/2 * (x0 + INR (nx - 1))
  | Spherical =>
      (if d_shell d then 1/2 * x0 * x0 else 1 / 24)
      + rsum (nx - 2) (fun k => (x0 + INR (S k)) * (x0 + INR (S k)))
      + 1/2 * (x0 + INR (nx - 1)) * (x0 + INR (nx - 1))
  end.

(** Domain.cpp 121-124: the preconditions of spatialAverage.  The capacity test
    is omitted (fields are functions). *)
Definition avgChecks (d : domain) : bool :=
  (1 <? d_nx d)%nat &&
  (if Rlt_dec 0 (d_dx d) then true else false) &&
  (if Rle_dec (d_dx d) (d_xMax d - d_xMin d) then true else false).
Definition spatialAvg (d : domain) (f : field) : R := avgSum d f / avgNorm d.
Definition spatialAverage (d : domain) (f : field) : outcome R :=
  check (avgChecks d) ;; Ok (spatialAvg d f).

(** Domain.cpp 201-218: innerProduct. *)
Definition innerProduct (d : domain) (f g : field) : outcome R :=
  spatialAverage d (fun i => f i * g i).

(* ------------------------------------------------------------------ *)
(** ** Block *)

(** floor of a double converted to int. *)
Definition floorZ (x : R) : Z := Int_part x.

(** Block.cpp 53-56 (and 81-84): ns_, made odd. *)
Definition r1dNs (len dsTarget : R) : Z :=
  let n := (floorZ (len / dsTarget + 1/2) + 1)%Z in
  if (Z.rem n 2 =? 0)%Z then (n + 1)%Z else n.
(** Block.cpp 57, 85 and 143: ds_ = length()/double(ns_ - 1). *)
Definition r1dDs (len dsTarget : R) : R := len / IZR (r1dNs len dsTarget - 1).

(** Matrix A of Block.cpp 145-220: diagonal, upper and lower off-diagonals.
    [ds] is ds_, [kuhn] the segment length, [w] the field. *)
Section Matrix.
Variables (d : domain) (ds kuhn : R) (w : field).
Let nx := d_nx d.
Let dx := d_dx d.
Definition halfDs : R := 1/2 * ds.
(** 152-154 *)
Definition c1 : R := halfDs * (kuhn / dx) * (kuhn / dx) / 6.
Definition sq (x : R) : R := match d_mode d with Spherical => x * x | _ => x end.
(** 179-193: rp of the first row, including the factor c1. *)
Definition rpFirst : R :=
  (if d_shell d then sq (1 + 1/2 * dx / d_xMin d)
   else match d_mode d with Spherical => 3 | _ => 2 end) * c1.
(** 198-211: rm and rp of interior row i. *)
Definition rowX (i : nat) : R := d_xMin d + dx * INR i.
Definition rmInt (i : nat) : R := sq (1 - 1/2 * dx / rowX i) * c1.
Definition rpInt (i : nat) : R := sq (1 + 1/2 * dx / rowX i) * c1.
(** 215-220: rm of the last row. *)
Definition rmLast : R := sq (1 - 1/2 * dx / d_xMax d) * c1.

(** Second-derivative part of the diagonal. *)
Definition diagTerm (i : nat) : R :=
  match d_mode d with
  | Planar => 2 * c1
  | _ => if (i =? 0)%nat then 2 * rpFirst
         else if (i =? nx - 1)%nat then 2 * rmLast
         else rmInt i + rpInt i
  end.
Definition matD (i : nat) : R := halfDs * w i + diagTerm i + 1.
Definition matU (i : nat) : R :=
  match d_mode d with
  | Planar => if (i =? 0)%nat then - (2 * c1) else - c1
  | _ => if (i =? 0)%nat then - (2 * rpFirst) else - rpInt i
  end.
(** lA_[i] belongs to row i + 1. *)
Definition matL (i : nat) : R :=
  match d_mode d with
  | Planar => if (i =? nx - 2)%nat then - (2 * c1) else - c1
  | _ => if (i =? nx - 2)%nat then - (2 * rmLast) else - rmInt (S i)
  end.
(** 223-238: matrix B = 1 - (A - 1). *)
Definition matDB (i : nat) : R := - (halfDs * w i + diagTerm i) + 1.
Definition matUB (i : nat) : R := - matU i.
Definition matLB (i : nat) : R := - matL i.

(** Block.cpp 241 *)
Definition r1dLU : trisolver := computeLU nx matD matU matL.

(** Block.cpp 300-309: step. *)
Definition stepV (q : field) : field := fun i =>
  if (i =? 0)%nat then matDB O * q O + matUB O * q 1%nat
  else if (i =? nx - 1)%nat then matDB i * q i + matLB (i - 1)%nat * q (i - 1)%nat
  else matDB i * q i + matLB (i - 1)%nat * q (i - 1)%nat + matUB i * q (S i).
Definition r1dStep (q : field) : field := Tridiag.solve r1dLU (stepV q).
End Matrix.

(** The parameters of a block that enter here. *)
Record rblock := mkRBlock { rb_length : R; rb_kuhn : R; rb_monomer : nat }.
Definition blockAt (bs : list rblock) (b : nat) : rblock := nth b bs (mkRBlock 0 0 0).

(** Slices of a propagator: r1d Propagator.cpp 107-114, [n] = ns_. *)
Definition iterSlices (n : nat) (step : field -> field) (h : field) : list field :=
  map (fun j => Nat.iter j step h) (seq 0 n).

Section Polymer.
Variables (d : domain) (dsTarget : R) (bs : list rblock) (w : nat -> field).
Definition bNs (b : nat) : Z := r1dNs (rb_length (blockAt bs b)) dsTarget.
Definition bDs (b : nat) : R := r1dDs (rb_length (blockAt bs b)) dsTarget.
Definition bStep (b : nat) : field -> field :=
  r1dStep d (bDs b) (rb_kuhn (blockAt bs b)) (w (rb_monomer (blockAt bs b))).
Definition r1dSlices (b : nat) (_ _ : bool) (h : field) : list field :=
  iterSlices (Z.to_nat (bNs b)) (bStep b) h.

(** Propagator.cpp 137-151: computeQ of propagator x. *)
Definition r1dComputeQ (st : props) (x : dart) : outcome R :=
  match st x, st (partner x) with
  | Some l, Some l' => innerProduct d (hd zero_field l) (last l' zero_field)
  | _, _ => Throw
  end.

(** Block.cpp 247-291: computeConcentration. *)
Definition qAt (l : list field) (j : nat) : field := nth j l zero_field.
Definition r1dConc (b : nat) (l0 l1 : list field) (prefactor : R) : field :=
  let ns := Z.to_nat (bNs b) in
  fun i =>
    (1/2 * qAt l0 0 i * qAt l1 (ns - 1) i
     + rsum (ns - 2) (fun k => qAt l0 (S k) i * qAt l1 (ns - 1 - S k) i)
     + 1/2 * qAt l0 (ns - 1) i * qAt l1 0 i)
    * (prefactor * bDs b).

(** PolymerSpecies.cpp 403-411 *)
Definition polyLength : R := lsum rb_length bs.

(** r1d Polymer.cpp 36-56 (setupSolver is part of the slices), PolymerTmpl.tpp
    153-178 with phiTot = 1.  Returns the species and one field per block. *)
Definition r1dCompute (es : list edge) (p : polymer) (s : species)
  : outcome (species * (nat -> field)) :=
  st <- solveAll r1dSlices (fun _ => true) false es (p_vertices p) (p_plan p) ;;
  Q <- r1dComputeQ st (O, false) ;;
  let s' := setQ s (Q / 1) in
  let prefactor := sp_phi s' / (sp_q s' * polyLength) in
  Ok (s', fun b =>
            match st (b, false), st (b, true) with
            | Some l0, Some l1 => r1dConc b l0 l1 prefactor
            | _, _ => zero_field
            end).
End Polymer.
