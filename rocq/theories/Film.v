(** Model of the thin-film field generators: prdc/environment/
    FilmFieldGenMaskBase.{tpp,cpp}, FilmFieldGenExtBase.tpp and
    rpc/environment/FilmFieldGenMask.tpp, FilmFieldGenExt.tpp,
    FilmEnvironment.h.  double is modelled by R.

    Simplifications: the parameter block is a list of labelled values; echoing
    and log messages are not modelled; of the System only the members used by
    the generators are kept. *)
From Coq Require Import Reals ZArith QArith Qcanon String List Bool Arith Lia.
From Verif Require Import Base RSum UnitCell Symmetry Environment.
Import ListNotations.
Local Open Scope R_scope.

(* ---------- comparisons ---------- *)
Definition gtb (a b : R) : bool := if Rlt_dec b a then true else false.
Definition geb (a b : R) : bool := if Rle_dec b a then true else false.

(* ---------- the parameter block ---------- *)
Inductive entry := EInt (label : string) (v : Z) | EReal (label : string) (v : R) | EArr (label : string) (v : list R).

(** ParamComposite::read, readOptional and readDArray (util library): the next
    entry must carry the given label, except that readOptional leaves an entry
    with another label for the next reader. *)
Definition rdInt (label : string) (s : list entry) : outcome (Z * list entry) :=
  match s with
  | EInt l v :: t => if String.eqb l label then Ok (v, t) else Throw
  | _ => Throw
  end.
Definition rdReal (label : string) (s : list entry) : outcome (R * list entry) :=
  match s with
  | EReal l v :: t => if String.eqb l label then Ok (v, t) else Throw
  | _ => Throw
  end.
Definition rdOptional (label : string) (s : list entry) : option R * list entry :=
  match s with
  | EReal l v :: t => if String.eqb l label then (Some v, t) else (None, s)
  | _ => (None, s)
  end.
Definition rdArr (label : string) (n : nat) (s : list entry) : outcome (list R * list entry) :=
  match s with
  | EArr l v :: t => if String.eqb l label && Nat.eqb (List.length v) n then Ok (v, t) else Throw
  | _ => Throw
  end.

(* ---------- the system ---------- *)
(** The members of rpc/System that the generators read and write: lattice and
    parameters of the unit cell, mesh dimensions, space group (read from its
    file), the number of monomer types, whether the iterator imposes symmetry,
    whether the basis is initialized, isFlexible() and flexibleParams() of the
    iterator, the data of mask() and of h() (None while hasData() is false). *)
Record fsys := mkFsys {
  fLat : lattice;
  fP : nat -> R;
  fDims : nat -> nat;
  fGroup : list symm;
  fNMon : nat;
  fSym : bool;
  fBasis : bool;
  fIsFlex : bool;
  fFlex : list bool;
  fMask : option (list R);
  fH : option (list (list R))
}.
Definition fD (w : fsys) : nat := dim (fLat w).
Definition withFlex (f : list bool) (w : fsys) : fsys :=
  mkFsys (fLat w) (fP w) (fDims w) (fGroup w) (fNMon w) (fSym w) (fBasis w)
    (existsb (fun b => b) f) f (fMask w) (fH w).
Definition withMask (m : option (list R)) (w : fsys) : fsys :=
  mkFsys (fLat w) (fP w) (fDims w) (fGroup w) (fNMon w) (fSym w) (fBasis w) (fIsFlex w) (fFlex w) m (fH w).
Definition withH (h : option (list (list R))) (w : fsys) : fsys :=
  mkFsys (fLat w) (fP w) (fDims w) (fGroup w) (fNMon w) (fSym w) (fBasis w) (fIsFlex w) (fFlex w) (fMask w) h.

(** FilmFieldGenExt.tpp 242-244: systemLatticeVector; RealVec arrays of D
    elements, another index is undefined. *)
Definition latticeVector (w : fsys) (i : Z) : outcome (nat -> R) :=
  if ((0 <=? i) && (i <? Z.of_nat (fD w)))%Z
  then Ok (rBasis (fLat w) (fP w) (Z.to_nat i)) else UB.

(** pscf/math/Vec.h 283-293: dot. *)
Definition dot (D : nat) (a b : nat -> R) : R := rsum D (fun i => a i * b i).

(** pscf/math/RealVec.h 121-132: operator ==, with tolerance 1e-8. *)
Definition eps8 : R := / 100000000.
Definition realVecEq (D : nat) (a b : nat -> R) : bool :=
  forallb (fun i => negb (gtb (Rabs (a i - b i)) eps8)) (seq 0 D).

(* ---------- the mask generator ---------- *)
(** FilmFieldGenMaskBase.h: normalVecId_, interfaceThickness_,
    excludedThickness_, fBulk_ with hasFBulk_, normalVecCurrent_. *)
Record maskGen := mkMaskGen {
  mNv : Z; mIT : R; mET : R; mFBulk : option R; mCur : nat -> R
}.
(** FilmFieldGenMaskBase.tpp 25-37: constructor. *)
Definition newMaskGen : maskGen := mkMaskGen (-1) (-1) (-1) None (fun _ => 0).

(** FilmFieldGenMaskBase.tpp 60-69 and FilmFieldGenExtBase.tpp 63-72: the tests
    on the parameters. *)
Definition checkFilm (D : nat) (nv : Z) (it et : R) : outcome unit :=
  if ((Z.of_nat D <? nv) || (nv <? 0))%Z then Throw
  else if gtb it et then Throw
  else if geb 0 et || geb 0 it then Throw
  else Ok tt.

(** FilmFieldGenMaskBase.tpp 49-70: readParameters. *)
Definition maskRead (D : nat) (s : list entry) (g : maskGen) : outcome (maskGen * list entry) :=
  a <- rdInt "normalVecId" s ;; let '(nv, s) := a in
  b <- rdReal "interfaceThickness" s ;; let '(it, s) := b in
  c <- rdReal "excludedThickness" s ;; let '(et, s) := c in
  let '(fb, s) := rdOptional "fBulk" s in
  checkFilm D nv it et ;;
  Ok (mkMaskGen nv it et (match fb with Some _ => fb | None => mFBulk g end) (mCur g), s).

(** FilmFieldGenMaskBase.tpp 76-97: needsUpdate. *)
Definition maskNeeds (w : fsys) (g : maskGen) : outcome bool :=
  check (0 <=? mNv g)%Z ;;
  if realVecEq (fD w) (mCur g) (fun _ => 0) then Ok true
  else v <- latticeVector w (mNv g) ;; Ok (negb (realVecEq (fD w) (mCur g) v)).

(** FilmFieldGenMaskBase.tpp 121-152: the loop of checkSpaceGroup; an index
    normalVecId outside [0,D) is undefined.  FilmFieldGenExtBase.tpp 139-157:
    the loop of checkCompatibility, which does not allow r = -1. *)
Definition symmetryAllowed (neg : bool) (D n : nat) (s : symm) : bool :=
  forallb (fun j => let r := Rm s n j in
             if Nat.eqb j n then ((r =? 1) || (neg && (r =? -1)))%Z else (r =? 0)%Z) (seq 0 D)
  && (if Qc_eq_dec (tr s n) 0%Qc then true else false).
Fixpoint checkGroup (neg : bool) (D : nat) (nv : Z) (g : list symm) : outcome unit :=
  match g with
  | [] => Ok tt
  | s :: t =>
      if ((0 <=? nv) && (nv <? Z.of_nat D))%Z
      then check (symmetryAllowed neg D (Z.to_nat nv) s) ;; checkGroup neg D nv t
      else UB
  end.

(** FilmFieldGenMaskBase.cpp 26-76: checkLatticeVectors for D = 1, 2, 3. *)
Definition checkLatticeVectors (l : lattice) (p : nat -> R) (nv : Z) : outcome unit :=
  let v := rBasis l p in
  match dim l with
  | 1%nat => Ok tt
  | 2%nat => if gtb (dot 2 (v 0%nat) (v 1%nat)) eps8 then Throw else Ok tt
  | _ =>
      let gamma := dot 3 (v 0%nat) (v 1%nat) in
      let beta := dot 3 (v 0%nat) (v 2%nat) in
      let alpha := dot 3 (v 1%nat) (v 2%nat) in
      if (nv =? 0)%Z then (if gtb beta eps8 || gtb gamma eps8 then Throw else Ok tt)
      else if (nv =? 1)%Z then (if gtb alpha eps8 || gtb gamma eps8 then Throw else Ok tt)
      else (if gtb alpha eps8 || gtb beta eps8 then Throw else Ok tt)
  end.

(** Assignment to element i of an FSArray; another index is undefined. *)
Definition setBool (f : list bool) (i : Z) (b : bool) : outcome (list bool) :=
  if ((0 <=? i) && (i <? Z.of_nat (List.length f)))%Z then Ok (update f (Z.to_nat i) b) else UB.
Definition getBool (f : list bool) (i : Z) : outcome bool :=
  if ((0 <=? i) && (i <? Z.of_nat (List.length f)))%Z then Ok (nth (Z.to_nat i) f false) else UB.

(** FilmFieldGenMaskBase.cpp 84-104, 110-157, 163-234: modifyFlexibleParams for
    D = 1, 2, 3. *)
Definition modifyFlexible (l : lattice) (nv : Z) (hasFB : bool) (cur : list bool) : outcome (list bool) :=
  check (Nat.eqb (List.length cur) (nParam l)) ;;
  match dim l with
  | 1%nat => if hasFB then Ok cur else setBool cur 0 false
  | 2%nat =>
      u <- match l with Rhombic => setBool cur 1 false | Oblique => setBool cur 2 false | _ => Ok cur end ;;
      if hasFB then Ok u else r <- fullToReduced l nv ;; setBool u r false
  | _ =>
      u <- match l with
           | Rhombohedral => Throw
           | Monoclinic => if (nv =? 1)%Z then Ok cur else setBool cur 3 false
           | Triclinic =>
               u <- setBool cur 3 false ;; u <- setBool u 4 false ;; u <- setBool u 5 false ;;
               b <- getBool cur (nv + 3) ;; setBool u (nv + 3) b
           | _ => Ok cur
           end ;;
      if hasFB then Ok u else r <- fullToReduced l nv ;; setBool u r false
  end.

(** FilmFieldGenMask.tpp 273-284: setFlexibleParams, with rpc
    Iterator.tpp 68-77. *)
Definition setFlexible (w : fsys) (g : maskGen) : outcome fsys :=
  if fIsFlex w
  then u <- modifyFlexible (fLat w) (mNv g) (match mFBulk g with Some _ => true | None => false end) (fFlex w) ;;
       Ok (withFlex u w)
  else Ok w.

(** FilmFieldGenMaskBase.tpp 102-116: checkCompatibility. *)
Definition maskCheck (w : fsys) (g : maskGen) : outcome fsys :=
  w <- setFlexible w g ;;
  checkGroup true (fD w) (mNv g) (fGroup w) ;;
  checkLatticeVectors (fLat w) (fP w) (mNv g) ;;
  Ok w.

(** FilmFieldGenMask.tpp 224-233 and FilmFieldGenExt.tpp 180-189: the array dim. *)
Definition dim3 (w : fsys) (i : nat) : nat := if (i <? fD w)%nat then fDims w i else 1%nat.

(** FilmFieldGenMask.tpp 243-260, FilmFieldGenExt.tpp 207-224: the grid points in
    the order in which the three nested loops visit them, and coords[i]. *)
Definition points (d : nat -> nat) : list (nat * nat * nat) :=
  flat_map (fun x => flat_map (fun y => map (fun z => (x, y, z)) (seq 0 (d 2%nat))) (seq 0 (d 1%nat))) (seq 0 (d 0%nat)).
Definition coord (c : nat * nat * nat) (i : nat) : nat :=
  let '(x, y, z) := c in match i with 0 => x | 1 => y | _ => z end%nat.

(** FilmFieldGenMask.tpp 255-257: 1 - rhoW at distance d along the normal. *)
Definition maskValue (L it et d : R) : R :=
  1 - 1 / 2 * (1 + tanh (4 * ((1 / 2 * (et - L) + Rabs (d - L / 2)) / it))).

(** L = unitCell().parameter(convertFullParamIdToReduced<D>(normalVecId, lattice)). *)
Definition normalLength (w : fsys) (nv : Z) : outcome R :=
  id <- fullToReduced (fLat w) nv ;;
  if (0 <=? id)%Z then Ok (fP w (Z.to_nat id)) else UB.

(** Element nv of the three-element arrays coords and dim. *)
Definition index3 (nv : Z) : outcome nat :=
  if ((0 <=? nv) && (nv <? 3))%Z then Ok (Z.to_nat nv) else UB.

(** FilmFieldGenMask.tpp 208-268: compute. *)
Definition maskCompute (w : fsys) (g : maskGen) : outcome (maskGen * fsys) :=
  check (gtb (mIT g) 0) ;;
  check (gtb (mET g) (mIT g)) ;;
  check (0 <=? mNv g)%Z ;;
  check (negb (fSym w) || fBasis w) ;;
  L <- normalLength w (mNv g) ;;
  n <- index3 (mNv g) ;;
  let m := map (fun c => maskValue L (mIT g) (mET g) (INR (coord c n) * L / INR (dim3 w n))) (points (dim3 w)) in
  v <- latticeVector w (mNv g) ;;
  Ok (mkMaskGen (mNv g) (mIT g) (mET g) (mFBulk g) v, withMask (Some m) w).

(* ---------- the generator of external fields ---------- *)
(** FilmFieldGenExtBase.h: normalVecId_, interfaceThickness_,
    excludedThickness_, chiBottom_, chiTop_, chiBottomCurrent_ and
    chiTopCurrent_ (None while not allocated), normalVecCurrent_. *)
Record extGen := mkExtGen {
  xNv : Z; xIT : R; xET : R; xB : list R; xT : list R;
  xCur : option (list R * list R); xNvCur : nat -> R
}.
(** FilmFieldGenExtBase.tpp 25-34: constructor. *)
Definition newExtGen : extGen := mkExtGen (-1) (-1) (-1) [] [] None (fun _ => 0).

(** FilmFieldGenExtBase.tpp 46-82: readParameters. *)
Definition extRead (D nMon : nat) (s : list entry) (g : extGen) : outcome (extGen * list entry) :=
  a <- rdInt "normalVecId" s ;; let '(nv, s) := a in
  b <- rdReal "interfaceThickness" s ;; let '(it, s) := b in
  c <- rdReal "excludedThickness" s ;; let '(et, s) := c in
  let '(_, s) := rdOptional "fBulk" s in
  checkFilm D nv it et ;;
  a <- rdArr "chiBottom" nMon s ;; let '(cb, s) := a in
  b <- rdArr "chiTop" nMon s ;; let '(ct, s) := b in
  Ok (mkExtGen nv it et cb ct (xCur g) (xNvCur g), s).

Definition eps7 : R := / 10000000.

(** FilmFieldGenExtBase.tpp 164-179: hasSymmetricWalls; 185-200: isAthermal. *)
Definition wallChecks (nm : nat) (g : extGen) : outcome unit :=
  check (negb (Nat.eqb nm 0)) ;; check (Nat.eqb (List.length (xB g)) nm) ;; check (Nat.eqb (List.length (xT g)) nm).
Definition hasSymmetricWalls (nm : nat) (g : extGen) : outcome bool :=
  wallChecks nm g ;;
  Ok (forallb (fun i => negb (gtb (Rabs (nth i (xB g) 0 - nth i (xT g) 0)) eps7)) (seq 0 nm)).
Definition isAthermal (nm : nat) (g : extGen) : outcome bool :=
  wallChecks nm g ;;
  Ok (forallb (fun i => negb (geb (Rabs (nth i (xB g) 0)) eps7 || geb (Rabs (nth i (xT g) 0)) eps7)) (seq 0 nm)).

(** Arrays compared element by element with !=. *)
Definition reqb (a b : R) : bool := if Req_EM_T a b then true else false.
Definition sameArrays (n : nat) (a b : list R) : bool :=
  forallb (fun i => reqb (nth i a 0) (nth i b 0)) (seq 0 n).

(** FilmFieldGenExtBase.tpp 87-116: needsUpdate. *)
Definition extNeeds (w : fsys) (g : extGen) : outcome bool :=
  check (0 <=? xNv g)%Z ;;
  match xCur g with
  | None => Ok true
  | Some (cb, ct) =>
      if negb (sameArrays (List.length (xB g)) (xB g) cb && sameArrays (List.length (xB g)) (xT g) ct) then Ok true
      else a <- isAthermal (fNMon w) g ;;
           if (a : bool) then Ok false
           else v <- latticeVector w (xNv g) ;; Ok (negb (realVecEq (fD w) (xNvCur g) v))
  end.

(** FilmFieldGenExtBase.tpp 121-158: checkCompatibility. *)
Definition extCheck (w : fsys) (g : extGen) : outcome fsys :=
  s <- hasSymmetricWalls (fNMon w) g ;;
  (if (s : bool) then Ok tt else checkGroup false (fD w) (xNv g) (fGroup w)) ;;
  Ok w.

(** FilmFieldGenExt.tpp 216-221: the value of an external field; the test
    coords[normalVecId] < dim[normalVecId]/2 uses integer division. *)
Definition hValue (d c : nat) (cb ct rho : R) : R :=
  if (c <? d / 2)%nat then (1 - rho) * cb else (1 - rho) * ct.

(** FilmFieldGenExt.tpp 155-230: compute.  counter runs over the mask field in
    the order of the loops: nth k of the mask belongs to the k-th grid point. *)
Definition extCompute (w : fsys) (g : extGen) : outcome (extGen * fsys) :=
  v <- latticeVector w (xNv g) ;;
  let g' := mkExtGen (xNv g) (xIT g) (xET g) (xB g) (xT g) (Some (xB g, xT g)) v in
  a <- isAthermal (fNMon w) g ;;
  if (a : bool) then Ok (g', withH None w) else
  check (0 <=? xNv g)%Z ;;
  match fMask w with
  | None => Throw
  | Some m =>
      check (negb (fSym w) || fBasis w) ;;
      n <- index3 (xNv g) ;;
      let h := fun i : nat =>
        map (fun cr => hValue (dim3 w n) (coord (fst cr) n) (nth i (xB g) 0) (nth i (xT g) 0) (snd cr))
            (combine (points (dim3 w)) m) in
      Ok (g', withH (Some (map h (seq 0 (fNMon w)))) w)
  end.

(** FilmFieldGenExtBase.tpp 218-232: setParameter; 237-252: getParameter.
    An index outside the arrays is undefined. *)
Local Open Scope string_scope.
Definition extSet (name : string) (ids : list nat) (v : R) (g : extGen) : outcome (option extGen) :=
  if String.eqb name "chi_top" then
    match ids with
    | i :: _ => if (i <? List.length (xT g))%nat
                then Ok (Some (mkExtGen (xNv g) (xIT g) (xET g) (xB g) (update (xT g) i v) (xCur g) (xNvCur g))) else UB
    | [] => UB
    end
  else if String.eqb name "chi_bottom" then
    match ids with
    | i :: _ => if (i <? List.length (xB g))%nat
                then Ok (Some (mkExtGen (xNv g) (xIT g) (xET g) (update (xB g) i v) (xT g) (xCur g) (xNvCur g))) else UB
    | [] => UB
    end
  else Ok None.
Definition extGet (name : string) (ids : list nat) (g : extGen) : outcome (option R) :=
  if String.eqb name "chi_top" then
    match ids with i :: _ => match nth_error (xT g) i with Some v => Ok (Some v) | None => UB end | [] => UB end
  else if String.eqb name "chi_bottom" then
    match ids with i :: _ => match nth_error (xB g) i with Some v => Ok (Some v) | None => UB end | [] => UB end
  else Ok None.

(* ---------- stress contributions ---------- *)
Local Open Scope R_scope.
(** FilmFieldGenMask.tpp 117-119 and FilmFieldGenExt.tpp 115-117: the derivative
    of the mask; d is the reduced coordinate. *)
Definition maskDeriv (it d rho : R) : R := rho * (rho - 1) * 8 * (Rabs (d - 1 / 2) - 1 / 2) / it.
(** FilmFieldGenExt.tpp 132-136: the derivative of an external field. *)
Definition hDeriv (d c : nat) (cb ct rhoD : R) : R :=
  if (c <? d / 2)%nat then - (1) * rhoD * cb else - (1) * rhoD * ct.
(** FilmFieldGenMask.tpp 173-203: modifyStress, given fHelmholtz. *)
Definition maskModify (w : fsys) (fSys : R) (g : maskGen) (i : nat) (s : R) : outcome R :=
  id <- fullToReduced (fLat w) (mNv g) ;;
  if (id =? Z.of_nat i)%Z then
    match fMask w, mFBulk g with
    | None, _ => Throw
    | _, None => Throw
    | Some _, Some fb => Ok (s * (fP w i - mET g) + (fSys - fb))
    end
  else Ok s.

(* ---------- the film environment ---------- *)
(** FilmFieldGenMask as a generator; its stress, which needs the solution of the
    field equations, is a parameter, as is fHelmholtz. *)
Definition filmMask (st : fsys -> maskGen -> nat -> outcome R) (fSys : fsys -> R)
  : generator (list entry) fsys maskGen :=
  mkGenerator _ _ _ Mask false newMaskGen (fun w s g => maskRead (fD w) s g)
    maskNeeds maskCheck maskCompute [] (fun _ _ _ _ => Ok None) (fun _ _ _ => Ok None)
    st (fun w g i s => maskModify w (fSys w) g i s).
(** FilmFieldGenExt as a generator; FilmFieldGenExtBase.tpp 206-214. *)
Definition filmExt (st : fsys -> extGen -> nat -> outcome R)
  : generator (list entry) fsys extGen :=
  mkGenerator _ _ _ External true newExtGen (fun w s g => extRead (fD w) (fNMon w) s g)
    extNeeds extCheck extCompute [("chi_top"%string, 1%nat); ("chi_bottom"%string, 1%nat)]
    extSet extGet st (fun _ _ _ s => Ok s).
