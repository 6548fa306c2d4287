(** Field files: prdc/field/fieldIoUtil.tpp, prdc/crystal/unitCellHeader.h,
    prdc/field/FieldIoTmpl.tpp (header functions) and rpc/field/FieldIo.tpp.

    A file is a list of tokens separated by blanks or line ends.  Simplifications:
    reals for doubles; a number written with p decimals is [rnd p x], an arbitrary
    function; a number that is not finite is [None] and is written as a word; a
    failed extraction throws at once (in the code it throws at the next label
    comparison, value check or in.good() check); effects on the arguments of a
    function that throws are not modelled; a group name is one word. *)
From Coq Require Import String ZArith Reals List Bool.
From Verif Require Import Base Mesh UnitCell.
Import ListNotations.
Local Open Scope string_scope.
Local Open Scope Z_scope.
Local Open Scope list_scope.

Inductive token := TW (s : string) | TI (n : Z) | TD (x : R).
(** What is left of an input stream; sSpace: a blank or line end follows the last token. *)
Record stream := mkS { sToks : list token; sSpace : bool }.
(** in.good() after an extraction: false if the last token ended at the end of file. *)
Definition good (s : stream) : bool := match sToks s with [] => sSpace s | _ => true end.

(** in >> std::string.  The text of a number is a word that is none of the labels;
    it is represented by "0". *)
Definition rdW (s : stream) : outcome (string * stream) :=
  match sToks s with
  | [] => Throw
  | TW w :: r => Ok (w, mkS r (sSpace s))
  | _ :: r => Ok ("0", mkS r (sSpace s))
  end.
(** in >> int.  From the text of a floating point number the leading digits would be
    taken and the rest left: not modelled, [UB]. *)
Definition rdI (s : stream) : outcome (Z * stream) :=
  match sToks s with
  | TI n :: r => Ok (n, mkS r (sSpace s))
  | TD _ :: _ => UB
  | _ => Throw
  end.
(** in >> double *)
Definition rdD (s : stream) : outcome (R * stream) :=
  match sToks s with
  | TD x :: r => Ok (x, mkS r (sSpace s))
  | TI n :: r => Ok (IZR n, mkS r (sSpace s))
  | _ => Throw
  end.
(** in >> label; UTIL_CHECK(label == w) *)
Definition expect (w : string) (s : stream) : outcome stream :=
  r <- rdW s ;; check (String.eqb (fst r) w) ;; Ok (snd r).

Fixpoint mapM {A B} (f : A -> outcome B) (l : list A) : outcome (list B) :=
  match l with
  | [] => Ok []
  | a :: r => b <- f a ;; bs <- mapM f r ;; Ok (b :: bs)
  end.
(** n extractions in a row *)
Fixpoint rdN {A} (rd : stream -> outcome (A * stream)) (n : nat) (s : stream) : outcome (list A * stream) :=
  match n with
  | O => Ok ([], s)
  | S n' => a <- rd s ;; r <- rdN rd n' (snd a) ;; Ok (fst a :: fst r, snd r)
  end.

(** Element access of an array: out of range is undefined. *)
Definition at1 {E} (f : list E) (r : Z) : outcome E :=
  if r <? 0 then UB else match nth_error f (Z.to_nat r) with Some x => Ok x | None => UB end.
Definition set1 {E} (f : list E) (r : Z) (x : E) : outcome (list E) :=
  if (0 <=? r) && (r <? Z.of_nat (length f)) then Ok (update f (Z.to_nat r) x) else UB.

Section Grid.
(** An element of a field, its tokens and how it is read. *)
Variable E : Type.
Variable enc : E -> list token.
Variable dec : stream -> outcome (E * stream).
(** The bodies of the loops over mesh points: fields[j][rank] for all j. *)
Definition writePoint (fields : list (list E)) (r : Z) : outcome (list token) :=
  l <- mapM (fun f => x <- at1 f r ;; Ok (enc x)) fields ;; Ok (concat l).
Fixpoint readPoint (r : Z) (fields : list (list E)) (s : stream) : outcome (list (list E) * stream) :=
  match fields with
  | [] => Ok ([], s)
  | f :: fs =>
    x <- dec s ;;
    f' <- set1 f r (fst x) ;;
    q <- readPoint r fs (snd x) ;;
    Ok (f' :: fst q, snd q)
  end.
Fixpoint readPoints (rs : list Z) (fields : list (list E)) (s : stream) : outcome (list (list E) * stream) :=
  match rs with
  | [] => Ok (fields, s)
  | r :: rs' => q <- readPoint r fields s ;; readPoints rs' (fst q) (snd q)
  end.
Definition writePoints (rs : list Z) (fields : list (list E)) : outcome (list token) :=
  l <- mapM (writePoint fields) rs ;; Ok (concat l).
(** The loops of readKGridData: each row starts with the rank, which is compared with
    the counter i (fieldIoUtil.tpp 347-360, 376-386). *)
Fixpoint readRows (i : Z) (rs : list Z) (fields : list (list E)) (s : stream) : outcome (list (list E) * stream) :=
  match rs with
  | [] => Ok (fields, s)
  | r :: rs' =>
    idum <- rdI s ;;
    check (i =? fst idum) ;;
    check (i =? r) ;;
    q <- readPoint r fields (snd idum) ;; readRows (i + 1) rs' (fst q) (snd q)
  end.
(** The loops of writeKGridData (404-421, 433-446). *)
Fixpoint writeRows (i : Z) (rs : list Z) (fields : list (list E)) : outcome (list token) :=
  match rs with
  | [] => Ok []
  | r :: rs' =>
    check (i =? r) ;;
    p <- writePoint fields r ;;
    q <- writeRows (i + 1) rs' fields ;;
    Ok (TI r :: p ++ q)
  end.
End Grid.
Arguments writePoint {E}. Arguments readPoint {E}. Arguments readPoints {E}.
Arguments writePoints {E}. Arguments readRows {E}. Arguments writeRows {E}.

(** An RField<D> or RFieldDft<D>: mesh dimensions and elements.  An array of fields is
    [None] before it is allocated; elements of a newly allocated field have the
    (indeterminate) value [junk]. *)
Notation meshField E := (list Z * list E)%type.

Section Format.
Variable rnd : nat -> R -> R.
(** Dbl(x, w, p) *)
Definition dbl (p : nat) (x : option R) : token :=
  match x with Some r => TD (rnd p r) | None => TW "nan" end.

(** Elements of r-grid fields: Dbl(x, 21, 13); of k-grid fields: two such numbers. *)
Definition encR (x : option R) : list token := [dbl 13 x].
Definition decR (s : stream) : outcome (option R * stream) :=
  x <- rdD s ;; Ok (Some (fst x), snd x).
Definition encK (x : option R * option R) : list token := [dbl 13 (fst x); dbl 13 (snd x)].
Definition decK (s : stream) : outcome ((option R * option R) * stream) :=
  x <- rdD s ;; y <- rdD (snd x) ;; Ok ((Some (fst x), Some (fst y)), snd y).

(** fieldIoUtil.tpp 298-317: writeRGridData.  [fuel] bounds the loop of the iterator. *)
Definition writeRGridData (fuel : nat) (fields : list (list (option R))) (nMonomer : nat) (dims : list Z) : outcome (list token) :=
  check (0 <? nMonomer)%nat ;;
  check (nMonomer =? length fields)%nat ;;
  v <- f_visit fuel dims ;;
  writePoints encR (map fst v) fields.
(** fieldIoUtil.tpp 319-331: for a single field *)
Definition writeRGridData1 (fuel : nat) (field : list (option R)) (dims : list Z) : outcome (list token) :=
  v <- f_visit fuel dims ;;
  l <- mapM (fun r => x <- at1 field r ;; Ok (dbl 13 x)) (map fst v) ;; Ok l.
(** fieldIoUtil.tpp 262-281: readRGridData; [fields] is the array before the call. *)
Definition readRGridData (fuel : nat) (fields : list (list (option R))) (nMonomer : nat) (dims : list Z) (s : stream) : outcome (list (list (option R)) * stream) :=
  check (0 <? nMonomer)%nat ;;
  check (length fields =? nMonomer)%nat ;;
  v <- f_visit fuel dims ;;
  q <- readPoints decR (map fst v) fields s ;;
  check (good (snd q)) ;;
  Ok q.
(** fieldIoUtil.tpp 283-296: for a single field *)
Fixpoint readField1 (rs : list Z) (field : list (option R)) (s : stream) : outcome (list (option R) * stream) :=
  match rs with
  | [] => Ok (field, s)
  | r :: rs' => x <- rdD s ;; f <- set1 field r (Some (fst x)) ;; readField1 rs' f (snd x)
  end.
Definition readRGridData1 (fuel : nat) (field : list (option R)) (dims : list Z) (s : stream) : outcome (list (option R) * stream) :=
  v <- f_visit fuel dims ;;
  q <- readField1 (map fst v) field s ;;
  check (good (snd q)) ;;
  Ok q.

(** fieldIoUtil.tpp 390-423: writeKGridData *)
Definition writeKGridData (fuel : nat) (fields : list (list (option R * option R))) (nMonomer : nat) (dims : list Z) : outcome (list token) :=
  check (0 <? nMonomer)%nat ;;
  check (nMonomer =? length fields)%nat ;;
  v <- it_visit fuel dims ;;
  writeRows encK 0 (map fst v) fields.
(** fieldIoUtil.tpp 335-362: readKGridData; the array has nMonomer elements
    (checkAllocateFields, rpc/field/FieldIo.tpp 168). *)
Definition readKGridData (fuel : nat) (fields : list (list (option R * option R))) (dims : list Z) (s : stream) : outcome (list (list (option R * option R)) * stream) :=
  v <- it_visit fuel dims ;;
  q <- readRows decK 0 (map fst v) fields s ;;
  check (good (snd q)) ;;
  Ok q.

(** fieldIoUtil.tpp 254-260 and 226-251: mesh dimensions *)
Definition writeMeshDimensions (dims : list Z) : list token := TW "mesh" :: map TI dims.
Fixpoint eqbL (a b : list Z) : bool :=
  match a, b with
  | [], [] => true
  | x :: a', y :: b' => (x =? y) && eqbL a' b'
  | _, _ => false
  end.
Definition readMeshDimensions (dims : list Z) (s : stream) : outcome stream :=
  w <- rdW s ;;
  check (String.eqb (fst w) "mesh" || String.eqb (fst w) "ngrid") ;;
  d <- rdN rdI (length dims) (snd w) ;;
  check (good (snd d)) ;;
  check (eqbL (fst d) dims) ;;
  Ok (snd d).

(** UnitCell1.cpp 128-140, UnitCell2.cpp 248-272, UnitCell3.cpp 427-457: operator <<;
    Null is printed as "Null". *)
Definition latName (l : lattice) : string :=
  match l with
  | Lamellar => "lamellar"
  | Square => "square" | Rectangular => "rectangular" | Rhombic => "rhombic"
  | Hexagonal2 => "hexagonal" | Oblique => "oblique"
  | Cubic => "cubic" | Tetragonal => "tetragonal" | Orthorhombic => "orthorhombic"
  | Monoclinic => "monoclinic" | Triclinic => "triclinic" | Rhombohedral => "rhombohedral"
  | Hexagonal3 => "hexagonal"
  end.
(** UnitCell1.cpp 111-123, UnitCell2.cpp 219-243, UnitCell3.cpp 392-422: operator >> *)
Definition latRead (D : nat) (w : string) : outcome lattice :=
  let is a b := String.eqb w a || String.eqb w b in
  match D with
  | 1%nat => if is "Lamellar" "lamellar" then Ok Lamellar else Throw
  | 2%nat =>
    if is "Square" "square" then Ok Square
    else if is "Rectangular" "rectangular" then Ok Rectangular
    else if is "Rhombic" "rhombic" then Ok Rhombic
    else if is "Hexagonal" "hexagonal" then Ok Hexagonal2
    else if is "Oblique" "oblique" then Ok Oblique
    else Throw
  | _ =>
    if is "Cubic" "cubic" then Ok Cubic
    else if is "Tetragonal" "tetragonal" then Ok Tetragonal
    else if is "Orthorhombic" "orthorhombic" then Ok Orthorhombic
    else if is "Monoclinic" "monoclinic" then Ok Monoclinic
    else if is "Triclinic" "triclinic" then Ok Triclinic
    else if is "Rhombohedral" "rhombohedral" then Ok Rhombohedral
    else if is "Hexagonal" "hexagonal" then Ok Hexagonal3
    else Throw
  end.

(** unitCellHeader.h 80-94: writeUnitCellHeader *)
Definition writeUnitCellHeader (c : ucell) : list token :=
  [TW "crystal_system"; TW (match uLat c with Some l => latName l | None => "Null" end);
   TW "N_cell_param"; TI (Z.of_nat (uN c)); TW "cell_param"] ++
  map (fun i => TD (rnd 10 (uP c i))) (seq 0 (uN c)).
(** unitCellHeader.h 50-78: readUnitCellHeader *)
Definition readUnitCellHeader (c : ucell) (s : stream) : outcome (ucell * stream) :=
  s <- expect "crystal_system" s ;;
  w <- rdW s ;;
  l <- latRead (uD c) (fst w) ;;
  c1 <- match uLat c with
        | None => Ok (mkUcell (uD c) (Some l) (nParam l) (uP c) false (uR c) (uK c) (uDr c) (uDk c) (uDrr c) (uDkk c))
        | Some l0 => check (lattice_eqb l l0) ;; Ok c
        end ;;
  s <- expect "N_cell_param" (snd w) ;;
  n <- rdI s ;;
  check (fst n =? Z.of_nat (uN c1)) ;;
  s <- expect "cell_param" (snd n) ;;
  ps <- rdN rdD (uN c1) s ;;
  c2 <- setLattice (withParams c1 (putParams (uN c1) (fst ps) (uP c1)) false) ;;
  Ok (c2, snd ps).

(** fieldIoUtil.tpp 186-220: writeFieldHeader *)
Definition writeFieldHeader (v1 v2 : Z) (c : ucell) (group : string) (nMonomer : Z) : outcome (list token) :=
  n <- (if nMonomer =? 0 then Ok [] else check (0 <? nMonomer) ;; Ok [TW "N_monomer"; TI nMonomer]) ;;
  Ok ([TW "format"; TI v1; TI v2; TW "dim"; TI (Z.of_nat (uD c))] ++ writeUnitCellHeader c ++
      (if String.eqb group "" then [] else [TW "group_name"; TW group]) ++ n).
(** fieldIoUtil.tpp 143-181: readFieldHeader *)
Record header := mkHead { hV1 : Z; hV2 : Z; hCell : ucell; hGroup : string; hN : Z }.
Definition readFieldHeader (c : ucell) (s : stream) : outcome (header * stream) :=
  s <- expect "format" s ;;
  v1 <- rdI s ;; v2 <- rdI (snd v1) ;;
  s <- expect "dim" (snd v2) ;;
  d <- rdI s ;;
  check (fst d =? Z.of_nat (uD c)) ;;
  cs <- readUnitCellHeader c (snd d) ;;
  w <- rdW (snd cs) ;;
  g <- (if String.eqb (fst w) "group_name" then
          g <- rdW (snd w) ;; w <- rdW (snd g) ;; Ok (fst g, fst w, snd w)
        else Ok ("", fst w, snd w)) ;;
  let '(group, label, s) := g in
  check (String.eqb label "N_monomer") ;;
  n <- rdI s ;;
  check (0 <? fst n) ;;
  Ok (mkHead (fst v1) (fst v2) (fst cs) group (fst n), snd n).

(** State of a FieldIo that its header functions use: lattice(), hasGroup() and
    groupName(), whether makeBasis succeeds if it is called. *)
Record fio := mkFio { ioLat : option lattice; ioGroup : option string; ioBasisOk : bool }.
(** FieldIoTmpl.tpp 1025-1031: preconditions *)
Definition ioPre (io : fio) (c : ucell) : outcome unit :=
  match uLat c with
  | None => check (uN c =? 0)%nat
  | Some l => check (0 <? uN c)%nat ;; check (match ioLat io with Some l' => lattice_eqb l l' | None => false end)
  end.
(** FieldIoTmpl.tpp 1018-1097: readFieldHeader; the results are nMonomer, unitCell
    and isSymmetric. *)
Definition ioReadHeader (io : fio) (c : ucell) (s : stream) : outcome ((Z * ucell * bool) * stream) :=
  ioPre io c ;;
  h <- readFieldHeader c s ;;
  let c' := hCell (fst h) in
  check (hV1 (fst h) =? 1) ;;
  check (uInit c') ;;
  check (match uLat c' with None => false | _ => true end) ;;
  check (0 <? uN c')%nat ;;
  check (match ioLat io, uLat c' with Some a, Some b => lattice_eqb a b | None, None => true | _, _ => false end) ;;
  let isSymmetric := negb (String.eqb (hGroup (fst h)) "") in
  match ioGroup io with
  | Some g => (if isSymmetric then check (String.eqb (hGroup (fst h)) g) else Ok tt) ;; check (ioBasisOk io)
  | None => Ok tt
  end ;;
  Ok ((hN (fst h), c', isSymmetric), snd h).
(** FieldIoTmpl.tpp 1102-1118: writeFieldHeader *)
Definition ioWriteHeader (io : fio) (nMonomer : Z) (c : ucell) (isSymmetric : bool) : outcome (list token) :=
  g <- (if isSymmetric then match ioGroup io with Some g => Ok g | None => Throw end else Ok "") ;;
  writeFieldHeader 1 0 c g nMonomer.

(** fieldIoUtil.tpp 55-73: checkAllocateFields; [cap]: number of elements for given
    dimensions. *)
Definition checkAllocateFields {E} (cap : list Z -> Z) (junk : E) (fields : option (list (meshField E))) (nMonomer : Z) (dims : list Z) : outcome (list (meshField E)) :=
  match fields with
  | Some fs =>
    check (0 <? length fs)%nat ;;
    check (Z.of_nat (length fs) =? nMonomer) ;;
    check (forallb (fun f => eqbL (fst f) dims) fs) ;;
    Ok fs
  | None => Ok (repeat (dims, repeat junk (Z.to_nat (cap dims))) (Z.to_nat nMonomer))
  end.
(** fieldIoUtil.tpp 79-92: inspectFields *)
Definition inspectFields {E} (fields : option (list (meshField E))) : outcome (Z * list Z) :=
  match fields with
  | None => Throw
  | Some fs =>
    check (0 <? length fs)%nat ;;
    let dims := fst (hd ([], []) fs) in
    check (forallb (fun f => eqbL (fst f) dims) fs) ;;
    Ok (Z.of_nat (length fs), dims)
  end.
Definition meshSize (dims : list Z) : Z := fold_left Z.mul dims 1.
(** dftDimensions of an RFieldDft: the last one is meshDimensions[D-1]/2 + 1
    (prdc/cpu/FFT.tpp 262-275, computeKMesh). *)
Fixpoint dftDims (dims : list Z) : list Z :=
  match dims with
  | [] => []
  | [d] => [Z.quot d 2 + 1]
  | d :: r => d :: dftDims r
  end.

(** rpc/field/FieldIo.tpp 100-126: writeFieldsRGrid *)
Definition writeFieldsRGrid (fuel : nat) (io : fio) (fields : option (list (meshField (option R)))) (c : ucell) (writeHeader isSymmetric writeMeshSize : bool) : outcome (list token) :=
  nd <- inspectFields fields ;;
  h <- (if writeHeader then ioWriteHeader io (fst nd) c isSymmetric else Ok []) ;;
  let m := if writeMeshSize then writeMeshDimensions (snd nd) else [] in
  d <- writeRGridData fuel (map snd (match fields with Some fs => fs | None => [] end)) (Z.to_nat (fst nd)) (snd nd) ;;
  Ok (h ++ m ++ d).
(** rpc/field/FieldIo.tpp 36-55: readFieldsRGrid, for the mesh of the FieldIo; the
    results are fields, unitCell and isSymmetric. *)
Definition readFieldsRGrid (fuel : nat) (io : fio) (dims : list Z) (junk : option R) (fields : option (list (meshField (option R)))) (c : ucell) (s : stream) : outcome (list (list (option R)) * ucell * bool * stream) :=
  h <- ioReadHeader io c s ;;
  let '(n, c', sym, s) := h in
  s <- readMeshDimensions dims s ;;
  fs <- checkAllocateFields meshSize junk fields n dims ;;
  q <- readRGridData fuel (map snd fs) (Z.to_nat n) dims s ;;
  Ok (fst q, c', sym, snd q).
(** rpc/field/FieldIo.tpp 180-202 and 156-175: k-grid files *)
Definition writeFieldsKGrid (fuel : nat) (io : fio) (fields : option (list (meshField (option R * option R)))) (c : ucell) (isSymmetric : bool) : outcome (list token) :=
  nd <- inspectFields fields ;;
  h <- ioWriteHeader io (fst nd) c isSymmetric ;;
  d <- writeKGridData fuel (map snd (match fields with Some fs => fs | None => [] end)) (Z.to_nat (fst nd)) (dftDims (snd nd)) ;;
  Ok (h ++ writeMeshDimensions (snd nd) ++ d).
Definition readFieldsKGrid (fuel : nat) (io : fio) (dims : list Z) (junk : option R * option R) (fields : option (list (meshField (option R * option R)))) (c : ucell) (s : stream) : outcome (list (list (option R * option R)) * ucell * stream) :=
  h <- ioReadHeader io c s ;;
  let '(n, c', sym, s) := h in
  s <- readMeshDimensions dims s ;;
  fs <- checkAllocateFields (fun d => meshSize (dftDims d)) junk fields n dims ;;
  q <- readKGridData fuel (map snd fs) (dftDims dims) s ;;
  Ok (fst q, c', snd q).

(** fieldIoUtil.tpp 1165-1182: the replicated fields; [junk]: an array before the
    assignments. *)
Fixpoint addScaled (p d c : list Z) : list Z :=
  match p, d, c with
  | a :: p', b :: d', e :: c' => (a + b * e) :: addScaled p' d' c'
  | _, _, _ => []
  end.
Fixpoint assignAll {E} (l : list (Z * E)) (f : list E) : outcome (list E) :=
  match l with
  | [] => Ok f
  | (r, x) :: l' => f' <- set1 f r x ;; assignAll l' f'
  end.
Definition replicateField {E} (fuel : nat) (field : list E) (dims reps : list Z) (repMesh : mesh) (junk : list E) : outcome (list E) :=
  v <- it_visit fuel dims ;;
  w <- it_visit fuel reps ;;
  a <- mapM (fun q => x <- at1 field (fst q) ;;
                      Ok (map (fun cq => (rank repMesh (addScaled (snd q) dims (snd cq)), x)) w)) v ;;
  assignAll (concat a) junk.
Fixpoint mulL (a b : list Z) : list Z :=
  match a, b with
  | x :: a', y :: b' => x * y :: mulL a' b'
  | _, _ => []
  end.
(** fieldIoUtil.tpp 1129-1198: replicateUnitCell; [cell0]: the local UnitCell object *)
Definition replicateFields (fuel : nat) (fields : list (list (option R))) (dims reps : list Z) (junk : option R) : outcome (list Z * list (list (option R))) :=
  check (0 <? length fields)%nat ;;
  check (forallb (fun r => 0 <? r) reps && forallb (fun d => 0 <? d) dims) ;;
  let repDims := mulL reps dims in
  m <- setDimensions dims ;;
  cm <- setDimensions reps ;;
  rm <- setDimensions repDims ;;
  g <- mapM (fun f => replicateField fuel f dims reps rm (repeat junk (Z.to_nat (meshSize repDims)))) fields ;;
  Ok (repDims, g).
Definition replicateFile (fuel : nat) (fields : list (list (option R))) (dims : list Z) (c : ucell) (reps : list Z) (junk : option R) (cell0 : ucell) : outcome (list token) :=
  g <- replicateFields fuel fields dims reps junk ;;
  cell <- replicateUnitCell (fun i => nth i reps 0) c cell0 ;;
  h <- writeFieldHeader 1 0 cell "" (Z.of_nat (length fields)) ;;
  d <- writeRGridData fuel (snd g) (length fields) (fst g) ;;
  Ok (h ++ writeMeshDimensions (fst g) ++ d).

(** fieldIoUtil.tpp 1310-1325, 1402-1415: nReplica copies of the data of the fields *)
Definition expandData (fuel : nat) (fields : list (list (option R))) (dims : list Z) (nReplica : Z) : outcome (list token) :=
  v <- f_visit fuel dims ;;
  d <- writePoints encR (map fst v) fields ;;
  Ok (concat (repeat d (Z.to_nat nReplica))).
(** fieldIoUtil.tpp 1212-1327 (D = 1), 1329-1416 (D = 2), 1418-1427 (D = 3).  The last
    loop uses the iterator even if there are no replicas. *)
Definition ratio (a b : Z) : R := (IZR a / IZR b)%R.
Definition expandCell1 (p0 : R) (dims : list Z) : lattice * list R :=
  match dims with
  | [n0; n1] => if n0 =? n1 then (Square, [p0]) else (Rectangular, [p0; (ratio n1 n0 * p0)%R])
  | n0 :: n1 :: n2 :: _ =>
    if n2 =? n1 then
      if n1 =? n0 then (Cubic, [p0])
      else (Orthorhombic, [p0; (ratio n1 n0 * p0)%R; (ratio n2 n0 * p0)%R])
    else
      if n1 =? n0 then (Tetragonal, [p0; (ratio n2 n0 * p0)%R])
      else (Orthorhombic, [p0; (ratio n1 n0 * p0)%R; (ratio n2 n0 * p0)%R])
  | _ => (Lamellar, [])
  end.
Definition expandCell2 (l : option lattice) (p : nat -> R) (n0 n2 : Z) : outcome (lattice * list R) :=
  let p0 := p 0%nat in let c := (ratio n2 n0 * p0)%R in
  match l with
  | Some Square => if n2 =? n0 then Ok (Cubic, [p0]) else Ok (Tetragonal, [p0; c])
  | Some Rectangular => Ok (Orthorhombic, [p0; p 1%nat; c])
  | Some Hexagonal2 => Ok (Hexagonal3, [p0; c])
  | Some Rhombic => Ok (Triclinic, [p0; p 0%nat; c; (PI / 2)%R; 0%R; p 1%nat])
  | Some Oblique => Ok (Triclinic, [p0; p 1%nat; c; (PI / 2)%R; 0%R; p 2%nat])
  | _ => Throw
  end.
(** [junk]: parameters_ of the new local UnitCell object *)
Definition expandFile (fuel : nat) (fields : list (list (option R))) (dims : list Z) (c : ucell) (d : Z) (new : list Z) (junk : nat -> R) : outcome (list token) :=
  match dims with
  | [n0] =>
    check (1 <? d) ;; check (d <=? 3) ;;
    check (Z.of_nat (length new) =? d - 1) ;;
    check (0 <? length fields)%nat ;;
    let lp := expandCell1 (uP c 0%nat) (n0 :: new) in
    cell <- setLatParams (newCell (Z.to_nat d) junk) (fst lp) (snd lp) ;;
    h <- writeFieldHeader 1 0 cell "" (Z.of_nat (length fields)) ;;
    b <- expandData fuel fields dims (fold_left Z.mul new 1) ;;
    Ok (h ++ writeMeshDimensions (n0 :: new) ++ b)
  | [n0; n1] =>
    check (d =? 3) ;;
    check (length new =? 1)%nat ;;
    check (0 <? length fields)%nat ;;
    let n2 := hd 0 new in
    lp <- expandCell2 (uLat c) (uP c) n0 n2 ;;
    cell <- setLatParams (newCell 3 junk) (fst lp) (snd lp) ;;
    h <- writeFieldHeader 1 0 cell "" (Z.of_nat (length fields)) ;;
    b <- expandData fuel fields dims n2 ;;
    Ok (h ++ writeMeshDimensions [n0; n1; n2] ++ b)
  | _ => Throw
  end.
End Format.
