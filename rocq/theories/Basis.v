(** The symmetry-adapted basis: prdc/crystal/Basis.h, Basis.tpp (data and isValid) and its
    use in prdc/field/fieldIoUtil.tpp (basis format files, conversions from and to
    k-grid format, symmetry test).

    Simplifications: reals for doubles, std::complex<double> is the complex numbers;
    ksq of the unit cell and shiftToMinimum (with the mesh dimensions and unit cell of
    the basis) are arbitrary functions [ksqOf] and [smin], each modelled elsewhere
    (UnitCell.v, ShiftMin.v); log output is left out. *)
From Coq Require Import String ZArith Reals List Bool.
From Coquelicot Require Import Complex.
From Verif Require Import Base Mesh FieldIo.
From Coq Require Import List.
Import ListNotations.
Local Open Scope Z_scope.
Local Open Scope list_scope.

(** Basis.h 390-470: class Wave *)
Record wave := mkWave {
  wCoeff : C; wDft : list Z; wBz : list Z; wStar : Z; wInv : Z; wImplicit : bool; wSq : R }.
(** Basis.h 480-640: class Star *)
Record star := mkStar {
  sSize : Z; sBegin : Z; sEnd : Z; sStar : Z; sBasis : Z; sFlag : Z; sBz : list Z; sCancel : bool }.
(** Basis.h 790-850: member data; bMesh is *meshPtr_ *)
Record basis := mkBasis {
  bMesh : mesh; bWaves : list wave; bStars : list star; bWaveIds : list Z; bStarIds : list Z;
  bNWave : Z; bNBasisWave : Z; bNStar : Z; bNBasis : Z; bInit : bool }.

(** IntVec.h 118-128, 194-209: operators == and <; IntVec::negate *)
Fixpoint vLt (a b : list Z) : bool :=
  match a, b with
  | x :: a', y :: b' => if x >? y then false else if x <? y then true else vLt a' b'
  | _, _ => false
  end.
Definition vNeg (a : list Z) : list Z := map Z.opp a.
(** Mesh::shift(IntVec&): the shifted vector (Mesh.tpp, modelled in Mesh.v) *)
Definition mShift (m : mesh) (v : list Z) : list Z := fst (shift (dimensions m) v).
(** Basis.h 889-895: waveId *)
Definition waveId (b : basis) (v : list Z) : outcome Z := at1 (bWaveIds b) (rank (bMesh b) (mShift (bMesh b) v)).

(** for (i = lo; i < hi; ++i) *)
Definition range (lo hi : Z) : list Z := map (fun i => lo + Z.of_nat i) (seq 0 (Z.to_nat (hi - lo))).
(** A loop with a test: false as soon as the test of one index fails *)
Fixpoint loopB {A} (f : A -> outcome bool) (l : list A) : outcome bool :=
  match l with
  | [] => Ok true
  | i :: r => b <- f i ;; if b then loopB f r else Ok false
  end.
(** if (a > b) { return false; } for doubles *)
Definition leb (a b : R) : bool := if Rlt_dec b a then false else true.
Notation "'test' b ;; f" := (if b then f else Ok false) (at level 61, b at next level, right associativity).

Section WithCell.
Variable ksqOf : list Z -> R.
Variable smin : list Z -> list Z.

(** Basis.tpp 1009-1024: every mesh point is found through waveIds_ *)
Definition validIds (b : basis) : outcome bool :=
  v <- it_visit (Z.to_nat (size (bMesh b))) (dimensions (bMesh b)) ;;
  loopB (fun p => iw <- waveId b p ;; w <- at1 (bWaves b) iw ;; Ok (eqbL (wDft w) p)) (map snd v).
(** Basis.tpp 1027-1101: consistency of each wave *)
Definition validWave (b : basis) (iw : Z) : outcome bool :=
  w <- at1 (bWaves b) iw ;;
  test leb (Rabs (ksqOf (wBz w) - wSq w)) (1 / 10^8) ;;
  test eqbL (mShift (bMesh b) (wBz w)) (wDft w) ;;
  s <- at1 (bStars b) (wStar w) ;;
  test (sBegin s <=? iw) ;;
  test (iw <? sEnd s) ;;
  test (0 <=? wInv w) ;;
  w' <- at1 (bWaves b) (wInv w) ;;
  test eqbL (wDft w') (mShift (bMesh b) (vNeg (wBz w))) ;;
  test (wInv w' =? iw) ;;
  Ok (negb (wImplicit w && wImplicit w')).
(** Basis.tpp 1103-1224: consistency of each star *)
Definition validStarWaves (b : basis) (is : Z) (s : star) : outcome bool :=
  loopB (fun iw => w <- at1 (bWaves b) iw ;; Ok (wStar w =? is)) (range (sBegin s) (sEnd s)).
Definition validStarOrder (b : basis) (s : star) : outcome bool :=
  loopB (fun iw => w <- at1 (bWaves b) iw ;; w0 <- at1 (bWaves b) (iw - 1) ;;
    Ok (negb (vLt (wBz w0) (wBz w)) && negb (eqbL (wBz w) (wBz w0)))) (range (sBegin s + 1) (sEnd s)).
Definition validStarZero (b : basis) (s : star) : outcome bool :=
  loopB (fun iw => w <- at1 (bWaves b) iw ;; Ok (leb (Cmod (wCoeff w)) (1 / 10^8))) (range (sBegin s + 1) (sEnd s)).
Definition validStar (b : basis) (is : Z) : outcome bool :=
  s <- at1 (bStars b) is ;;
  test (sSize s =? sEnd s - sBegin s) ;;
  c <- (if 0 <? is then s0 <- at1 (bStars b) (is - 1) ;; Ok (sBegin s =? sEnd s0) else Ok true) ;;
  test c ;;
  c <- (if sFlag s =? -1
        then s0 <- at1 (bStars b) (is - 1) ;; Ok (eqbL (sBz s) (smin (vNeg (sBz s0))))
        else w <- at1 (bWaves b) (sBegin s) ;; Ok (eqbL (sBz s) (wBz w))) ;;
  test c ;;
  c <- validStarWaves b is s ;;
  test c ;;
  test (sStar s =? is) ;;
  c <- (if sCancel s then Ok (sBasis s =? -1) else i <- at1 (bStarIds b) (sBasis s) ;; Ok (i =? is)) ;;
  test c ;;
  c <- validStarOrder b s ;;
  test c ;;
  if sCancel s then validStarZero b s else Ok true.
Fixpoint sumSizes (l : list star) : Z := match l with [] => 0 | s :: r => sSize s + sumSizes r end.
(** Basis.tpp 1242-1284, 1319-1373: the waves of a closed star, of the first of two open
    stars: the inverse is in star [is'], coefficients are conjugate *)
Definition validInverse (b : basis) (is' : Z) (s : star) : outcome bool :=
  loopB (fun iw => w <- at1 (bWaves b) iw ;; w' <- at1 (bWaves b) (wInv w) ;;
    test (wStar w' =? is') ;;
    if sCancel s then Ok true else Ok (leb (Cmod (Cminus (Cconj (wCoeff w')) (wCoeff w))) (1 / 10^8)))
    (range (sBegin s) (sEnd s)).
(** Basis.tpp 1238-1380: closed stars and pairs of open stars *)
Fixpoint validPairs (fuel : nat) (b : basis) (is : Z) : outcome bool :=
  match fuel with
  | O => if is <? bNStar b then NoFuel else Ok true
  | S fuel' =>
    if is <? bNStar b then
      s <- at1 (bStars b) is ;;
      if sFlag s =? 0 then
        c <- validInverse b is s ;; test c ;; validPairs fuel' b (is + 1)
      else
        test (sFlag s =? 1) ;;
        s1 <- at1 (bStars b) (is + 1) ;;
        test (sFlag s1 =? -1) ;;
        test (sSize s1 =? sSize s) ;;
        test (Bool.eqb (sCancel s1) (sCancel s)) ;;
        c <- validInverse b (is + 1) s ;; test c ;; validPairs fuel' b (is + 2)
    else Ok true
  end.
(** Basis.tpp 1383-1400 *)
Definition validBasis (b : basis) (ib : Z) : outcome bool :=
  is <- at1 (bStarIds b) ib ;;
  s <- at1 (bStars b) is ;;
  test (negb (sCancel s)) ;;
  Ok (sBasis s =? ib).
(** Basis.tpp 1002-1405: isValid.  nStar_ is stars_.size(). *)
Definition isValid (b : basis) : outcome bool :=
  test (bNWave b =? size (bMesh b)) ;;
  c <- validIds b ;; test c ;;
  c <- loopB (validWave b) (range 0 (bNWave b)) ;; test c ;;
  c <- loopB (validStar b) (range 0 (bNStar b)) ;; test c ;;
  s <- at1 (bStars b) (bNStar b - 1) ;;
  test (sEnd s =? size (bMesh b)) ;;
  test (sumSizes (bStars b) =? size (bMesh b)) ;;
  c <- validPairs (Z.to_nat (bNStar b)) b 0 ;; test c ;;
  loopB (validBasis b) (range 0 (bNBasis b)).
End WithCell.

(** ** Conversions, fieldIoUtil.tpp 786-1124 *)
Definition sqrt2 : C := RtoC (sqrt 2).
(** A loop over waves: out[rank] = component*coeff for those that are not implicit
    (fieldIoUtil.tpp 834-844, 855-864, 871-880); dm is dftMesh *)
Fixpoint putWaves (b : basis) (dm : mesh) (component : C) (l : list Z) (out : list C) : outcome (list C) :=
  match l with
  | [] => Ok out
  | iw :: r =>
    w <- at1 (bWaves b) iw ;;
    out <- (if wImplicit w then Ok out else set1 out (rank dm (wDft w)) (Cmult component (wCoeff w))) ;;
    putWaves b dm component r out
  end.
(** The loop over stars, 815-894 *)
Fixpoint putStars (fuel : nat) (b : basis) (dm : mesh) (inp : list R) (is : Z) (out : list C) : outcome (list C) :=
  match fuel with
  | O => if is <? bNStar b then NoFuel else Ok out
  | S fuel' =>
    if is <? bNStar b then
      s <- at1 (bStars b) is ;;
      if sCancel s then putStars fuel' b dm inp (is + 1) out
      else
        let ib := sBasis s in
        if sFlag s =? 0 then
          x <- at1 inp ib ;;
          out <- putWaves b dm (x, 0%R) (range (sBegin s) (sEnd s)) out ;;
          putStars fuel' b dm inp (is + 1) out
        else if sFlag s =? 1 then
          x <- at1 inp ib ;;
          y <- at1 inp (ib + 1) ;;
          out <- putWaves b dm (Cdiv (x, (- y)%R) sqrt2) (range (sBegin s) (sEnd s)) out ;;
          s1 <- at1 (bStars b) (is + 1) ;;
          check (sFlag s1 =? -1) ;;
          out <- putWaves b dm (Cdiv (x, y) sqrt2) (range (sBegin s1) (sEnd s1)) out ;;
          putStars fuel' b dm inp (is + 2) out
        else Throw
    else Ok out
  end.
(** 786-897: convertBasisToKGrid; [out]: the array that is overwritten *)
Definition convertBasisToKGrid (inp : list R) (out : list C) (b : basis) (dftDim : list Z) : outcome (list C) :=
  check (bInit b) ;;
  dm <- setDimensions dftDim ;;
  if Z.of_nat (length out) <? size dm then UB else
  putStars (Z.to_nat (bNStar b)) b dm inp 0 (repeat (RtoC 0) (Z.to_nat (size dm)) ++ skipn (Z.to_nat (size dm)) out).

(** 955-970: search for a wave of a closed star that is not implicit *)
Fixpoint explicitWave (fuel : nat) (b : basis) (lo hi iw : Z) : outcome wave :=
  match fuel with
  | O => NoFuel
  | S fuel' =>
    w <- at1 (bWaves b) (lo + iw) ;;
    if negb (wImplicit w) then Ok w
    else
      check (lo + iw <? hi - 1 - iw) ;;
      w <- at1 (bWaves b) (hi - 1 - iw) ;;
      if negb (wImplicit w) then Ok w else explicitWave fuel' b lo hi (iw + 1)
  end.
(** The loop over stars, 938-1019 *)
Definition abs8 (z : C) : bool := if Rlt_dec (1 / 10^8) (Cmod z) then true else false.
Fixpoint getStars (fuel : nat) (b : basis) (dm : mesh) (inp : list C) (is : Z) (out : list R) : outcome (list R) :=
  match fuel with
  | O => if is <? bNStar b then NoFuel else Ok out
  | S fuel' =>
    if is <? bNStar b then
      s <- at1 (bStars b) is ;;
      if sCancel s then getStars fuel' b dm inp (is + 1) out
      else
        let ib := sBasis s in
        if sFlag s =? 0 then
          w <- explicitWave (S (Z.to_nat (sEnd s - sBegin s))) b (sBegin s) (sEnd s) 0 ;;
          check (wStar w =? is) ;;
          z <- at1 inp (rank dm (wDft w)) ;;
          out <- set1 out ib (fst (Cdiv z (wCoeff w))) ;;
          getStars fuel' b dm inp (is + 1) out
        else if sFlag s =? 1 then
          w <- at1 (bWaves b) (sBegin s) ;;
          check (wStar w =? is) ;;
          ws <- (if wImplicit w then
                   s1 <- at1 (bStars b) (is + 1) ;;
                   check (sFlag s1 =? -1) ;;
                   w1 <- at1 (bWaves b) (wInv w) ;;
                   check (negb (wImplicit w1)) ;;
                   check (wStar w1 =? is + 1) ;;
                   Ok (w1, sFlag s1)
                 else Ok (w, sFlag s)) ;;
          z <- at1 inp (rank dm (wDft (fst ws))) ;;
          check (abs8 (wCoeff (fst ws))) ;;
          let component := Cmult (Cdiv z (wCoeff (fst ws))) sqrt2 in
          out <- set1 out ib (fst component) ;;
          out <- set1 out (ib + 1) (if snd ws =? 1 then (- snd component)%R else snd component) ;;
          getStars fuel' b dm inp (is + 2) out
        else Throw
    else Ok out
  end.
(** 899-1021: convertKGridToBasis, without the symmetry test, which has no effect on
    the result; [out]: the array that is overwritten *)
Definition convertKGridToBasis (inp : list C) (out : list R) (b : basis) (dftDim : list Z) : outcome (list R) :=
  check (bInit b) ;;
  dm <- setDimensions dftDim ;;
  if Z.of_nat (length out) <? bNBasis b then UB else
  getStars (Z.to_nat (bNStar b)) b dm inp 0 (repeat 0%R (Z.to_nat (bNBasis b)) ++ skipn (Z.to_nat (bNBasis b)) out).

(** 1028-1124: hasSymmetry with verbose = true (with verbose = false it returns earlier
    with the same value).  The maximum error of the waves of a cancelled star: *)
Fixpoint cancelledError (b : basis) (dm : mesh) (inp : list C) (l : list Z) (e : R) : outcome R :=
  match l with
  | [] => Ok e
  | iw :: r =>
    w <- at1 (bWaves b) iw ;;
    e <- (if wImplicit w then Ok e else
            z <- at1 inp (rank dm (wDft w)) ;; Ok (if Rlt_dec e (Cmod z) then Cmod z else e)) ;;
    cancelledError b dm inp r e
  end.
(** ... of the waves of another star, compared with the first explicit one *)
Fixpoint uncancelledError (b : basis) (dm : mesh) (inp : list C) (l : list Z) (root : option C) (e : R) : outcome R :=
  match l with
  | [] => Ok e
  | iw :: r =>
    w <- at1 (bWaves b) iw ;;
    if wImplicit w then uncancelledError b dm inp r root e
    else
      z <- at1 inp (rank dm (wDft w)) ;;
      let q := Cdiv z (wCoeff w) in
      match root with
      | None => uncancelledError b dm inp r (Some q) e
      | Some q0 => uncancelledError b dm inp r root (if Rlt_dec e (Cmod (Cminus q q0)) then Cmod (Cminus q q0) else e)
      end
  end.
Fixpoint symmetryErrors (b : basis) (dm : mesh) (inp : list C) (l : list star) (ec eu : R) : outcome (R * R) :=
  match l with
  | [] => Ok (ec, eu)
  | s :: r =>
    if sCancel s then
      ec <- cancelledError b dm inp (range (sBegin s) (sEnd s)) ec ;; symmetryErrors b dm inp r ec eu
    else
      eu <- uncancelledError b dm inp (range (sBegin s) (sEnd s)) None eu ;; symmetryErrors b dm inp r ec eu
  end.
Definition ltb (a b : R) : bool := if Rlt_dec a b then true else false.
Definition hasSymmetry (inp : list C) (b : basis) (dftDim : list Z) (epsilon : R) : outcome bool :=
  check (bInit b) ;;
  dm <- setDimensions dftDim ;;
  e <- symmetryErrors b dm inp (bStars b) 0 0 ;;
  Ok (ltb (fst e) epsilon && ltb (snd e) epsilon).

(** ** Files in basis format *)
(** A line: nMonomer components, a wave, the number of waves (fieldIoUtil.tpp 506-511);
    D is the dimension *)
Definition rdLine (nMonomer D : nat) (s : stream) : outcome (list R * list Z * Z * stream) :=
  t <- rdN rdD nMonomer s ;;
  v <- rdN rdI D (snd t) ;;
  n <- rdI (snd v) ;;
  check (good (snd n)) ;;
  Ok (fst t, fst v, fst n, snd n).
(** fields[j][id] = temp[j] for all j *)
Fixpoint putAll (fields : list (list R)) (id : Z) (temp : list R) : outcome (list (list R)) :=
  match fields, temp with
  | [], _ => Ok []
  | f :: fs, x :: t => f' <- set1 f id x ;; r <- putAll fs id t ;; Ok (f' :: r)
  | _ :: _, [] => UB
  end.
Section Read.
Variable smin : list Z -> list Z.
Variable b : basis.
(** 531-537, 588-594: the wave and its star *)
Definition findStar (v : list Z) : outcome (Z * Z * star) :=
  i <- waveId b (mShift (bMesh b) v) ;;
  w <- at1 (bWaves b) i ;;
  s <- at1 (bStars b) (wStar w) ;;
  Ok (i, wStar w, s).
(** 566-672: the second line of a pair of open stars.  The checks
    UTIL_CHECK(starId2 = starId + 1) and UTIL_CHECK(basisId2 = basisId + 1), lines
    605-606, are assignments: they fail only if the assigned value is 0. *)
Definition readPair (waveId starId basisId : Z) (s : star) (temp : list R) (v : list Z) (n : Z)
    (fields : list (list R)) (line : list R * list Z * Z * stream) : outcome (list (list R) * stream) :=
  let '(temp2, v2, n2, st) := line in
  check (eqbL v2 (smin v2)) ;;
  f <- findStar v2 ;;
  let '(waveId2, starId2, s2) := f in
  check (negb (sCancel s2)) ;;
  let basisId2 := sBasis s2 in
  check (sSize s2 =? n2) ;;
  check (n =? n2) ;;
  if sFlag s =? 1 then
    check (sFlag s2 =? -1) ;;
    let starId2 := starId + 1 in
    check (negb (starId2 =? 0)) ;;
    let basisId2 := basisId + 1 in
    check (negb (basisId2 =? 0)) ;;
    check (eqbL (sBz s) v) ;;
    check (eqbL (sBz s2) v2) ;;
    fields <- putAll fields basisId temp ;;
    fields <- putAll fields basisId2 temp2 ;;
    Ok (fields, st)
  else if sFlag s =? -1 then
    check (sFlag s2 =? 1) ;;
    check (starId =? starId2 + 1) ;;
    check (basisId =? basisId2 + 1) ;;
    check (waveId =? sBegin s) ;;
    check (eqbL v2 (smin (vNeg v))) ;;
    w2 <- at1 (bWaves b) waveId2 ;;
    let phasor := Cdiv (wCoeff w2) (RtoC (Cmod (wCoeff w2))) in
    let cs := map (fun xy => Cmult (fst xy, (- snd xy)%R) phasor) (combine temp temp2) in
    fields <- putAll fields basisId2 (map fst cs) ;;
    fields <- putAll fields basisId (map snd cs) ;;
    Ok (fields, st)
  else Throw.
(** 502-676: the loop over lines; k lines are left *)
Fixpoint readStars (fuel : nat) (D : nat) (k : Z) (fields : list (list R)) (st : stream) : outcome (list (list R) * stream) :=
  match fuel with
  | O => if 0 <? k then NoFuel else Ok (fields, st)
  | S fuel' =>
    if 0 <? k then
      l <- rdLine (length fields) D st ;;
      let '(temp, v, n, st) := l in
      if eqbL v (smin v) then
        f <- findStar v ;;
        let '(waveId, starId, s) := f in
        check (negb (sCancel s)) ;;
        if sSize s =? n then
          if sFlag s =? 0 then
            if eqbL (sBz s) v then
              fields <- putAll fields (sBasis s) temp ;; readStars fuel' D (k - 1) fields st
            else readStars fuel' D (k - 1) fields st
          else
            l2 <- rdLine (length fields) D st ;;
            q <- readPair waveId starId (sBasis s) s temp v n fields l2 ;;
            readStars fuel' D (k - 2) (fst q) (snd q)
        else readStars fuel' D (k - 1) fields st
      else readStars fuel' D (k - 1) fields st
    else Ok (fields, st)
  end.
(** 454-684: readBasisData *)
Definition readBasisData (fields : list (list R)) (nBasisIn : Z) (st : stream) : outcome (list (list R) * stream) :=
  check (bInit b) ;;
  match fields with
  | [] => Throw
  | f0 :: _ =>
    let capacity := Z.of_nat (length f0) in
    check (0 <? capacity) ;;
    check (forallb (fun f => (length f =? length f0)%nat) fields) ;;
    let nBasis := if capacity <? nBasisIn then capacity else nBasisIn in
    readStars (Z.to_nat nBasis) (length (dimensions (bMesh b))) nBasis (map (fun f => repeat 0%R (length f)) fields) st
  end.
End Read.
(** 711-741: writeBasisData.  The loop over stars; ib is the counter of basis functions *)
Fixpoint writeStars (rnd : nat -> R -> R) (fields : list (list R)) (capacity ib : Z) (l : list star) : outcome (list token) :=
  match l with
  | [] => Ok []
  | s :: r =>
    if capacity <=? ib then Ok []
    else if sCancel s then writeStars rnd fields capacity ib r
    else
      xs <- mapM (fun f => x <- at1 f ib ;; Ok (TD (rnd 10%nat x))) fields ;;
      t <- writeStars rnd fields capacity (ib + 1) r ;;
      Ok (xs ++ map TI (sBz s) ++ [TI (sSize s)] ++ t)
  end.
Definition writeBasisData (rnd : nat -> R -> R) (fields : list (list R)) (b : basis) : outcome (list token) :=
  match fields with
  | [] => Throw
  | f0 :: _ =>
    check (forallb (fun f => (length f =? length f0)%nat) fields) ;;
    check (bInit b) ;;
    writeStars rnd fields (Z.of_nat (length f0)) 0 (bStars b)
  end.
