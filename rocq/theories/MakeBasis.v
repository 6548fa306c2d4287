(** Construction of the symmetry-adapted basis: prdc/crystal/Basis.tpp, makeBasis,
    makeWaves and makeStars; prdc/crystal/TWave.h.

    Simplifications: reals for doubles; ksq of the unit cell and shiftToMinimum are
    arbitrary functions [ksqOf] and [smin], modelled in UnitCell.v and ShiftMin.v; std::sort
    by norm, which leaves the order of waves of equal norm open, is an arbitrary function
    [sortNorm]; log output is left out.  Phases are kept in turns: TWave::phase is 2 pi
    tPhase.  The blocks [listBegin, listEnd) of waves_ are processed one by one; each block is
    read and written only while it is processed, so that waves_ is a concatenation. *)
From Coq Require Import ZArith QArith Qcanon Qreals Reals List Bool.
From Coquelicot Require Import Complex.
From Verif Require Import Base RSum Mesh FieldIo Symmetry Basis.
From Coq Require Import List.
Import ListNotations.
Local Open Scope Z_scope.
Local Open Scope list_scope.

(** TWave.h 20-35 *)
Record twave := mkTw { tSq : R; tPhase : R; tDft : list Z; tBz : list Z }.
(** TWave.h 60-70, TWaveDftComp, and equivalence in a std::set with it *)
Definition dftEquiv (a b : twave) : bool := negb (vLt (tDft a) (tDft b)) && negb (vLt (tDft b) (tDft a)).
(** std::set<TWave, TWaveDftComp>: sorted list; insert, find, erase *)
Fixpoint setInsert (w : twave) (l : list twave) : list twave :=
  match l with
  | [] => [w]
  | x :: r => if vLt (tDft w) (tDft x) then w :: l else if vLt (tDft x) (tDft w) then x :: setInsert w r else l
  end.
Definition setFind (w : twave) (l : list twave) : option twave := find (dftEquiv w) l.
Definition setErase (w : twave) (l : list twave) : list twave := filter (fun x => negb (dftEquiv w x)) l.
(** std::sort with TWave.h 78-88, TWaveBzComp: descending order of indicesBz *)
Fixpoint bzInsert (w : twave) (l : list twave) : list twave :=
  match l with
  | [] => [w]
  | x :: r => if vLt (tBz x) (tBz w) then w :: l else x :: bzInsert w r
  end.
Definition sortBz (l : list twave) : list twave := fold_right bzInsert [] l.

(** Basis.tpp 437-442, 475-480: while (x > 0.5) x -= 1; while (x <= -0.5) x += 1; the value the
    loops compute (reduceLoop_ok in MakeBasisProofs.v) *)
Definition reduce (x : R) : R := (x + IZR (Int_part (1 / 2 - x)))%R.
Fixpoint reduceDown (fuel : nat) (x : R) : outcome R :=
  match fuel with O => NoFuel | S f => if Rlt_dec (1 / 2) x then reduceDown f (x - 1)%R else Ok x end.
Fixpoint reduceUp (fuel : nat) (x : R) : outcome R :=
  match fuel with O => NoFuel | S f => if Rle_dec x (- (1 / 2)) then reduceUp f (x + 1)%R else Ok x end.
Definition reduceLoop (fuel : nat) (x : R) : outcome R := y <- reduceDown fuel x ;; reduceUp fuel y.

Section Make.
Variable ksqOf : list Z -> R.
Variable smin : list Z -> list Z.
Variable sortNorm : list twave -> list twave.
Variable m : mesh.
Variable group : list symm.
Definition dim : nat := length (dimensions m).

(** Basis.tpp 118-150: makeWaves *)
Definition makeWaves : outcome (list twave) :=
  v <- it_visit (Z.to_nat (size m)) (dimensions m) ;;
  Ok (sortNorm (map (fun p => mkTw (ksqOf (smin p)) 0%R p (smin p)) (map snd v))).

(** Basis.tpp 361-378: blocks of waves of equal norm; [cur]: the current block, reversed *)
Fixpoint lists (gmax : R) (cur l : list twave) : list (list twave) :=
  match l with
  | [] => [rev cur]
  | w :: r => if Rlt_dec (gmax + 1 / 10^8) (tSq w) then rev cur :: lists (tSq w) [w] r else lists gmax (w :: cur) r
  end.
(** vec = rootVecBz*group[j], SpaceSymmetry.h 445-458 *)
Definition rotate (v : list Z) (s : symm) : list Z := mkVec dim (mulVS dim (fun i => nth i v 0) s).
(** 433-442 *)
Definition phaseOf (v : list Z) (s : symm) : R := reduce (rsum dim (fun k => IZR (nth k v 0%Z) * Q2R (this (tr s k)))%R).
(** 417-431: the rotated wave *)
Definition rotated (root : twave) (s : symm) : twave :=
  mkTw (tSq root) (phaseOf (tBz root) s) (mShift m (rotate (tBz root) s)) (smin (rotate (tBz root) s)).
(** std::abs(x) > 1.0E-6 *)
Definition big (x : R) : bool := if Rlt_dec (1 / 10^6) (Rabs x) then true else false.
(** 410-487: the star of a root wave and whether it is cancelled *)
Fixpoint starOf (root : twave) (g : list symm) (star : list twave) (cancel : bool) : outcome (list twave * bool) :=
  match g with
  | [] => Ok (star, cancel)
  | s :: r =>
    let w := rotated root s in
    check (if Rlt_dec (Rabs (tSq root - ksqOf (rotate (tBz root) s))) (1 / 10^8) then true else false) ;;
    let cancel := if eqbL (tDft w) (tDft root) && big (2 * PI * tPhase w) then true else cancel in
    match setFind w star with
    | None => starOf root r (setInsert w star) cancel
    | Some w0 => starOf root r star (if big (reduce (2 * PI * tPhase w0 - 2 * PI * tPhase w)) then true else cancel)
    end
  end.
(** 380-617: the loop over the stars of one block.  The state: remaining set, root of the
    next star (an iterator to an element of the set; None is end()), nextInvert, tempList,
    new stars (reversed), starBegin, nBasis_, nBasisWave_ *)
Record block := mkBlock { kList : list twave; kRoot : option twave; kNext : Z; kTemp : list twave;
  kStars : list star; kBegin : Z; kBasis : Z; kBasisWave : Z }.
Definition oneStar (listSize : nat) (k : block) (root : twave) : outcome block :=
  sc <- starOf root group [] false ;;
  let star := fst sc in
  let cancel := snd sc in
  let tempStar := sortBz star in
  let l := fold_left (fun l w => setErase w l) tempStar (kList k) in
  let tempList := kTemp k ++ tempStar in
  check (length tempList + length l =? listSize)%nat ;;
  let n := Z.of_nat (length star) in
  let newStar := fun flag => mkStar n (kBegin k) (kBegin k + n) 0 0 flag (repeat 0 dim) cancel in
  let next := fun flag root nextInvert =>
    mkBlock l root nextInvert tempList (newStar flag :: kStars k) (kBegin k + n)
      (if cancel then kBasis k else kBasis k + 1) (if cancel then kBasisWave k else kBasisWave k + n) in
  if kNext k =? -1 then Ok (next (-1) (hd_error l) 1)
  else
    let nVec := mShift m (vNeg (tBz root)) in
    if existsb (fun w => eqbL nVec (tDft w)) star then Ok (next 0 (hd_error l) 1)
    else
      match find (fun w => eqbL nVec (tDft w)) l with
      | Some w => Ok (next 1 (Some w) (-1))
      | None => Throw
      end.
Fixpoint starLoop (fuel : nat) (listSize : nat) (k : block) : outcome block :=
  match kList k with
  | [] => Ok k
  | _ :: _ =>
    match fuel with
    | O => NoFuel
    | S fuel' =>
      match kRoot k with
      | Some root => k' <- oneStar listSize k root ;; starLoop fuel' listSize k'
      | None => UB
      end
    end
  end.
(** 620-636: coefficient of unit norm *)
Definition coeffOf (phase : R) : C :=
  let c := (cos (2 * PI * phase), sin (2 * PI * phase)) in
  let c := if Rlt_dec (Rabs (snd c)) (1 / 10^6) then (fst c, 0%R) else c in
  if Rlt_dec (Rabs (fst c)) (1 / 10^6) then (0%R, snd c) else c.
(** Basis.h 452-460: constructor Wave() *)
Definition waveOf (w : twave) : wave := mkWave (coeffOf (tPhase w)) (tDft w) (tBz w) 0 (-1) false (tSq w).
(** 380-640: one block: new stars, new waves.  The checks of line 389 compare a number
    with itself; UTIL_CHECK(list.size() == 0) holds after the loop. *)
Definition doBlock (fuel : nat) (lw : list twave) (begin nb nbw : Z) : outcome (list star * list wave * (Z * Z * Z)) :=
  let l := fold_left (fun l w => setInsert w l) lw [] in
  k <- starLoop fuel (length lw) (mkBlock l (hd_error l) 1 [] [] begin nb nbw) ;;
  check (length (kTemp k) =? length lw)%nat ;;
  Ok (rev (kStars k), map waveOf (kTemp k), (kBegin k, kBasis k, kBasisWave k)).
Fixpoint doBlocks (fuel : nat) (ls : list (list twave)) (begin nb nbw : Z) : outcome (list star * list wave * (Z * Z)) :=
  match ls with
  | [] => Ok ([], [], (nb, nbw))
  | lw :: r =>
    q <- doBlock fuel lw begin nb nbw ;;
    let '(s1, w1, (begin, nb, nbw)) := q in
    q <- doBlocks fuel r begin nb nbw ;;
    let '(s2, w2, n) := q in
    Ok (s1 ++ s2, w1 ++ w2, n)
  end.

(** ** Second part, 645-905: arrays waves_ and stars_ *)
Definition withInv (w : wave) (k : Z) : wave := mkWave (wCoeff w) (wDft w) (wBz w) (wStar w) k (wImplicit w) (wSq w).
Definition withCoeff (f : C -> C) (w : wave) : wave := mkWave (f (wCoeff w)) (wDft w) (wBz w) (wStar w) (wInv w) (wImplicit w) (wSq w).
Definition withBz (s : star) (v : list Z) : star := mkStar (sSize s) (sBegin s) (sEnd s) (sStar s) (sBasis s) (sFlag s) v (sCancel s).
Definition modWave (ws : list wave) (j : Z) (f : wave -> wave) : outcome (list wave) :=
  w <- at1 ws j ;; set1 ws j (f w).
Fixpoint modWaves (ws : list wave) (l : list Z) (f : wave -> wave) : outcome (list wave) :=
  match l with
  | [] => Ok ws
  | j :: r => ws <- modWave ws j f ;; modWaves ws r f
  end.
(** waves_[j].inverseId = k; waves_[k].inverseId = j; *)
Definition setPair (ws : list wave) (j k : Z) : outcome (list wave) :=
  ws <- modWave ws j (fun w => withInv w k) ;; modWave ws k (fun w => withInv w j).
(** The search loops, 690-697, 786-793 *)
Fixpoint findDft (ws : list wave) (nVec : list Z) (l : list Z) : outcome (option Z) :=
  match l with
  | [] => Ok None
  | k :: r => w <- at1 ws k ;; if eqbL nVec (wDft w) then Ok (Some k) else findDft ws nVec r
  end.
(** 668-722, 768-802: the inverse of wave j; [k]: expected position, [l]: positions searched *)
Definition assignInv (ws : list wave) (j k : Z) (l : list Z) : outcome (list wave) :=
  w <- at1 ws j ;;
  if wInv w <? 0 then
    let nVec := mShift m (vNeg (wBz w)) in
    wk <- at1 ws k ;;
    if eqbL nVec (wDft wk) then setPair ws j k
    else
      o <- findDft ws nVec l ;;
      match o with Some k => setPair ws j k | None => Throw end
  else Ok ws.
Fixpoint assignAll (expected : Z -> Z) (search : Z -> list Z) (js : list Z) (ws : list wave) : outcome (list wave) :=
  match js with
  | [] => Ok ws
  | j :: r => ws <- assignInv ws j (expected j) (search j) ;; assignAll expected search r ws
  end.
(** std::sqrt of a complex number, principal value *)
Definition csqrt (z : C) : C :=
  let r := sqrt ((Cmod z + fst z) / 2) in
  let i := sqrt ((Cmod z - fst z) / 2) in
  (r, if Rlt_dec (snd z) 0 then (- i)%R else i).
Definition near (x y tol : R) : bool := if Rlt_dec (Rabs (x - y)) tol then true else false.
(** 750-761: the common phasor of a closed star *)
Definition phasor (part : C) : C :=
  let d := csqrt part in
  if Rlt_dec (fst d) (- (1 / 10^4)) then Copp d
  else if Rle_dec (Rabs (fst d)) (1 / 10^4) then (if Rlt_dec (snd d) 0 then Copp d else d)
  else d.
(** 660-769: a closed star *)
Definition closedStar (ws : list wave) (s : star) : outcome (list wave * star) :=
  let r := range (sBegin s) (sEnd s) in
  ws <- assignAll (fun j => sEnd s - 1 - (j - sBegin s)) (fun j => range j (sEnd s)) r ws ;;
  root <- at1 ws (sBegin s) ;;
  let s := withBz s (wBz root) in
  if sCancel s then ws <- modWaves ws r (withCoeff (fun _ => RtoC 0)) ;; Ok (ws, s)
  else
    let partId := wInv root in
    ws <- modWaves ws r (withCoeff (fun c => Cdiv c (wCoeff root))) ;;
    root <- at1 ws (sBegin s) ;;
    check (near (fst (wCoeff root)) 1 (1 / 10^9)) ;;
    check (near (snd (wCoeff root)) 0 (1 / 10^9)) ;;
    if partId =? sBegin s then Ok (ws, s)
    else
      part <- at1 ws partId ;;
      check (near (Cmod (wCoeff part)) 1 (1 / 10^9)) ;;
      if Rlt_dec (1 / 10^6) (Cmod (Cminus (wCoeff part) (wCoeff root))) then
        ws <- modWaves ws r (withCoeff (fun c => Cdiv c (phasor (wCoeff part)))) ;; Ok (ws, s)
      else Ok (ws, s).
(** 770-850: a pair of open stars *)
Definition openStars (ws : list wave) (s1 s2 : star) : outcome (list wave * star * star) :=
  check (sSize s1 =? sSize s2) ;;
  check (Bool.eqb (sCancel s1) (sCancel s2)) ;;
  let r1 := range (sBegin s1) (sEnd s1) in
  let r2 := range (sBegin s2) (sEnd s2) in
  ws <- assignAll (fun j => sEnd s2 - 1 - (j - sBegin s1)) (fun _ => r2) r1 ws ;;
  c <- loopB (fun j => w <- at1 ws j ;; Ok (0 <=? wInv w)) r2 ;;
  check c ;;
  root <- at1 ws (sBegin s1) ;;
  part <- at1 ws (wInv root) ;;
  let s1 := withBz s1 (wBz root) in
  let s2 := withBz s2 (wBz part) in
  if sCancel s1 then
    ws <- modWaves ws r1 (withCoeff (fun _ => RtoC 0)) ;;
    ws <- modWaves ws r2 (withCoeff (fun _ => RtoC 0)) ;;
    Ok (ws, s1, s2)
  else
    ws <- modWaves ws r1 (withCoeff (fun c => Cdiv c (wCoeff root))) ;;
    part <- at1 ws (wInv root) ;;
    ws <- modWaves ws r2 (withCoeff (fun c => Cdiv c (wCoeff part))) ;;
    Ok (ws, s1, s2).
(** 655-855: the loop over stars; [ahead]: stars_[i].waveBz if it was set together with
    the previous star *)
Fixpoint doStars (ws : list wave) (ahead : option (list Z)) (l : list star) : outcome (list wave * list star) :=
  match l with
  | [] => Ok (ws, [])
  | s :: r =>
    let s := match ahead with Some v => withBz s v | None => s end in
    if sFlag s =? 0 then
      q <- closedStar ws s ;;
      t <- doStars (fst q) None r ;;
      Ok (fst t, snd q :: snd t)
    else if sFlag s =? 1 then
      match r with
      | [] => UB
      | s2 :: _ =>
        q <- openStars ws s s2 ;;
        let '(ws, s1, s2) := q in
        t <- doStars ws (Some (sBz s2)) r ;;
        Ok (fst t, s1 :: snd t)
      end
    else t <- doStars ws None r ;; Ok (fst t, s :: snd t)
  end.
(** 857-864: normalize, set starId *)
Fixpoint normStars (ws : list wave) (i : Z) (l : list star) : outcome (list wave) :=
  match l with
  | [] => Ok ws
  | s :: r =>
    ws <- modWaves ws (range (sBegin s) (sEnd s))
      (fun w => mkWave (Cmult (wCoeff w) (RtoC (1 / sqrt (IZR (sSize s))))) (wDft w) (wBz w) i (wInv w) (wImplicit w) (wSq w)) ;;
    normStars ws (i + 1) r
  end.
(** 866-876: tiny parts *)
Definition tidy (c : C) : C :=
  let c := if Rlt_dec (Rabs (fst c)) (1 / 10^8) then (0%R, snd c) else c in
  if Rlt_dec (Rabs (snd c)) (1 / 10^8) then (fst c, 0%R) else c.
(** 878-896: implicit flag; every wave must be in the mesh *)
Definition lastZ (l : list Z) : Z := last l 0.
Definition finishWave (w : wave) : outcome wave :=
  check (isInMesh (dimensions m) (wDft w)) ;;
  Ok (mkWave (tidy (wCoeff w)) (wDft w) (wBz w) (wStar w) (wInv w)
       (Z.quot (lastZ (dimensions m)) 2 + 1 <? lastZ (wDft w) + 1) (wSq w)).
(** 896: waveIds_[mesh().rank(vec)] = i *)
Fixpoint fillIds (ids : list Z) (i : Z) (ws : list wave) : outcome (list Z) :=
  match ws with
  | [] => Ok ids
  | w :: r => ids <- set1 ids (rank m (wDft w)) i ;; fillIds ids (i + 1) r
  end.
(** 898-912: starId, basisId, starIds_; j: number of basis functions so far *)
Fixpoint numberStars (nb i j : Z) (l : list star) : outcome (list star * list Z) :=
  match l with
  | [] => check (j =? nb) ;; Ok ([], [])
  | s :: r =>
    let num := fun ib => mkStar (sSize s) (sBegin s) (sEnd s) i ib (sFlag s) (sBz s) (sCancel s) in
    if sCancel s then t <- numberStars nb (i + 1) j r ;; Ok (num (-1) :: fst t, snd t)
    else
      check (j <? nb) ;;
      t <- numberStars nb (i + 1) (j + 1) r ;; Ok (num j :: fst t, i :: snd t)
  end.
(** Basis.tpp 78-109: makeBasis, with makeStars 155-905.  The content of waveIds_ before it
    is filled is arbitrary: [junk]. *)
Definition makeBasis (fuel : nat) (junk : Z) : outcome basis :=
  _ <- checkMeshDimensions dim group (fun i => nth i (dimensions m) 0) ;;
  tw <- makeWaves ;;
  match tw with
  | [] => UB
  | w :: r =>
    q <- doBlocks fuel (lists (tSq w) [w] r) 0 0 0 ;;
    let '(ss, ws, (nb, nbw)) := q in
    q <- doStars ws None ss ;;
    let '(ws, ss) := q in
    ws <- normStars ws 0 ss ;;
    ws <- mapM finishWave ws ;;
    ids <- fillIds (repeat junk (Z.to_nat (size m))) 0 ws ;;
    q <- numberStars nb 0 0 ss ;;
    let '(ss, sids) := q in
    let b := fun init => mkBasis m ws ss ids sids (size m) nbw (Z.of_nat (length ss)) nb init in
    valid <- isValid ksqOf smin (b false) ;;
    check valid ;;
    Ok (b true)
  end.
End Make.
