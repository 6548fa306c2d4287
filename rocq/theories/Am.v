(** Model of the Anderson-mixing iterator, src/pscf/iterator/AmIteratorTmpl.tpp,
    with the vector operations of src/pscf/iterator/AmIteratorDArray.tpp.

    The parent system is a parameter: a state type with the virtual functions
    getCurrent, getResidual, update and evaluate.  Vectors of nElem_ elements are
    functions on nat of which the first nElem_ values are used.  A ring buffer
    (util library, not in the repository) is a list, newest element first, cut at
    its capacity.  Timers, log output and the PSCF_AM_TEST code are left out. *)
From Coq Require Import Reals List Arith Bool ZArith SpecFloat.
From Verif Require Import Base RSum.
Import ListNotations.

(** Arithmetic used by the algorithm, so that the same code can be read over the
    reals (with a non-finite value) and over IEEE doubles. *)
Record num := mkNum {
  nT : Type;
  nzero : nT; none_ : nT;
  nadd : nT -> nT -> nT; nsub : nT -> nT -> nT; nmul : nT -> nT -> nT; ndiv : nT -> nT -> nT;
  nopp : nT -> nT; nabs : nT -> nT; nsqrt : nT -> nT;
  nlt : nT -> nT -> bool; nisnan : nT -> bool; nofnat : nat -> nT
}.
Arguments nzero {_}. Arguments none_ {_}. Arguments nadd {_}. Arguments nsub {_}. Arguments nmul {_}.
Arguments ndiv {_}. Arguments nopp {_}. Arguments nabs {_}. Arguments nsqrt {_}. Arguments nlt {_}.
Arguments nisnan {_}. Arguments nofnat {_}.
Notation vec N := (nat -> nT N) (only parsing).
Notation mat N := (nat -> nat -> nT N) (only parsing).

(* ---------- vector operations ---------- *)
(** AmIteratorDArray.tpp 30-49: dotProduct.  None: NanException thrown. *)
Fixpoint dot {N : num} (n : nat) (a b : vec N) : option (nT N) :=
  match n with
  | O => Some nzero
  | S k => match dot k a b with
           | None => None
           | Some p => if nisnan (a k) || nisnan (b k) then None else Some (nadd p (nmul (a k) (b k)))
           end
  end.
(** AmIteratorDArray.tpp 54-69: maxAbs.  None: NanException thrown. *)
Fixpoint maxAbs {N : num} (n : nat) (a : vec N) : option (nT N) :=
  match n with
  | O => Some nzero
  | S k => match maxAbs k a with
           | None => None
           | Some m => if nisnan (a k) then None else Some (if nlt m (nabs (a k)) then nabs (a k) else m)
           end
  end.
(** AmIteratorDArray.tpp 74-86: subVV. *)
Definition subVV {N : num} (b c : vec N) : vec N := fun i => nsub (b i) (c i).
(** AmIteratorDArray.tpp 91-101: addEqVc, a[i] += c*b[i]. *)
Definition addEqVc {N : num} (a b : vec N) (c : nT N) : vec N := fun i => nadd (a i) (nmul c (b i)).
(** AmIteratorTmpl.tpp 722-733: addEqVectors, coefficients from index k on. *)
Fixpoint addEqVectors {N : num} (v : vec N) (basis : list (vec N)) (coeffs : vec N) (k : nat) : vec N :=
  match basis with
  | nil => v
  | b :: bs => addEqVectors (addEqVc v b (coeffs k)) bs coeffs (S k)
  end.
(** AmIteratorTmpl.tpp 752-757: norm. *)
Definition norm {N : num} (n : nat) (a : vec N) : option (nT N) := option_map nsqrt (dot n a a).

(* ---------- parameters, parent system, members ---------- *)
Inductive errType := MaxResid | NormResid | RmsResid | RelNormResid.
(** epsilon, maxItr, maxHist, lambda, useLambdaRamp, r, errorType
    (readParameters 55-92, readErrorType 297-336) and the number of elements. *)
Record params (N : num) := mkParams {
  pEps : nT N; pMaxItr : nat; pMaxHist : nat; pLambda : nT N; pRamp : bool; pR : nT N; pErr : errType; pElem : nat }.
Arguments pEps {_}. Arguments pMaxItr {_}. Arguments pMaxHist {_}. Arguments pLambda {_}.
Arguments pRamp {_}. Arguments pR {_}. Arguments pErr {_}. Arguments pElem {_}.
(** The pure virtual functions (AmIteratorTmpl.h 456-500). *)
Record system (N : num) := mkSys {
  sS : Type;
  getCurrent : sS -> vec N; getResidual : sS -> vec N; sUpdate : vec N -> sS -> sS; evaluate : sS -> sS }.
Arguments sS {_}. Arguments getCurrent {_}. Arguments getResidual {_}. Arguments sUpdate {_}. Arguments evaluate {_}.
(** Member variables used by the algorithm (AmIteratorTmpl.h 360-440). *)
Record am (N : num) := mkAm {
  aSH : list (vec N); aRH : list (vec N);   (* stateHistory_, residualHistory_ *)
  aSB : list (vec N); aRB : list (vec N);   (* stateBasis_, residualBasis_ *)
  aU : mat N; aV : vec N; aC : vec N;       (* U_, v_, coeffs_ *)
  aST : vec N; aRT : vec N;                 (* stateTrial_, residualTrial_ *)
  aNB : nat                                 (* nBasis_ *) }.
Arguments aSH {_}. Arguments aRH {_}. Arguments aSB {_}. Arguments aRB {_}. Arguments aU {_}.
Arguments aV {_}. Arguments aC {_}. Arguments aST {_}. Arguments aRT {_}. Arguments aNB {_}.
Arguments mkAm {_}.
(** allocateAM 361-387: empty buffers; the arrays hold unspecified values. *)
Definition am0 {N : num} (U : mat N) (v c st rt : vec N) : am N := mkAm [] [] [] [] U v c st rt 0.

(** Ring buffer append: newest first, at most cap elements. *)
Definition append {X : Type} (cap : nat) (x : X) (h : list X) : list X := firstn cap (x :: h).

(* ---------- coefficients ---------- *)
(** 586-601: the diagonal shift, in the order of the loops. *)
Definition put {X : Type} (f : nat -> nat -> X) (m n : nat) (x : X) : nat -> nat -> X :=
  fun a b => if (a =? m) && (b =? n) then x else f a b.
Fixpoint shiftRow {X : Type} (m n : nat) (U : nat -> nat -> X) : nat -> nat -> X :=
  match n with
  | O => U
  | S k => shiftRow m k (put U m (S k) (U (m - 1) k))
  end.
Fixpoint shiftFrom {X : Type} (m last : nat) (U : nat -> nat -> X) : nat -> nat -> X :=
  match m with
  | O => U
  | S k => shiftFrom k last (shiftRow (S k) last U)
  end.
Definition shiftU {X : Type} (maxHist : nat) (U : nat -> nat -> X) : nat -> nat -> X :=
  shiftFrom (maxHist - 1) (maxHist - 1) U.
(** 603-612: new row and column 0; None: NanException. *)
Fixpoint newRow {N : num} (n : nat) (b0 : vec N) (basis : list (vec N)) (m : nat) (U : mat N) : option (mat N) :=
  match basis with
  | nil => Some U
  | b :: bs => match dot n b0 b with
               | None => None
               | Some d => newRow n b0 bs (S m) (if m =? 0 then put U 0 0 d else put (put U m 0 d) 0 m d)
               end
  end.
(** 586-614: updateU. *)
Definition updateU {N : num} (n maxHist : nat) (U : mat N) (basis : list (vec N)) : option (mat N) :=
  newRow n (hd (fun _ => nzero) basis) basis 0 (shiftU maxHist U).
(** 619-630: computeV. *)
Fixpoint computeV {N : num} (n : nat) (v : vec N) (r : vec N) (basis : list (vec N)) (m : nat) : option (vec N) :=
  match basis with
  | nil => Some v
  | b :: bs => match dot n r b with
               | None => None
               | Some d => computeV n (fun i => if i =? m then d else v i) r bs (S m)
               end
  end.
(** 699-717: updateBasis (advance, then overwrite element 0). *)
Definition updateBasis {N : num} (cap : nat) (basis history : list (vec N)) : list (vec N) :=
  match history with
  | h0 :: h1 :: _ => append cap (subVV h0 h1) basis
  | _ => basis
  end.

(** 428-522: computeTrialCoeff.  Throw: an exception leaves solve (NanException
    from an inner product, or a failed UTIL_CHECK).  [lu n U v] is the solution
    computed by LuSolver for the leading n x n block; the copy to a smaller matrix
    when nBasis_ < maxHist_ is the same call. *)
Definition computeTrialCoeff {N : num} (lu : nat -> mat N -> vec N -> vec N) (p : params N) (itr : nat) (a : am N)
  : outcome (am N) :=
  if (itr =? 0) && (aNB a =? 0) then
    Ok (mkAm (aSH a) (aRH a) (aSB a) (aRB a) (fun m n => if (m <? pMaxHist p) && (n <? pMaxHist p) then nzero else aU a m n)
             (fun m => if m <? pMaxHist p then nzero else aV a m) (fun m => if m <? pMaxHist p then nzero else aC a m)
             (aST a) (aRT a) (aNB a))
  else if itr =? 0 then Ok a
  else
    let two := 1 <? length (aSH a) in
    let sb := if two then updateBasis (pMaxHist p) (aSB a) (aSH a) else aSB a in
    let rb := if two then updateBasis (pMaxHist p) (aRB a) (aRH a) else aRB a in
    match (if two then updateU (pElem p) (pMaxHist p) (aU a) rb else Some (aU a)) with
    | None => Throw
    | Some U =>
      let nb := length rb in
      check (0 <? nb) ;;
      check (length sb =? nb) ;;
      match computeV (pElem p) (aV a) (hd (fun _ => nzero) (aRH a)) rb 0 with
      | None => Throw
      | Some v =>
        let c := if nb =? 1 then (fun i => if i =? 0 then ndiv (v 0) (U 0 0) else aC a i)
                 else (fun i => if i <? nb then lu nb U v i else aC a i) in
        Ok (mkAm (aSH a) (aRH a) sb rb U v (fun i => if i <? nb then nopp (c i) else c i) (aST a) (aRT a) nb)
      end
    end.

(** 524-539: updateTrial. *)
Definition updateTrial {N : num} (a : am N) : am N :=
  let s0 := hd (fun _ => nzero) (aSH a) in
  let r0 := hd (fun _ => nzero) (aRH a) in
  mkAm (aSH a) (aRH a) (aSB a) (aRB a) (aU a) (aV a) (aC a)
       (if 0 <? aNB a then addEqVectors s0 (aSB a) (aC a) 0 else s0)
       (if 0 <? aNB a then addEqVectors r0 (aRB a) (aC a) 0 else r0) (aNB a).
(** 572-581: computeLambda. *)
Fixpoint npow {N : num} (x : nT N) (n : nat) : nT N := match n with O => none_ | S k => nmul x (npow x k) end.
Definition computeLambda {N : num} (p : params N) (nb : nat) : nT N :=
  if pRamp p && (nb <? pMaxHist p) then nmul (nsub none_ (npow (pR p) (nb + 1))) (pLambda p) else pLambda p.
(** 738-745: addCorrection. *)
Definition addCorrection {N : num} (p : params N) (a : am N) : am N :=
  mkAm (aSH a) (aRH a) (aSB a) (aRB a) (aU a) (aV a) (aC a)
       (addEqVc (aST a) (aRT a) (computeLambda p (aNB a))) (aRT a) (aNB a).

(* ---------- error ---------- *)
(** 635-683: computeError.  None: NanException (caught by solve).  The check
    !isnan(normRes) is modelled as Throw. *)
Definition computeError {N : num} (p : params N) (resid state : vec N) : option (outcome (nT N)) :=
  match maxAbs (pElem p) resid, norm (pElem p) resid with
  | Some maxRes, Some normRes =>
    if nisnan normRes then Some Throw
    else match norm (pElem p) state with
         | None => None
         | Some normField =>
           Some (Ok (match pErr p with
                     | MaxResid => maxRes
                     | NormResid => normRes
                     | RmsResid => ndiv normRes (nsqrt (nofnat (pElem p)))
                     | RelNormResid => ndiv normRes normField
                     end))
         end
  | _, _ => None
  end.

(* ---------- solve ---------- *)
(** 393-408: setup.  Before the first call the buffers are empty, so clearing
    them is the same as allocating. *)
Definition setup {N : num} (cont : bool) (a : am N) : am N :=
  mkAm [] [] (if cont then aSB a else []) (if cont then aRB a else []) (aU a) (aV a) (aC a) (aST a) (aRT a) (aNB a).

(** Result of solve: return code, system, members and, for the statements only,
    for each iteration that changed the fields the system at its beginning and the
    members at its end. *)
Record result (N : num) (S : Type) := mkRes { rCode : nat; rSys : S; rAm : am N; rTrace : list (S * am N) }.
Arguments rCode {_ _}. Arguments rSys {_ _}. Arguments rAm {_ _}. Arguments rTrace {_ _}. Arguments mkRes {_ _}.

(** 117-225: the loop, [left] iterations before maxItr_. *)
Fixpoint loop {N : num} (lu : nat -> mat N -> vec N -> vec N) (p : params N) (y : system N) (left itr : nat)
    (s : sS y) (a : am N) : outcome (result N (sS y)) :=
  match left with
  | O => Ok (mkRes 1 s a [])
  | S left' =>
    let st := getCurrent y s in
    let rs := getResidual y s in
    let a1 := mkAm (append (pMaxHist p + 1) st (aSH a)) (append (pMaxHist p + 1) rs (aRH a)) (aSB a) (aRB a)
                   (aU a) (aV a) (aC a) (aST a) (aRT a) (aNB a) in
    match computeError p rs st with
    | None => Ok (mkRes 1 s a1 [])
    | Some o =>
      e <- o ;;
      if nlt e (pEps p) then Ok (mkRes 0 s a1 [])
      else
        a2 <- computeTrialCoeff lu p itr a1 ;;
        let a3 := updateTrial a2 in
        let a4 := addCorrection p a3 in
        r <- loop lu p y left' (S itr) (evaluate y (sUpdate y (aST a4) s)) a4 ;;
        Ok (mkRes (rCode r) (rSys r) (rAm r) ((s, a4) :: rTrace r))
    end
  end.
(** 97-232: solve. *)
Definition solve {N : num} (lu : nat -> mat N -> vec N -> vec N) (p : params N) (y : system N) (cont : bool)
    (s : sS y) (a : am N) : outcome (result N (sS y)) :=
  let a1 := setup cont a in
  let a2 := mkAm (aSH a1) (aRH a1) (aSB a1) (aRB a1) (aU a1) (aV a1) (aC a1) (aST a1) (aRT a1) (length (aSB a1)) in
  loop lu p y (pMaxItr p) 0 (evaluate y s) a2.

(* ---------- instances of the arithmetic ---------- *)
(** Reals with one non-finite value. *)
Definition lift2 (f : R -> R -> R) (x y : option R) : option R :=
  match x, y with Some a, Some b => Some (f a b) | _, _ => None end.
Definition divR (x y : option R) : option R :=
  match x, y with Some a, Some b => if Req_EM_T b 0 then None else Some (a / b)%R | _, _ => None end.
Definition sqrtR (x : option R) : option R :=
  match x with Some a => if Rlt_dec a 0 then None else Some (sqrt a) | None => None end.
Definition ltR (x y : option R) : bool :=
  match x, y with Some a, Some b => if Rlt_dec a b then true else false | _, _ => false end.
Definition RNum : num :=
  mkNum (option R) (Some 0%R) (Some 1%R) (lift2 Rplus) (lift2 Rminus) (lift2 Rmult) divR
        (option_map Ropp) (option_map Rabs) sqrtR ltR (fun x => match x with None => true | _ => false end)
        (fun n => Some (INR n)).
(** IEEE doubles (SpecFloat of the standard library). *)
Definition fOf (z : Z) : spec_float := binary_normalize 53 1024 z 0 false.
Definition FNum : num :=
  mkNum spec_float (S754_zero false) (fOf 1) (SFadd 53 1024) (SFsub 53 1024) (SFmul 53 1024) (SFdiv 53 1024)
        SFopp SFabs (SFsqrt 53 1024) SFltb (fun x => match x with S754_nan => true | _ => false end)
        (fun n => fOf (Z.of_nat n)).
