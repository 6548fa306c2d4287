(** Model of field-theoretic simulations: src/rpc/fts/simulator/Simulator.tpp,
    rpc/fts/montecarlo (McMove, RealMove, ForceBiasMove, McSimulator),
    rpc/fts/brownian (ExplicitBdStep, LMBdStep, PredCorrBdStep, BdSimulator),
    the updates of rpc/fts/compressor, and the Einstein crystal perturbation.

    Fields are functions of a monomer (or eigenvector) index and a grid index.
    Numbers are reals.  The system is assumed to have w fields (its setup checks
    w().hasData()).  Random numbers, compressor and the solution of the modified
    diffusion equation are parameters.  Timers, counters and output are left out. *)
From Coq Require Import Reals List Arith Bool.
From Verif Require Import Base RSum.
Import ListNotations.
Local Open Scope R_scope.

Notation field := (nat -> R) (only parsing).
Notation fields := (nat -> nat -> R) (only parsing).

(* ---------- parameters of the system ---------- *)
(** nMonomer, mesh size, chi matrix, monomer volume, volume of the unit cell, and
    whatever else the solution depends on. *)
Record par := mkPar { pM : nat; pMesh : nat; pChi : nat -> nat -> R; pVMono : R; pVol : R; pOther : list R }.
(** Eigenvalues, eigenvectors and components of s: chiEvals_, chiEvecs_, sc_. *)
Record eig := mkEig { gVal : nat -> R; gVec : nat -> nat -> R; gSc : nat -> R }.

(* ---------- Simulator.tpp 295-441: analyzeChi ---------- *)
(** 305-313. *)
Definition proj (M : nat) (i j : nat) : R := - (1 / INR M) + (if (i =? j)%nat then 1 else 0).
(** 315-325. *)
Definition chiT (M : nat) (chi : nat -> nat -> R) (i j : nat) : R := rsum M (fun k => chi i k * proj M k j).
(** 327-337. *)
Definition chiP (M : nat) (chi : nat -> nat -> R) (i j : nat) : R := rsum M (fun k => proj M i k * chiT M chi k j).
(** 364-388: eigenpairs in the order given by GSL; column i of [vecs] is the
    eigenvector of [vals i]. *)
Record scan := mkScan { cK : nat; cVal : nat -> R; cVec : nat -> nat -> R; cNull : nat; cNNull : nat }.
Definition flip (row : nat -> R) : nat -> R := if Rlt_dec (row 0%nat) 0 then (fun j => - row j) else row.
Definition set1 {X : Type} (f : nat -> X) (k : nat) (x : X) : nat -> X := fun i => if (i =? k)%nat then x else f i.
Definition rlt (x y : R) : bool := if Rlt_dec x y then true else false.
Definition scanStep (vals : nat -> R) (vecs : nat -> nat -> R) (i : nat) (s : scan) : outcome scan :=
  if rlt (Rabs (vals i)) (1 / 100000000) then
    check (cNNull s =? 0)%nat ;;
    Ok (mkScan (cK s) (cVal s) (cVec s) i (S (cNNull s)))
  else
    check (rlt (vals i) 0) ;;
    Ok (mkScan (S (cK s)) (set1 (cVal s) (cK s) (vals i)) (set1 (cVec s) (cK s) (flip (fun j => vecs j i))) (cNull s) (cNNull s)).
Fixpoint scanAll (vals : nat -> R) (vecs : nat -> nat -> R) (n : nat) (s : scan) : outcome scan :=
  match n with
  | O => Ok s
  | S k => s' <- scanAll vals vecs k s ;; scanStep vals vecs k s'
  end.
(** 404-416. *)
Definition normalize (M : nat) (row : nat -> R) : nat -> R :=
  fun j => row j * sqrt (INR M / rsum M (fun a => row a * row a)).
Definition analyzeChi (gsl : nat -> (nat -> nat -> R) -> (nat -> R) * (nat -> nat -> R)) (M : nat) (chi : nat -> nat -> R) (g0 : eig)
  : outcome eig :=
  let '(vals, vecs) := gsl M (chiP M chi) in
  s <- scanAll vals vecs M (mkScan 0 (gVal g0) (gVec g0) 0 0) ;;
  check (cNNull s =? 1)%nat ;;
  let val := set1 (cVal s) (M - 1) 0 in
  let vec0 := set1 (cVec s) (M - 1) (flip (fun j => vecs j (cNull s))) in
  let vec := fun i => normalize M (vec0 i) in
  check (forallb (fun j => rlt (Rabs (vec (M - 1)%nat j - 1)) (1 / 100000000)) (seq 0 M)) ;;
  let s := fun i => rsum M (fun j => chi i j) / INR M in
  Ok (mkEig val vec (fun i => rsum M (fun j => vec i j * s j) / INR M)).

(* ---------- components, derivatives, Hamiltonian ---------- *)
(** Simulator.tpp 463-495: computeWc. *)
Definition wcOf (M : nat) (g : eig) (w : fields) (j i : nat) : R := rsum M (fun k => gVec g j k / INR M * w k i).
(** Simulator.tpp 501-536: computeCc. *)
Definition ccOf (M : nat) (g : eig) (c : fields) (i k : nat) : R := rsum M (fun j => gVec g i j * c j k).
(** EinsteinCrystalPerturbation: lambda, epsilon_, wc0_ and the members
    ecHamiltonian_, unperturbedHamiltonian_ with their saved values. *)
Record ecp := mkEcp { eLambda : R; eEps : nat -> R; eWc0 : fields; eEc : R; eUn : R; eSEc : R; eSUn : R }.
(** Simulator.tpp 541-577: computeDc, EinsteinCrystalPerturbation.tpp 147-167:
    incrementDc. *)
Definition dcOf (p : par) (g : eig) (e : option ecp) (wc cc : fields) (i k : nat) : R :=
  let d := 1 / pVMono p * ((-1) * INR (pM p) / gVal g i * (wc i k - gSc g i) + cc i k) in
  match e with
  | None => d
  | Some q => d + (1 - eLambda q) * (INR (pM p) / (eEps q i * pVMono p) * (wc i k - eWc0 q i k) - d)
  end.
(** hamiltonian_, idealHamiltonian_, fieldHamiltonian_, perturbationHamiltonian_. *)
Record ham := mkHam { hTot : R; hIdeal : R; hField : R; hPert : R }.
(** Simulator.tpp 209-251: lnQ, from phi, mu and size (length) of every species. *)
Definition lnQ (p : par) (sp : list (R * R * R)) (wc : fields) : R :=
  fold_left (fun acc s => let '(phi, mu, size) := s in
      if rlt (1 / 100000000) phi then acc + phi * (- mu + 1) / size else acc) sp 0
  + rsum (pMesh p) (fun i => wc (pM p - 1)%nat i / INR (pMesh p)).
(** 253-273: HW. *)
Definition fieldH (p : par) (g : eig) (wc : fields) : R :=
  rsum (pM p - 1) (fun j => rsum (pMesh p) (fun i =>
      (-1/2) * INR (pM p) / gVal g j * (wc j i - gSc g j) * (wc j i - gSc g j))) / INR (pMesh p)
  + (1/2) * gSc g (pM p - 1)%nat.
(** EinsteinCrystalPerturbation.tpp 110-137: ecHamiltonian_. *)
Definition ecH (p : par) (q : ecp) (wc : fields) : R :=
  rsum (pM p - 1) (fun j => rsum (pMesh p) (fun i =>
      INR (pM p) / (2 * eEps q j) * (wc j i - eWc0 q j i) * (wc j i - eWc0 q j i))) / INR (pMesh p) * (pVol p / pVMono p).
(** Simulator.tpp 190-293: computeHamiltonian. *)
Definition hamOf (p : par) (g : eig) (e : option ecp) (sp : list (R * R * R)) (wc : fields) : ham :=
  let n := pVol p / pVMono p in
  let f := n * fieldH p g wc in
  let i := (-1) * n * lnQ p sp wc in
  let h := i + f in
  match e with
  | None => mkHam h i f 0
  | Some q => let x := (1 - eLambda q) * (ecH p q wc - h) in mkHam (h + x) i f x
  end.
(** Effect of computeHamiltonian on the members of the perturbation. *)
Definition pertAfter (p : par) (e : option ecp) (h : ham) (wc : fields) : option ecp :=
  match e with
  | None => None
  | Some q => Some (mkEcp (eLambda q) (eEps q) (eWc0 q) (ecH p q wc) (hIdeal h + hField h) (eSEc q) (eSUn q))
  end.

(* ---------- state of a simulator ---------- *)
(** System: w fields, c fields, species data, c().hasData(). *)
Record sys := mkSys { yW : fields; yC : fields; ySp : list (R * R * R); yHasC : bool }.
(** wc_, cc_, dc_, Hamiltonian, and the flags hasWc_, hasCc_, hasDc_, hasHamiltonian_. *)
Record comps := mkComps { kWc : fields; kCc : fields; kDc : fields; kH : ham; fWc : bool; fCc : bool; fDc : bool; fH : bool }.
(** SimState. *)
Record saved := mkSaved { svW : fields; svWc : fields; svCc : fields; svDc : fields; svH : ham; svHas : bool }.
(** needsCc, needsDc, needsHamiltonian. *)
Record need := mkNeed { nCc : bool; nDc : bool; nH : bool }.
Record sim := mkSim { mPar : par; mEig : eig; mSys : sys; mK : comps; mSv : saved; mNeed : need; mPert : option ecp }.

Definition withSys (s : sim) (y : sys) : sim := mkSim (mPar s) (mEig s) y (mK s) (mSv s) (mNeed s) (mPert s).
Definition withK (s : sim) (k : comps) : sim := mkSim (mPar s) (mEig s) (mSys s) k (mSv s) (mNeed s) (mPert s).
Definition withSv (s : sim) (v : saved) : sim := mkSim (mPar s) (mEig s) (mSys s) (mK s) v (mNeed s) (mPert s).
Definition withPert (s : sim) (e : option ecp) : sim := mkSim (mPar s) (mEig s) (mSys s) (mK s) (mSv s) (mNeed s) e.

(** Solution of the modified diffusion equation: c fields and species data. *)
Notation solver := (par -> fields -> fields * list (R * R * R)) (only parsing).
(** System::compute(). *)
Definition compute (mde : solver) (s : sim) : sim :=
  let w := yW (mSys s) in withSys s (mkSys w (fst (mde (mPar s) w)) (snd (mde (mPar s) w)) true).
(** w().setRGrid(fields): the c fields become outdated (clearCFields). *)
Definition setW (w : fields) (s : sim) : sim := withSys s (mkSys w (yC (mSys s)) (ySp (mSys s)) false).
(** Simulator.tpp 178-185: clearData. *)
Definition clearData (s : sim) : sim :=
  let k := mK s in withK s (mkComps (kWc k) (kCc k) (kDc k) (kH k) false false false false).
Definition computeWc (s : sim) : sim :=
  let k := mK s in
  withK s (mkComps (wcOf (pM (mPar s)) (mEig s) (yW (mSys s))) (kCc k) (kDc k) (kH k) true (fCc k) (fDc k) (fH k)).
Definition computeCc (s : sim) : outcome sim :=
  check (yHasC (mSys s)) ;;
  let k := mK s in
  Ok (withK s (mkComps (kWc k) (ccOf (pM (mPar s)) (mEig s) (yC (mSys s))) (kDc k) (kH k) (fWc k) true (fDc k) (fH k))).
Definition computeDc (s : sim) : outcome sim :=
  let s1 := if fWc (mK s) then s else computeWc s in
  s2 <- (if fCc (mK s1) then Ok s1 else computeCc s1) ;;
  let k := mK s2 in
  Ok (withK s2 (mkComps (kWc k) (kCc k) (dcOf (mPar s2) (mEig s2) (mPert s2) (kWc k) (kCc k)) (kH k) (fWc k) (fCc k) true (fH k))).
Definition computeHamiltonian (s : sim) : outcome sim :=
  check (yHasC (mSys s)) ;;
  check (fWc (mK s)) ;;
  let k := mK s in
  let h := hamOf (mPar s) (mEig s) (mPert s) (ySp (mSys s)) (kWc k) in
  Ok (withPert (withK s (mkComps (kWc k) (kCc k) (kDc k) h (fWc k) (fCc k) (fDc k) true))
               (pertAfter (mPar s) (mPert s) h (kWc k))).
(** hamiltonian(), Simulator.h 964-969. *)
Definition hamiltonian (s : sim) : outcome R := check (fH (mK s)) ;; Ok (hTot (kH (mK s))).

(** Simulator.tpp 584-632: saveState, EinsteinCrystalPerturbation.tpp 181-184. *)
Definition saveState (s : sim) : outcome sim :=
  let k := mK s in let v := mSv s in let n := mNeed s in
  check (fWc k) ;;
  check (negb (svHas v)) ;;
  check (implb (nCc n) (fCc k)) ;;
  check (implb (nDc n) (fDc k)) ;;
  check (implb (nH n) (fH k)) ;;
  Ok (withPert (withSv s (mkSaved (yW (mSys s)) (kWc k) (if nCc n then kCc k else svCc v) (if nDc n then kDc k else svDc v)
                                  (if nH n then kH k else svH v) true))
               (match mPert s with None => None
                | Some q => Some (mkEcp (eLambda q) (eEps q) (eWc0 q) (eEc q) (eUn q) (eEc q) (eUn q)) end)).
(** Simulator.tpp 640-683: restoreState, EinsteinCrystalPerturbation.tpp 190-193. *)
Definition restoreState (s : sim) : outcome sim :=
  let v := mSv s in let n := mNeed s in
  check (svHas v) ;;
  let s1 := setW (svW v) s in
  let k := mK s1 in
  Ok (mkSim (mPar s1) (mEig s1) (mSys s1)
        (mkComps (svWc v) (if nCc n then svCc v else kCc k) (if nDc n then svDc v else kDc k) (if nH n then svH v else kH k)
                 true (if nCc n then true else fCc k) (if nDc n then true else fDc k) (if nH n then true else fH k))
        (mkSaved (svW v) (svWc v) (svCc v) (svDc v) (svH v) false) n
        (match mPert s with None => None
         | Some q => Some (mkEcp (eLambda q) (eEps q) (eWc0 q) (eSEc q) (eSUn q) (eSEc q) (eSUn q)) end)).
(** Simulator.tpp 690-692: clearState. *)
Definition clearState (s : sim) : sim :=
  let v := mSv s in withSv s (mkSaved (svW v) (svWc v) (svCc v) (svDc v) (svH v) false).

(** A compressor replaces the w fields and ends with a solution for them
    (AmCompressor.tpp 93-97 and 162-166, LrCompressor.tpp 98-177); it returns true
    on failure. *)
Notation compressor := (par -> fields -> bool * fields) (only parsing).
Definition compress (mde : solver) (comp : compressor) (s : sim) : bool * sim :=
  let r := comp (mPar s) (yW (mSys s)) in (fst r, compute mde (setW (snd r) s)).

(* ---------- Monte Carlo moves ---------- *)
Inductive moveResult := Accepted | Rejected | FailedMove.
(** McMove.tpp 85-156: move.  [newW]: the fields set by attemptMove; [acc]: the
    decision of Random::metropolis for a weight. *)
Definition mcMove (mde : solver) (comp : compressor) (newW : sim -> fields) (acc : R -> bool) (s : sim)
  : outcome (sim * moveResult) :=
  oldH <- hamiltonian s ;;
  s1 <- saveState s ;;
  let s2 := clearData s1 in
  let s3 := setW (newW s2) s2 in
  let '(err, s4) := compress mde comp s3 in
  check (yHasC (mSys s4)) ;;
  if err then s5 <- restoreState s4 ;; Ok (s5, FailedMove)
  else
    let s5 := computeWc s4 in
    s6 <- (if nCc (mNeed s) || nDc (mNeed s) then check (yHasC (mSys s5)) ;; computeCc s5 else Ok s5) ;;
    s7 <- (if nDc (mNeed s) then computeDc s6 else Ok s6) ;;
    s8 <- computeHamiltonian s7 ;;
    newH <- hamiltonian s8 ;;
    if acc (exp (- (newH - oldH))) then Ok (clearState s8, Accepted)
    else s9 <- restoreState s8 ;; Ok (s9, Rejected).

(** Displacement of the w fields by exchange components, RealMove.tpp 90-107,
    ForceBiasMove.tpp 151-159, ExplicitBdStep.tpp 107-114, LMBdStep.tpp 167-174. *)
Definition displace (M : nat) (g : eig) (w dwc : fields) (i k : nat) : R := w i k + rsum (M - 1) (fun j => gVec g j i * dwc j k).
(** RealMove.tpp 79-112: attemptMove; [rnd j k] are the gaussian numbers. *)
Definition realMoveW (sigma : R) (rnd : fields) (s : sim) : fields :=
  displace (pM (mPar s)) (mEig s) (yW (mSys s)) (fun j k => sigma * rnd j k).

(** ForceBiasMove.tpp 133-149: displacement of the exchange components. *)
Definition fbDwc (mob vNode : R) (dc rnd : fields) (j k : nat) : R :=
  (-1) * mob * dc j k + sqrt (2 * mob / vNode) * rnd j k.
(** 194-207: bias. *)
Definition fbBias (M mesh : nat) (mob vNode : R) (di df dwc : fields) : R :=
  rsum (M - 1) (fun j => rsum mesh (fun k =>
    (1/2) * (di j k + df j k) * (dwc j k + mob * ((1/2) * (di j k - df j k))))) * vNode.
(** ForceBiasMove.tpp 97-227: move. *)
Definition fbMove (mde : solver) (comp : compressor) (mob : R) (rnd : fields) (acc : R -> bool) (s : sim)
  : outcome (sim * moveResult) :=
  check (fWc (mK s)) ;;
  check (fDc (mK s)) ;;
  check (fH (mK s)) ;;
  oldH <- hamiltonian s ;;
  s1 <- saveState s ;;
  let s2 := clearData s1 in
  let p := mPar s in
  let di := kDc (mK s2) in
  let vNode := pVol p / INR (pMesh p) in
  let dwc := fbDwc mob vNode di rnd in
  let s3 := clearData (setW (displace (pM p) (mEig s2) (yW (mSys s2)) dwc) s2) in
  let '(err, s4) := compress mde comp s3 in
  if err then s5 <- restoreState s4 ;; Ok (s5, FailedMove)
  else
    s5 <- computeCc (computeWc s4) ;;
    s6 <- computeDc s5 ;;
    s7 <- computeHamiltonian s6 ;;
    newH <- hamiltonian s7 ;;
    let bias := fbBias (pM p) (pMesh p) mob vNode di (kDc (mK s7)) dwc in
    if acc (exp (bias - (newH - oldH))) then Ok (clearState s7, Accepted)
    else s8 <- restoreState s7 ;; Ok (s8, Rejected).

(* ---------- Brownian dynamics ---------- *)
(** Steps return false when the compressor fails. *)
(** ExplicitBdStep.tpp 77-138: step. *)
Definition explicitStep (mde : solver) (comp : compressor) (mob : R) (rnd : fields) (s : sim) : outcome (sim * bool) :=
  s1 <- saveState s ;;
  let p := mPar s in
  let dwc := fun j k => (-1) * mob * kDc (mK s1) j k + sqrt (2 * mob * INR (pMesh p) / pVol p) * rnd j k in
  let s2 := clearData (setW (displace (pM p) (mEig s1) (yW (mSys s1)) dwc) s1) in
  let '(err, s3) := compress mde comp s2 in
  if err then s4 <- restoreState s3 ;; Ok (s4, false)
  else
    check (yHasC (mSys s3)) ;;
    s4 <- computeCc (computeWc (clearState s3)) ;;
    s5 <- computeDc s4 ;;
    Ok (s5, true).
(** LMBdStep.tpp 138-202: step; etaOld and etaNew are the scaled random fields. *)
Definition lmStep (mde : solver) (comp : compressor) (mob : R) (etaOld etaNew : fields) (s : sim) : outcome (sim * bool) :=
  s1 <- saveState s ;;
  let p := mPar s in
  let dwc := fun j k => (-1) * mob * kDc (mK s1) j k + etaNew j k + etaOld j k in
  let s2 := setW (displace (pM p) (mEig s1) (yW (mSys s1)) dwc) s1 in
  let '(err, s3) := compress mde comp s2 in
  if err then s4 <- restoreState s3 ;; Ok (s4, false)
  else
    check (yHasC (mSys s3)) ;;
    s4 <- computeCc (computeWc (clearData (clearState s3))) ;;
    s5 <- computeDc s4 ;;
    Ok (s5, true).
(** PredCorrBdStep.tpp 98-227: step. *)
Definition predCorrStep (mde : solver) (comp : compressor) (mob : R) (rnd : fields) (s : sim) : outcome (sim * bool) :=
  s1 <- saveState s ;;
  let p := mPar s in
  let w0 := yW (mSys s1) in
  let dci := kDc (mK s1) in
  let pOld := kWc (mK s1) (pM p - 1)%nat in
  let eta := fun j k => sqrt (2 * mob * INR (pMesh p) / pVol p) * rnd j k in
  let s2 := setW (displace (pM p) (mEig s1) w0 (fun j k => (-1) * mob * dci j k + eta j k)) s1 in
  let '(err, s3) := compress mde comp s2 in
  if err then s4 <- restoreState s3 ;; Ok (s4, false)
  else
    check (yHasC (mSys s3)) ;;
    s4 <- computeCc (computeWc (clearData s3)) ;;
    s5 <- computeDc s4 ;;
    let dwp := fun k => kWc (mK s5) (pM p - 1)%nat k - pOld k in
    let dwc := fun j k => (1/2) * ((-1) * mob) * (dci j k + kDc (mK s5) j k) + eta j k in
    let s6 := setW (displace (pM p) (mEig s5) (fun i k => w0 i k + dwp k) dwc) s5 in
    let '(err2, s7) := compress mde comp s6 in
    if err2 then s8 <- restoreState s7 ;; Ok (s8, false)
    else
      check (yHasC (mSys s7)) ;;
      s8 <- computeCc (computeWc (clearData (clearState s7))) ;;
      s9 <- computeDc s8 ;;
      Ok (s9, true).

(* ---------- compressors ---------- *)
(** AmCompressor.tpp 196-212 and LrAmCompressor.tpp 271-287: update. *)
Definition amUpdate (w0 : fields) (guess : field) (i k : nat) : R := w0 i k + guess k.
(** AmCompressor.tpp 140-156: getCurrent. *)
Definition amCurrent (w0 w : fields) (k : nat) : R := w 0%nat k - w0 0%nat k.
(** An Anderson-mixing compressor calls update for a sequence of guesses chosen by
    the iteration; [drive] stands for the iteration (see Am.v). *)
Definition amCompress (drive : par -> fields -> bool * list (nat -> R)) (p : par) (w0 : fields) : bool * fields :=
  let r := drive p w0 in (fst r, fold_left (fun _ g => amUpdate w0 g) (snd r) w0).
(** LrCompressor.tpp 183-199: getResidual. *)
Definition lrResid (M : nat) (c : fields) (k : nat) : R := (-1) + rsum M (fun j => c j k).
(** LrCompressor.tpp 221-226: the last lines of updateWFields. *)
Definition lrUpdate (w : fields) (resid : field) (i k : nat) : R := w i k + resid k.
(** LrCompressor.tpp 98-177: compress.  [lr] is the linear response (209-219),
    [err] is computeError, with None for a NaN. *)
Fixpoint lrCompress (mde : solver) (lr : par -> field -> field) (err : par -> field -> option R) (eps : R) (maxItr : nat)
    (p : par) (w : fields) : bool * fields :=
  match maxItr with
  | O => (true, w)
  | S n =>
    let r := lrResid (pM p) (fst (mde p w)) in
    match err p r with
    | None => (true, w)
    | Some e => if rlt e eps then (false, w) else lrCompress mde lr err eps n p (lrUpdate w (lr p r))
    end
  end.

(* ---------- simulations ---------- *)
(** A ramp changes the parameters of the system, the parameter lambda of the
    perturbation and, if it ramps chi, calls analyzeChi (LinearRamp.tpp 67-84).
    setUnitCell clears the c fields. *)
Record ramp := mkRamp { rPar : nat -> par -> par; rLambda : option (nat -> R); rChi : bool; rCell : bool }.
Definition rampPert (l : option (nat -> R)) (i : nat) (e : option ecp) : option ecp :=
  match l, e with
  | Some f, Some q => Some (mkEcp (f i) (eEps q) (eWc0 q) (eEc q) (eUn q) (eSEc q) (eSUn q))
  | _, _ => e
  end.
Definition rampStep (eigOf : par -> eig -> outcome eig) (r : option ramp) (iStep : nat) (s : sim) : outcome sim :=
  match r with
  | None => Ok s
  | Some q =>
    let p := rPar q iStep (mPar s) in
    g <- (if rChi q then eigOf p (mEig s) else Ok (mEig s)) ;;
    let y := mSys s in
    Ok (mkSim p g (mkSys (yW y) (yC y) (ySp y) (if rCell q then false else yHasC y)) (mK s) (mSv s) (mNeed s)
              (rampPert (rLambda q) iStep (mPert s)))
  end.

(** McSimulator.tpp 111-150: setup, with McMove.tpp 63-79 for every move
    ([nMoves] of them).  The ramp's setup only reads values; the perturbation is
    set up before. *)
Definition moveSetup (mde : solver) (s : sim) : outcome sim :=
  let s1 := computeWc s in
  s2 <- (if nCc (mNeed s) || nDc (mNeed s) then computeCc (compute mde s1) else Ok s1) ;;
  if nDc (mNeed s) then computeDc s2 else Ok s2.
Fixpoint moveSetups (mde : solver) (nMoves : nat) (s : sim) : outcome sim :=
  match nMoves with O => Ok s | S k => s' <- moveSetup mde s ;; moveSetups mde k s' end.
Definition mcSetup (eigOf : par -> eig -> outcome eig) (mde : solver) (comp : compressor) (nMoves : nat) (s : sim) : outcome sim :=
  g <- eigOf (mPar s) (mEig s) ;;
  let s0 := mkSim (mPar s) g (mSys s) (mK s) (mSv s) (mNeed s) (mPert s) in
  let s1 := compute mde s0 in
  let s2 := computeWc (snd (compress mde comp s1)) in
  s3 <- (if nCc (mNeed s) || nDc (mNeed s) then computeCc s2 else Ok s2) ;;
  s4 <- (if nDc (mNeed s) then computeDc s3 else Ok s3) ;;
  s5 <- computeHamiltonian s4 ;;
  moveSetups mde nMoves s5.

(** One element of the main loop: which move, with its random data. *)
Inductive mcChoice :=
| Plain (newW : sim -> fields) (acc : R -> bool)
| ForceBias (mob : R) (rnd : fields) (acc : R -> bool).
Definition doMove (mde : solver) (comp : compressor) (c : mcChoice) (s : sim) : outcome (sim * moveResult) :=
  match c with
  | Plain newW acc => mcMove mde comp newW acc s
  | ForceBias mob rnd acc => fbMove mde comp mob rnd acc s
  end.
(** McSimulator.tpp 181-209: the main loop, without the analyzers; the step
    counter counts converged moves, after each of which the ramp is advanced. *)
Fixpoint mcLoop (eigOf : par -> eig -> outcome eig) (mde : solver) (comp : compressor) (r : option ramp) (l : list mcChoice)
    (iStep : nat) (s : sim) : outcome (sim * nat) :=
  match l with
  | [] => Ok (s, iStep)
  | c :: l' =>
    x <- doMove mde comp c s ;;
    match snd x with
    | FailedMove => mcLoop eigOf mde comp r l' iStep (fst x)
    | _ => s' <- rampStep eigOf r (S iStep) (fst x) ;; mcLoop eigOf mde comp r l' (S iStep) s'
    end
  end.
Definition mcSimulate (eigOf : par -> eig -> outcome eig) (mde : solver) (comp : compressor) (r : option ramp) (nMoves : nat)
    (l : list mcChoice) (s : sim) : outcome (sim * nat) :=
  s1 <- mcSetup eigOf mde comp nMoves s ;;
  s2 <- rampStep eigOf r 0 s1 ;;
  mcLoop eigOf mde comp r l 0 s2.

(** BdSimulator.tpp 126-161: setup (the setup of the steps only checks sizes or
    draws random numbers). *)
Definition bdSetup (eigOf : par -> eig -> outcome eig) (mde : solver) (comp : compressor) (s : sim) : outcome sim :=
  g <- eigOf (mPar s) (mEig s) ;;
  let s0 := mkSim (mPar s) g (mSys s) (mK s) (mSv s) (mNeed s) (mPert s) in
  let s1 := compute mde s0 in
  s3 <- computeCc (computeWc (snd (compress mde comp s1))) ;;
  s4 <- computeDc s3 ;;
  computeHamiltonian s4.
Inductive bdChoice :=
| Explicit (mob : R) (rnd : fields)
| LM (mob : R) (etaOld etaNew : fields)
| PredCorr (mob : R) (rnd : fields).
Definition doStep (mde : solver) (comp : compressor) (c : bdChoice) (s : sim) : outcome (sim * bool) :=
  match c with
  | Explicit mob rnd => explicitStep mde comp mob rnd s
  | LM mob eo en => lmStep mde comp mob eo en s
  | PredCorr mob rnd => predCorrStep mde comp mob rnd s
  end.
(** BdSimulator.tpp 192-221: main loop without analyzers. *)
Fixpoint bdLoop (eigOf : par -> eig -> outcome eig) (mde : solver) (comp : compressor) (r : option ramp) (l : list bdChoice)
    (iStep : nat) (s : sim) : outcome (sim * nat) :=
  match l with
  | [] => Ok (s, iStep)
  | c :: l' =>
    x <- doStep mde comp c s ;;
    if snd x then s' <- rampStep eigOf r (S iStep) (fst x) ;; bdLoop eigOf mde comp r l' (S iStep) s'
    else bdLoop eigOf mde comp r l' iStep (fst x)
  end.
