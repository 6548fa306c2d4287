(** Relaxation iterator of one-dimensional systems: r1d/iterator/BinaryRelaxIterator.cpp.
    Simplifications: reals for doubles; mixture().compute is an arbitrary function
    from w fields to c fields; logging and timers are left out. *)
From Coq Require Import Reals List Arith Bool.
From Verif Require Import Base RSum.
Import ListNotations.
Local Open Scope R_scope.

(** Fields of the two monomer types: monomer index, grid point. *)
Definition fields := nat -> nat -> R.
Inductive ensemble := Unknown | Closed | Open.

Section Iterator.
Variable mix : fields -> fields.   (* mixture().compute *)
Variable nx : nat.                 (* domain().nx() *)
Variable chi : R.                  (* interaction().chi(0,1) *)

(** computeDW, BinaryRelaxIterator.cpp 72-101, for lambdaPlus_ = lp, lambdaMinus_ = lm *)
Definition resPlus (w c : fields) (i : nat) : R := c 1%nat i + c 0%nat i - 1.
Definition resMinus (w c : fields) (i : nat) : R :=
  1/2 * (c 0%nat i - c 1%nat i - (w 1%nat i - w 0%nat i) / chi).
Definition computeDW (lp lm : R) (w c : fields) : fields * R :=
  (fun j i => match j with
    | O => resPlus w c i * lp - resMinus w c i * lm
    | _ => resPlus w c i * lp + resMinus w c i * lm
    end,
   sqrt ((rsum nx (fun i => resPlus w c i * resPlus w c i) + rsum nx (fun i => resMinus w c i * resMinus w c i)) / INR nx)).

(** The shift that makes the last element vanish (lines 122-129 and 160-168). *)
Definition shiftLast (canonical : bool) (w : fields) : fields :=
  if canonical then fun j i => w j i - w 1%nat (nx - 1)%nat else w.
(** updateWFields, lines 103-132 *)
Definition updateW (canonical : bool) (w dW : fields) : fields :=
  shiftLast canonical (fun j i => w j i + dW j i).

(** System fields, lambdas, dW_ and dWNorm_ *)
Record state := mkState { sW : fields; sC : fields; sLp : R; sLm : R; sDW : fields; sNorm : R }.
(** A trial: wFieldsNew_, cFieldsNew_, dWNew_, dWNormNew_ and the lambdas *)
Record trial := mkTrial { tW : fields; tC : fields; tDW : fields; tNorm : R; tLp : R; tLm : R }.

(** Lines 201-203: the full step *)
Definition fullStep (canonical : bool) (s : state) : trial :=
  let w := updateW canonical (sW s) (sDW s) in
  let c := mix w in
  let '(d, n) := computeDW (sLp s) (sLm s) w c in
  mkTrial w c d n (sLp s) (sLm s).
(** Lines 206-224: the loop that decreases the increment, at most k more times *)
Fixpoint decrease (canonical : bool) (k : nat) (s : state) (t : trial) : trial :=
  match k with
  | O => t
  | S k' =>
    if Rlt_dec (sNorm s) (tNorm t) then
      let lp := tLp t * (1/2) in
      let lm := tLm t * (1/2) in
      let '(d, n) := computeDW lp lm (sW s) (sC s) in
      let w := updateW canonical (sW s) d in
      decrease canonical k' s (mkTrial w (mix w) d n lp lm)
    else t
  end.
(** Lines 177-244: the iterative loop; true: return 0, false: return 1 *)
Fixpoint iterate (canonical : bool) (epsilon : R) (maxItr : nat) (s : state) : bool * state :=
  match maxItr with
  | O => (false, s)
  | S m =>
    if Rlt_dec (sNorm s) epsilon then (true, s)
    else
      let t := decrease canonical 3 s (fullStep canonical s) in
      if Rlt_dec (tNorm t) (sNorm s) then
        iterate canonical epsilon m (mkState (tW t) (tC t) (tLp t) (tLm t) (tDW t) (tNorm t))
      else (false, mkState (sW s) (sC s) (tLp t) (tLm t) (sDW s) (sNorm s))
  end.
(** Lines 147-157: isCanonical_ *)
Fixpoint canonicalOf (l : list ensemble) : outcome bool :=
  match l with
  | [] => Ok true
  | e :: r =>
    check (match e with Unknown => false | _ => true end) ;;
    b <- canonicalOf r ;; Ok (match e with Open => false | _ => b end)
  end.
(** solve, lines 134-246: [ens] are the ensembles of the polymers *)
Definition start (canonical : bool) (lp lm : R) (w0 : fields) : state :=
  let w := shiftLast canonical w0 in
  let c := mix w in
  let '(d, n) := computeDW lp lm w c in
  mkState w c lp lm d n.
Definition solve (ens : list ensemble) (epsilon : R) (maxItr : nat) (lp lm : R) (w0 : fields) : outcome (bool * state) :=
  canonical <- canonicalOf ens ;;
  Ok (iterate canonical epsilon maxItr (start canonical lp lm w0)).
End Iterator.
