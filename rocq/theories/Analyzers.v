(** The schedule on which simulations call their analyzers.
    Models /repo/src/rpc/fts/analyzer/Analyzer.tpp, AnalyzerManager.tpp,
    rpc/fts/montecarlo/McSimulator.tpp and rpc/fts/brownian/BdSimulator.tpp.
    Simplifications: moves and steps are represented by their result (converged or
    not, see Fts.v); an analyzer's sample is the event (index of the analyzer, step) of
    an analyzer that passes its isAtInterval test; counters do not overflow. *)
From Coq Require Import List Arith Bool ZArith.
From Verif Require Import Base.
Import ListNotations.

(** Analyzer.tpp 56-81, readInterval: the interval, if given in the file. *)
Definition readInterval (base : Z) (given : option Z) : outcome Z :=
  check (negb (base =? 0)%Z) ;;
  check (negb (base <? 0)%Z) ;;
  let iv := match given with None => 1%Z | Some z => z end in
  check (negb (iv =? 0)%Z) ;;
  check (negb (iv <? 0)%Z) ;;
  check (Z.rem iv base =? 0)%Z ;;
  Ok iv.
Fixpoint readIntervals (base : Z) (l : list (option Z)) : outcome (list Z) :=
  match l with
  | [] => Ok []
  | g :: r => i <- readInterval base g ;; q <- readIntervals base r ;; Ok (i :: q)
  end.
(** The AnalyzerManager block: the optional baseInterval and the analyzers.
    AnalyzerManager.tpp 40-46 with McSimulator.tpp 87-89 (BdSimulator.tpp 101-103):
    baseInterval is 0 without a block. *)
Definition block := (option Z * list (option Z))%type.
Definition readManager (b : option block) : outcome (Z * list Z) :=
  match b with
  | None => Ok (0%Z, [])
  | Some (given, l) =>
    let base := match given with None => 1%Z | Some z => z end in
    ivs <- readIntervals base l ;; Ok (base, ivs)
  end.

(** Analyzer.h 186-191: isAtInterval; every analyzer's sample returns at once when it
    is false (AverageAnalyzer.tpp 80, StepLogger.tpp 42 and others).  A remainder by
    zero is undefined; intervals are positive after reading. *)
Fixpoint sampleAll (ivs : list Z) (i : nat) (iStep : nat) : list (nat * nat) :=
  match ivs with
  | [] => []
  | iv :: r => (if (Z.rem (Z.of_nat iStep) iv =? 0)%Z then [(i, iStep)] else []) ++ sampleAll r (S i) iStep
  end.
(** AnalyzerManager.tpp 63-71: sample. *)
Definition sample (base : Z) (ivs : list Z) (iStep : nat) : outcome (list (nat * nat)) :=
  check (0 <? base)%Z ;;
  check (Z.rem (Z.of_nat iStep) base =? 0)%Z ;;
  Ok (sampleAll ivs 0 iStep).

(** McSimulator.tpp 194-202, in the loop. *)
Definition mcSample (base : Z) (ivs : list Z) (iStep : nat) : outcome (list (nat * nat)) :=
  if negb (base =? 0)%Z then
    if (Z.rem (Z.of_nat iStep) base =? 0)%Z then
      if (0 <? length ivs)%nat then sample base ivs iStep else Ok []
    else Ok []
  else Ok [].
(** BdSimulator.tpp 205-213. *)
Definition bdSample (base : Z) (ivs : list Z) (iStep : nat) : outcome (list (nat * nat)) :=
  if negb (base =? 0)%Z then
    if (0 <? length ivs)%nat then
      if (Z.rem (Z.of_nat iStep) base =? 0)%Z then sample base ivs iStep else Ok []
    else Ok []
  else Ok [].
(** The main loops, McSimulator.tpp 180-209 and BdSimulator.tpp 192-221, for the list
    of results of the moves; the samples taken and the final iStep_. *)
Fixpoint loop (smp : nat -> outcome (list (nat * nat))) (conv : list bool) (iStep : nat) : outcome (list (nat * nat) * nat) :=
  match conv with
  | [] => Ok ([], iStep)
  | true :: r => a <- smp (S iStep) ;; q <- loop smp r (S iStep) ;; Ok (a ++ fst q, snd q)
  | false :: r => loop smp r iStep
  end.
(** McSimulator.tpp 156-209: simulate; the initial sample (176-178). *)
Definition mcRun (base : Z) (ivs : list Z) (conv : list bool) : outcome (list (nat * nat) * nat) :=
  a <- sample base ivs 0 ;;
  q <- loop (mcSample base ivs) conv 0 ;; Ok (a ++ fst q, snd q).
(** BdSimulator.tpp 167-221: simulate; the initial sample (186-190). *)
Definition bdRun (base : Z) (ivs : list Z) (conv : list bool) : outcome (list (nat * nat) * nat) :=
  a <- (if (0 <? length ivs)%nat then sample base ivs 0 else Ok []) ;;
  q <- loop (bdSample base ivs) conv 0 ;; Ok (a ++ fst q, snd q).

(** McSimulator.tpp 281-326 and BdSimulator.tpp 266-312: analyze, for a trajectory of
    [frames] remaining frames.  The loop is left when a frame cannot be read or iStep_
    exceeds max. *)
Fixpoint analyzeLoop (base : Z) (ivs : list Z) (min max : Z) (frames : nat) (iStep : nat) : outcome (list (nat * nat)) :=
  match frames with
  | O => Ok []
  | S f =>
    if (Z.of_nat iStep <=? max)%Z then
      a <- (if (min <=? Z.of_nat iStep)%Z then sample base ivs iStep else Ok []) ;;
      q <- analyzeLoop base ivs min max f (S iStep) ;; Ok (a ++ q)
    else Ok []
  end.
Definition analyze (base : Z) (ivs : list Z) (min max : Z) (frames : nat) : outcome (list (nat * nat)) :=
  check (0 <=? min)%Z ;;
  check (min <=? max)%Z ;;
  check (0 <? base)%Z ;;
  check (0 <? length ivs)%nat ;;
  analyzeLoop base ivs min max frames 0.
