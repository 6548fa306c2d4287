(** Model of the parameters of linear sweeps and ramps:
    src/rpc/scft/sweep/LinearSweep.tpp and SweepParameter.tpp (rpg and r1d have
    the same code, without Cell_Param in r1d), src/rpc/fts/ramp/LinearRamp.tpp
    and RampParameter.tpp, src/prdc/solvers/MixtureModifierPrdc.tpp, with the
    setters of pscf/chem and pscf/inter that they call.

    The system is the collection of its parameter values, each under a key.
    Left out: all data derived from them (inverse of chi, number of contour
    steps, basis vectors, stress, flags that clear cached data), and the log.
    Types of tokens are those of ParamIo.v. *)
From Coq Require Import Reals List Arith Bool ZArith SpecFloat String.
From Verif Require Import Base RSum ParamIo Sweep.
Import ListNotations.

(** Numbers: the reals or IEEE doubles. *)
Record pnum := mkPnum { pT : Type; padd : pT -> pT -> pT; pmul : pT -> pT -> pT; ple : pT -> pT -> bool; plt : pT -> pT -> bool;
  p0 : pT; p1 : pT; peps : pT (* 0.000001 *); popp : pT -> pT }.
Arguments padd {_}. Arguments pmul {_}. Arguments ple {_}. Arguments plt {_}. Arguments p0 {_}. Arguments p1 {_}.
Arguments peps {_}. Arguments popp {_}.
Definition PR : pnum := mkPnum R Rplus Rmult (fun x y => if Rle_dec x y then true else false) (fun x y => if Rlt_dec x y then true else false)
  0%R 1%R (1 / 1000000)%R Ropp.
Definition PF : pnum := mkPnum spec_float (SFadd 53 1024) (SFmul 53 1024) SFleb SFltb
  (sfOf 0) (sfOf 1) (SFdiv 53 1024 (sfOf 1) (sfOf 1000000)) SFopp.

(** The values: chi_(i,j); kuhn of monomer i; kuhn of block j of polymer i;
    length of that block; phi and mu of polymer i and of solvent i; size of
    solvent i; lattice parameter i; lambda of the perturbation; vMonomer; value
    of a specialized parameter. *)
Inductive key := KChi (i j : nat) | KKuhn (i : nat) | KBlockKuhn (i j : nat) | KLength (i j : nat)
  | KPhiP (i : nat) | KMuP (i : nat) | KPhiS (i : nat) | KMuS (i : nat) | KSize (i : nat) | KCell (i : nat)
  | KLambda | KVmonomer | KSpecial (i : nat) (ids : list Z).
Definition key_eq (a b : key) : {a = b} + {a <> b}.
Proof. repeat decide equality. Defined.

(** What does not change. *)
Record shape := mkShape {
  nMon : nat; nPol : nat; nSol : nat; nBlk : nat -> nat; blkMon : nat -> nat -> nat;
  closedP : nat -> bool; closedS : nat -> bool; nCellPar : nat; isThread : bool; hasPert : bool }.

Section Path.
Context {N : pnum}.
Definition vals := key -> pT N.
Definition put (k : key) (x : pT N) (v : vals) : vals := fun k' => if key_eq k' k then x else v k'.

(** An entry of parameters_: type_, id_, change_ (param of ParamIo.v). *)
Record lin := mkLin { lType : ptype; lIds : list Z; lChange : pT N }.
(** id(i): SweepParameter.h 201-205; id_ has nId_ elements. *)
Definition lid (p : lin) (i : nat) : outcome Z := match nth_error (lIds p) i with Some z => Ok z | None => Throw end.

(** monomer(id), polymer(id), solvent(id): MixtureBase.h 204-217, MixtureTmpl.h
    154-179: the upper bound is checked, the lower one is not. *)
Definition upTo (n : nat) (z : Z) : outcome nat :=
  check (z <? Z.of_nat n)%Z ;; if (z <? 0)%Z then UB else Ok (Z.to_nat z).
(** chi_(i,j), blocks_[id], parameters_[i]: not checked. *)
Definition within (n : nat) (z : Z) : outcome nat :=
  if ((0 <=? z) && (z <? Z.of_nat n))%Z then Ok (Z.to_nat z) else UB.

(** Which value a parameter names: the common part of get_ and set_. *)
Definition target (sh : shape) (p : lin) : outcome key :=
  match lType p with
  | Chi => a <- lid p 0 ;; b <- lid p 1 ;; i <- within (nMon sh) a ;; j <- within (nMon sh) b ;; Ok (KChi i j)
  | Kuhn => a <- lid p 0 ;; i <- upTo (nMon sh) a ;; Ok (KKuhn i)
  | Phi_Polymer => a <- lid p 0 ;; i <- upTo (nPol sh) a ;; Ok (KPhiP i)
  | Mu_Polymer => a <- lid p 0 ;; i <- upTo (nPol sh) a ;; Ok (KMuP i)
  | Block => a <- lid p 0 ;; b <- lid p 1 ;; i <- upTo (nPol sh) a ;; j <- within (nBlk sh i) b ;; Ok (KLength i j)
  | Phi_Solvent => a <- lid p 0 ;; i <- upTo (nSol sh) a ;; Ok (KPhiS i)
  | Mu_Solvent => a <- lid p 0 ;; i <- upTo (nSol sh) a ;; Ok (KMuS i)
  | Solvent => a <- lid p 0 ;; i <- upTo (nSol sh) a ;; Ok (KSize i)
  | Cell_Param => a <- lid p 0 ;; i <- within (nCellPar sh) a ;; Ok (KCell i)
  | Lambda_Pert => check (hasPert sh) ;; Ok KLambda
  | Vmonomer => Ok KVmonomer
  | Special n => Ok (KSpecial n (lIds p))
  | PNull => Throw
  end.
(** get_: SweepParameter.tpp 190-219, RampParameter.tpp 184-214.  Edge::length
    (Edge.h 311-315) checks the polymer model.  ParameterModifier::getParameter
    of a specialized parameter is taken to read a value of its own. *)
Definition getPar (sh : shape) (v : vals) (p : lin) : outcome (pT N) :=
  k <- target sh p ;;
  match k with KLength _ _ => check (isThread sh) ;; Ok (v k) | _ => Ok (v k) end.

(** Species.cpp 43-58. *)
Definition setPhi (closed : bool) (k : key) (x : pT N) (v : vals) : outcome vals :=
  check closed ;; check (ple p0 x) ;; check (ple x p1) ;; Ok (put k x v).
Definition setMu (closed : bool) (k : key) (x : pT N) (v : vals) : outcome vals :=
  check (negb closed) ;; Ok (put k x v).
(** MixturePrdc.tpp 275-291: setKuhn. *)
Definition setKuhn (sh : shape) (m : nat) (x : pT N) (v : vals) : vals :=
  fold_left (fun v i => fold_left (fun v j => if (m =? blkMon sh i j)%nat then put (KBlockKuhn i j) x v else v)
                                  (seq 0 (nBlk sh i)) v)
            (seq 0 (nPol sh)) (put (KKuhn m) x v).
(** Interaction.cpp 78-87: setChi. *)
Definition setChi (i j : nat) (x : pT N) (v : vals) : vals :=
  let v := put (KChi i j) x v in if (i =? j)%nat then v else put (KChi j i) x v.
(** set_: SweepParameter.tpp 221-260, RampParameter.tpp 216-257,
    MixtureModifierPrdc.tpp 44-105, Edge.cpp 68-72, SolventSpecies.cpp 48-49,
    MixtureBase.cpp 33-37.  The lattice parameters are copied, one is changed
    and the copy is stored (UnitCellBase.tpp 43-52); a ramp checks the upper
    bound of the index here, after get_ has used it without a check. *)
Definition setPar (sh : shape) (p : lin) (x : pT N) (v : vals) : outcome vals :=
  k <- target sh p ;;
  match k with
  | KChi i j => Ok (setChi i j x v)
  | KKuhn i => Ok (setKuhn sh i x v)
  | KPhiP i => setPhi (closedP sh i) k x v
  | KMuP i => setMu (closedP sh i) k x v
  | KPhiS i => setPhi (closedS sh i) k x v
  | KMuS i => setMu (closedS sh i) k x v
  | KLength _ _ => check (isThread sh) ;; Ok (put k x v)
  | KVmonomer => check (plt p0 x) ;; Ok (put k x v)
  | _ => Ok (put k x v)
  end.

(** LinearSweep.tpp 24-55 and LinearRamp.tpp 30-52, after the parameters have
    been read: the check of the changes of the volume fractions. *)
Definition isPhi (p : lin) : bool := match lType p with Phi_Polymer | Phi_Solvent => true | _ => false end.
Definition phiSum (ps : list lin) : pT N := fold_left (fun s p => if isPhi p then padd s (lChange p) else s) ps p0.
Definition checkChanges (ps : list lin) : outcome unit :=
  check (plt (popp peps) (phiSum ps)) ;; check (plt (phiSum ps) peps) ;; Ok tt.
(** LinearSweep.tpp 57-71, LinearRamp.tpp 54-64: setup, the initial values. *)
Fixpoint setupPath (sh : shape) (v : vals) (ps : list lin) : outcome (list (lin * pT N)) :=
  match ps with
  | [] => Ok []
  | p :: r => x <- getPar sh v p ;; l <- setupPath sh v r ;; Ok ((p, x) :: l)
  end.
(** LinearSweep.tpp 73-82, LinearRamp.tpp 66-84: setParameters. *)
Fixpoint setParameters (sh : shape) (s : pT N) (l : list (lin * pT N)) (v : vals) : outcome vals :=
  match l with
  | [] => Ok v
  | (p, x) :: r => v' <- setPar sh p (padd x (pmul s (lChange p))) v ;; setParameters sh s r v'
  end.
End Path.
Arguments lin : clear implicits. Arguments vals : clear implicits.

(** LinearRamp.tpp 70: double(iStep)/double(nStep_); without steps it is no
    number (UB here). *)
Definition rampParameters (sh : shape) (iStep nStep : Z) (l : list (lin PR * R)) (v : vals PR) : outcome (vals PR) :=
  if (nStep =? 0)%Z then UB else setParameters sh (IZR iStep / IZR nStep : pT PR)%R l v.
