(* The state of a SystemTmpl object, its observers and its main operations.

   Modelled: src/prdc/system/SystemTmpl.tpp (constructor observers, compute,
   computeStress, iterate, simulate, clearCFields, setUnitCell,
   clearUnitCellData, allocateFieldsBasis), the caching logic of
   src/prdc/solvers/MixturePrdc.tpp, src/rpc/solvers/Block.tpp,
   src/prdc/cpu/WaveList.tpp, src/prdc/system/ScftThermoTmpl.tpp and
   src/prdc/environment/Environment.cpp.

   Simplifications: the numerical content is represented by uninterpreted
   functions of exactly the data that the code reads (ksqOf, dksqOf, expOf,
   propOf, cOf, stressOf, thermoOf, phiOf); the model parameters are split
   into those that enter the exponential factors of the pseudo-spectral
   solver (Kuhn lengths, block lengths: type PK) and all others (volume
   fractions, chemical potentials, solvent sizes, chi: type PO); what a field
   generator of an Environment writes is arbitrary data attached to the
   operation; the wave vectors of the WaveList are a function of the unit
   cell (cached minimum images are not modelled); iterators, sweeps and
   simulations are arbitrary sequences of the operations below. *)
From Coq Require Import List Arith Bool Lia.
From Verif Require Import FieldStore.
Import ListNotations.
Set Implicit Arguments.

Section System.

Variable A : Type.
Variable junk : A.
Variables toR toB : list A -> list A.
Variables Cell PK PO KS DK EX PR ST TH Phi : Type.

Notation store := (store A).

(* What can be observed of a field container: nothing without data, else
   the grid values and, when reported as symmetric, the basis components. *)
Definition view : Type := option (list (list A) * option (list (list A))).
Definition viewOf (s : store) : view :=
  if sHasData s
  then Some (sRGrid s, if sIsSym s then Some (sBasis s) else None)
  else None.

Variable phiOf : view -> Phi.      (* MaskTmpl::phiTot, MaskTmpl.tpp:317-329 *)
Variable ksqOf : Cell -> KS.       (* WaveList::computeKSq *)
Variable dksqOf : Cell -> DK.      (* WaveList::computedKSq *)
Variable expOf : KS -> PK -> EX.   (* Block::computeExpKsq *)
(* propagators and partition functions of all species, from the w fields,
   mask volume fraction, exponential factors and parameters *)
Variable propOf : list (list A) -> Phi -> EX -> PK -> PO -> PR.
(* monomer concentrations, from the propagators (Polymer::compute) *)
Variable cOf : PR -> PK -> PO -> list (list A).
(* stress, from propagators and derivatives of k^2 (Polymer::computeStress) *)
Variable stressOf : PR -> DK -> PK -> PO -> Phi -> ST.
(* free energy and pressure (ScftThermoTmpl::compute) from the w, h, mask
   fields, the c fields (grid and basis) and the parameters *)
Variable thermoOf : view -> view -> view ->
  list (list A) -> list (list A) -> PK -> PO -> TH.

(* Data that depend on the unit cell or on earlier calculations:
   WaveList::kSq_/dKSq_ with hasKSq_/hasdKSq_, Block::expKsq_ with
   hasExpKsq_, the propagators, and MixturePrdc::stress_ with hasStress_. *)
Record cache : Type := mkCache {
  kKsq : option KS; kDksq : option DK; kExp : option EX;
  kProp : option PR; kStress : option ST }.

(* CFieldsTmpl: concentration fields. *)
Record cfield : Type := mkCF {
  cR : list (list A); cB : list (list A);
  cHas : bool; cSym : bool; cAllocB : bool }.

Record sys : Type := mkSys {
  yW : store; yH : store; yM : store;      (* w_, h_, mask_ *)
  yMesh : nat;                             (* mesh size *)
  yGroup : option nat;                     (* space group: number of basis
                                              functions that it leads to *)
  yBasis : option nat;                     (* domain().basis() *)
  yCell : option Cell;                     (* domain().unitCell() *)
  yAllocG : bool; yAllocB : bool;          (* isAllocatedGrid_/Basis_ *)
  yPK : PK; yPO : PO;
  yK : cache;
  yC : cfield;
  yTh : option TH;                         (* scft(), with hasData_ *)
  yEnv : option (bool * bool);             (* generatesMask, ...External *)
  yUpd : bool;                             (* environment needsUpdate_ *)
  yES : bool;                              (* environment hasStress_ *)
  yIter : bool;                            (* hasIterator() *)
  yIterSym : bool                          (* iterator().isSymmetric() *)
}.

Definition setW (w : store) (y : sys) : sys :=
  mkSys w (yH y) (yM y) (yMesh y) (yGroup y) (yBasis y) (yCell y) (yAllocG y)
    (yAllocB y) (yPK y) (yPO y) (yK y) (yC y) (yTh y) (yEnv y) (yUpd y) (yES y)
    (yIter y) (yIterSym y).
Definition setH (h : store) (y : sys) : sys :=
  mkSys (yW y) h (yM y) (yMesh y) (yGroup y) (yBasis y) (yCell y) (yAllocG y)
    (yAllocB y) (yPK y) (yPO y) (yK y) (yC y) (yTh y) (yEnv y) (yUpd y) (yES y)
    (yIter y) (yIterSym y).
Definition setM (m : store) (y : sys) : sys :=
  mkSys (yW y) (yH y) m (yMesh y) (yGroup y) (yBasis y) (yCell y) (yAllocG y)
    (yAllocB y) (yPK y) (yPO y) (yK y) (yC y) (yTh y) (yEnv y) (yUpd y) (yES y)
    (yIter y) (yIterSym y).
Definition putBasis (b : option nat) (y : sys) : sys :=
  mkSys (yW y) (yH y) (yM y) (yMesh y) (yGroup y) b (yCell y) (yAllocG y)
    (yAllocB y) (yPK y) (yPO y) (yK y) (yC y) (yTh y) (yEnv y) (yUpd y) (yES y)
    (yIter y) (yIterSym y).
Definition putCell (c : Cell) (y : sys) : sys :=
  mkSys (yW y) (yH y) (yM y) (yMesh y) (yGroup y) (yBasis y) (Some c) (yAllocG y)
    (yAllocB y) (yPK y) (yPO y) (yK y) (yC y) (yTh y) (yEnv y) (yUpd y) (yES y)
    (yIter y) (yIterSym y).
Definition putAllocB (b : bool) (y : sys) : sys :=
  mkSys (yW y) (yH y) (yM y) (yMesh y) (yGroup y) (yBasis y) (yCell y) (yAllocG y)
    b (yPK y) (yPO y) (yK y) (yC y) (yTh y) (yEnv y) (yUpd y) (yES y)
    (yIter y) (yIterSym y).
Definition putPar (pk : PK) (po : PO) (y : sys) : sys :=
  mkSys (yW y) (yH y) (yM y) (yMesh y) (yGroup y) (yBasis y) (yCell y) (yAllocG y)
    (yAllocB y) pk po (yK y) (yC y) (yTh y) (yEnv y) (yUpd y) (yES y)
    (yIter y) (yIterSym y).
Definition setK (k : cache) (y : sys) : sys :=
  mkSys (yW y) (yH y) (yM y) (yMesh y) (yGroup y) (yBasis y) (yCell y) (yAllocG y)
    (yAllocB y) (yPK y) (yPO y) k (yC y) (yTh y) (yEnv y) (yUpd y) (yES y)
    (yIter y) (yIterSym y).
Definition setCF (c : cfield) (y : sys) : sys :=
  mkSys (yW y) (yH y) (yM y) (yMesh y) (yGroup y) (yBasis y) (yCell y) (yAllocG y)
    (yAllocB y) (yPK y) (yPO y) (yK y) c (yTh y) (yEnv y) (yUpd y) (yES y)
    (yIter y) (yIterSym y).
Definition setTh (t : option TH) (y : sys) : sys :=
  mkSys (yW y) (yH y) (yM y) (yMesh y) (yGroup y) (yBasis y) (yCell y) (yAllocG y)
    (yAllocB y) (yPK y) (yPO y) (yK y) (yC y) t (yEnv y) (yUpd y) (yES y)
    (yIter y) (yIterSym y).
Definition setEnv (u s : bool) (y : sys) : sys :=
  mkSys (yW y) (yH y) (yM y) (yMesh y) (yGroup y) (yBasis y) (yCell y) (yAllocG y)
    (yAllocB y) (yPK y) (yPO y) (yK y) (yC y) (yTh y) (yEnv y) u s
    (yIter y) (yIterSym y).

(* The FieldIo context seen by the containers. *)
Definition ctxOf (y : sys) : fctx := mkCtx (yMesh y) (yBasis y).

(* SystemTmpl::clearCFields, SystemTmpl.tpp:938-942, with
   CFieldsTmpl::setHasData, CFieldsTmpl.tpp:186-192 *)
Definition clearCFields (y : sys) : sys :=
  setTh None
    (setCF (mkCF (cR (yC y)) (cB (yC y)) false false (cAllocB (yC y))) y).

(* Environment::reset, Environment.cpp:25-31 *)
Definition envReset (y : sys) : sys :=
  match yEnv y with Some _ => setEnv true false y | None => y end.

(* SystemTmpl::clearUnitCellData, SystemTmpl.tpp:1012-1020, with
   MixturePrdc::clearUnitCellData (MixturePrdc.tpp:297-306),
   Block::clearUnitCellData (Block.tpp:195-199) and
   WaveList::clearUnitCellData (WaveList.tpp:103-110) *)
Definition clearUnitCellData (y : sys) : sys :=
  let y := clearCFields y in
  let y := setK (mkCache None None None (kProp (yK y)) None) y in
  envReset y.

(* An operation of a container owned by the system, followed by the
   observers of its signal (SystemTmpl.tpp:130-138): clearCFields is invoked
   if the container notified. *)
Definition notified (s s' : store) (y : sys) : sys :=
  if sNote s =? sNote s' then y else clearCFields y.

Definition onW (f : store -> res store) (y : sys) : res sys :=
  match f (yW y) with
  | Done s => Done (notified (yW y) s (setW s y))
  | Raise s => Raise (notified (yW y) s (setW s y))
  | Undef => Undef
  end.
Definition onH (f : store -> res store) (y : sys) : res sys :=
  match f (yH y) with
  | Done s => Done (notified (yH y) s (setH s y))
  | Raise s => Raise (notified (yH y) s (setH s y))
  | Undef => Undef
  end.
Definition onM (f : store -> res store) (y : sys) : res sys :=
  match f (yM y) with
  | Done s => Done (notified (yM y) s (setM s y))
  | Raise s => Raise (notified (yM y) s (setM s y))
  | Undef => Undef
  end.

(* Allocation of the basis array of c, CFieldsTmpl.tpp:95-107 *)
Definition cAllocateBasis (y : sys) : res sys :=
  chk (negb (cAllocB (yC y))) y >>> fun y =>
  Done (setCF (mkCF (cR (yC y)) (cB (yC y)) (cHas (yC y)) (cSym (yC y)) true) y).

(* SystemTmpl::allocateFieldsBasis, SystemTmpl.tpp:1119-1149, the observer
   of the signal of the basis *)
Definition allocateFieldsBasis (nb : nat) (y : sys) : res sys :=
  chk (0 <? nb) y >>>
  chk (yAllocG y) >>> fun y =>
  chk (negb (yAllocB y)) y >>>
  onW (allocateBasis junk nb) >>>
  cAllocateBasis >>> fun y =>
  (match yEnv y with
   | None => Done y
   | Some (gm, gh) =>
       (if gm then onM (mAllocateBasis junk nb) y else Done y) >>> fun y =>
       (if gh then onH (allocateBasis junk nb) y else Done y)
   end) >>> fun y =>
  Done (putAllocB true y).

(* Construction of the basis if there is a group and no basis, with the
   observer of the basis signal: DomainTmpl.tpp:187-199 (makeBasis),
   FieldIoTmpl.tpp:1082-1086 *)
Definition makeBasisIfNeeded (y : sys) : res sys :=
  match yGroup y, yBasis y with
  | Some nb, None => allocateFieldsBasis nb (putBasis (Some nb) y)
  | _, _ => Done y
  end.

(* Modification of the unit cell, with the observer of its signal
   (SystemTmpl.tpp:122-124) *)
Definition assignCell (c : Cell) (y : sys) : sys := clearUnitCellData (putCell c y).

(* SystemTmpl::setUnitCell, SystemTmpl.tpp:950-976, 982-1006 *)
Definition setUnitCell (c : Cell) (y : sys) : res sys :=
  makeBasisIfNeeded (assignCell c y) >>> fun y =>
  (match yGroup y with
   | Some _ => chk (match yBasis y with Some _ => true | None => false end) y >>>
               fun y => chk (yAllocB y) y
   | None => Done y
   end) >>> fun y =>
  chk (match kKsq (yK y) with None => true | Some _ => false end) y.

(* Header of a field file read by the w container: the unit cell of the
   domain is set (SystemTmpl.tpp:88) and the basis made if needed. *)
Definition headerW (c : Cell) (y : sys) : res sys :=
  makeBasisIfNeeded (assignCell c y).
(* Header of a field file read by h or the mask: the unit cell goes to
   tmpUnitCell (SystemTmpl.tpp:91,94). *)
Definition headerX (y : sys) : res sys := makeBasisIfNeeded y.

Definition isRead (k : call A) : bool :=
  match k with CReadBasis _ | CReadRGrid _ _ => true | _ => false end.

Definition wCall (c : Cell) (k : call A) (y : sys) : res sys :=
  (if isRead k then headerW c y else Done y) >>> fun y =>
  onW (runCall junk toR toB (ctxOf y) k) y.
Definition hCall (k : call A) (y : sys) : res sys :=
  (if isRead k then headerX y else Done y) >>> fun y =>
  onH (runCall junk toR toB (ctxOf y) k) y.
Definition mCall (k : call A) (y : sys) : res sys :=
  (if isRead k then headerX y else Done y) >>> fun y =>
  onM (runMaskCall junk toR toB (ctxOf y) k) y.

(* WFieldsTmpl::clear, WFieldsTmpl.h:544-545: hasData_ only, no signal *)
Definition clearStore (s : store) : res store :=
  Done (mkStore (sNMon s) (sMeshSize s) (sNBasis s) (sRGrid s) (sBasis s)
          (sAllocR s) (sAllocB s) false (sIsSym s) (sNote s)).

(* What the generators of an Environment write when asked to generate. *)
Record gen : Type := mkGen {
  gMask : option (list A * bool);
  gExt : option (list (list A) * bool) }.

(* environment().generate() if needed: SystemTmpl.tpp:808-812,
   MixAndMatchEnvTmpl.tpp:120-128, FilmFieldGenMask.tpp:263,
   FilmFieldGenExt.tpp:229 *)
Definition envUpdate (g : gen) (y : sys) : res sys :=
  match yEnv y with
  | None => Done y
  | Some _ =>
      if yUpd y then
        (match gMask g with
         | None => Done y
         | Some (f, sym) => onM (mSetRGrid junk toB (ctxOf y) f sym) y
         end) >>> fun y =>
        (match gExt g with
         | None => Done y
         | Some (fs, sym) => onH (setRGrid junk toB (ctxOf y) fs sym) y
         end) >>> fun y =>
        Done (setEnv false (yES y) y)
      else Done y
  end.

(* The k^2 values used by a block, computed if absent (WaveList.tpp:143-169) *)
Definition needKsq (y : sys) : res sys :=
  match kKsq (yK y) with
  | Some _ => Done y
  | None => match yCell y with
            | None => Raise y
            | Some c => Done (setK (mkCache (Some (ksqOf c)) (kDksq (yK y))
                              (kExp (yK y)) (kProp (yK y)) (kStress (yK y))) y)
            end
  end.

(* Block::setupSolver / computeExpKsq, Block.tpp:205-234, 266-269 *)
Definition needExp (y : sys) : res sys :=
  match kExp (yK y) with
  | Some _ => Done y
  | None => needKsq y >>> fun y =>
            match kKsq (yK y) with
            | None => Undef
            | Some ks => Done (setK (mkCache (kKsq (yK y)) (kDksq (yK y))
                          (Some (expOf ks (yPK y))) (kProp (yK y))
                          (kStress (yK y))) y)
            end
  end.

(* MixturePrdc::compute, MixturePrdc.tpp:152-217 *)
Definition mixCompute (y : sys) : res sys :=
  needExp y >>> fun y =>
  match kExp (yK y) with
  | None => Undef
  | Some e =>
      let p := propOf (sRGrid (yW y)) (phiOf (viewOf (yM y))) e (yPK y) (yPO y) in
      let y := setK (mkCache (kKsq (yK y)) (kDksq (yK y)) (kExp (yK y)) (Some p)
                       None) y in
      Done (setCF (mkCF (cOf p (yPK y) (yPO y)) (cB (yC y)) (cHas (yC y))
                        (cSym (yC y)) (cAllocB (yC y))) y)
  end.

(* The dKSq_ values, computed if absent (WaveList.tpp:175-206) *)
Definition needDksq (y : sys) : res sys :=
  match kDksq (yK y) with
  | Some _ => Done y
  | None => match yCell y with
            | None => Raise y
            | Some c => Done (setK (mkCache (kKsq (yK y)) (Some (dksqOf c))
                              (kExp (yK y)) (kProp (yK y)) (kStress (yK y))) y)
            end
  end.

(* SystemTmpl::computeStress, SystemTmpl.tpp:837-850, with
   MixturePrdc::computeStress (MixturePrdc.tpp:230-268).  Without earlier
   propagators the thread model reads uninitialized memory
   (Block.tpp:537-575).  The environment part dereferences the iterator. *)
Definition computeStress (y : sys) : res sys :=
  (match kStress (yK y) with
   | Some _ => Done y
   | None =>
       needDksq y >>> fun y =>
       match kDksq (yK y), kProp (yK y) with
       | Some d, Some p =>
           Done (setK (mkCache (kKsq (yK y)) (kDksq (yK y)) (kExp (yK y))
                   (kProp (yK y))
                   (Some (stressOf p d (yPK y) (yPO y) (phiOf (viewOf (yM y))))))
                   y)
       | _, _ => Undef
       end
   end) >>> fun y =>
  match yEnv y with
  | None => Done y
  | Some _ => if yES y then Done y
              else if yIter y then Done (setEnv (yUpd y) true y) else Undef
  end.

(* SystemTmpl::compute, SystemTmpl.tpp:798-832 *)
Definition compute (needStress : bool) (g : gen) (y : sys) : res sys :=
  chk (yAllocG y) y >>> fun y =>
  chk (sAllocR (yW y)) y >>> fun y =>
  chk (sHasData (yW y)) y >>> fun y =>
  envUpdate g (clearCFields y) >>>
  mixCompute >>> fun y =>
  let y := setTh None
             (setCF (mkCF (cR (yC y)) (cB (yC y)) true (cSym (yC y))
                          (cAllocB (yC y))) y) in
  (if sIsSym (yW y)
   then chk (cAllocB (yC y)) y >>> fun y =>
        Done (setCF (mkCF (cR (yC y)) (map toB (cR (yC y))) (cHas (yC y)) true
                          (cAllocB (yC y))) y)
   else Done y) >>> fun y =>
  if needStress then computeStress y else Done y.

(* ScftThermoTmpl::compute, ScftThermoTmpl.tpp:53-260 *)
Definition thermoCompute (y : sys) : res sys :=
  match yTh y with
  | Some _ => Done y
  | None =>
      chk (sHasData (yW y)) y >>> fun y =>
      chk (cHas (yC y)) y >>> fun y =>
      chk (implb (sIsSym (yW y)) (sAllocB (yW y) && cAllocB (yC y))) y >>> fun y =>
      Done (setTh (Some (thermoOf (viewOf (yW y)) (viewOf (yH y)) (viewOf (yM y))
                    (cR (yC y)) (cB (yC y)) (yPK y) (yPO y))) y)
  end.

(* SystemTmpl::iterate up to the call of iterator().solve,
   SystemTmpl.tpp:856-876 *)
Definition iterBegin (g : gen) (y : sys) : res sys :=
  chk (yIter y) y >>> fun y =>
  chk (sHasData (yW y)) y >>> fun y =>
  chk (implb (yIterSym y) (yAllocB y && sIsSym (yW y))) y >>> fun y =>
  envUpdate g (clearCFields y).

(* ... and after it, SystemTmpl.tpp:880-898 *)
Definition iterEnd (error : bool) (flexible : bool) (y : sys) : res sys :=
  chk (cHas (yC y)) y >>> fun y =>
  if error then Done y
  else thermoCompute y >>> fun y =>
       if flexible then Done y
       else match kStress (yK y) with Some _ => Done y | None => computeStress y end.

(* The operations of a system. *)
Inductive op : Type :=
| OW (c : Cell) (k : call A)
| OH (k : call A)
| OM (k : call A)
| OWSymmetrize
| OHSymmetrize
| OWClear
| OHClear
| OSetCell (c : Cell)
| OSetKuhn (pk : PK)       (* MixturePrdc::setKuhn, MixturePrdc.tpp:276-291 *)
| OSetLength (pk : PK)     (* Block::setLength, Block.tpp:152-179 *)
| OSetOther (po : PO)      (* setPhi, setMu, setSize, setChi *)
| OCompute (needStress : bool) (g : gen)
| OStress
| OThermo
| OIterBegin (g : gen)
| OIterEnd (error flexible : bool)
| OSimBegin                (* SystemTmpl::simulate, SystemTmpl.tpp:925-931 *)
| OEnvParam.               (* MixAndMatchEnvTmpl::setParameter with success *)

Definition step (o : op) (y : sys) : res sys :=
  match o with
  | OW c k => wCall c k y
  | OH k => hCall k y
  | OM k => mCall k y
  | OWSymmetrize => onW (symmetrize toR toB) y
  | OHSymmetrize => onH (symmetrize toR toB) y
  | OWClear => onW clearStore y
  | OHClear => onH clearStore y
  | OSetCell c => setUnitCell c y
  | OSetKuhn pk =>
      Done (setK (mkCache (kKsq (yK y)) (kDksq (yK y)) None (kProp (yK y)) None)
              (putPar pk (yPO y) y))
  | OSetLength pk =>
      Done (setK (mkCache (kKsq (yK y)) (kDksq (yK y)) None (kProp (yK y))
                    (kStress (yK y)))
              (putPar pk (yPO y) y))
  | OSetOther po => Done (putPar (yPK y) po y)
  | OCompute b g => compute b g y
  | OStress => computeStress y
  | OThermo => thermoCompute y
  | OIterBegin g => iterBegin g y
  | OIterEnd e f => iterEnd e f y
  | OSimBegin => Done (clearCFields y)
  | OEnvParam => Done (envReset y)
  end.

(* A sequence of operations, all of which return normally. *)
Fixpoint run (os : list op) (y : sys) : res sys :=
  match os with
  | [] => Done y
  | o :: os' => step o y >>> run os'
  end.

(* A sequence of operations issued by a caller that catches exceptions. *)
Fixpoint runCatch (os : list op) (y : sys) : option sys :=
  match os with
  | [] => Some y
  | o :: os' => match step o y with
                | Done y' | Raise y' => runCatch os' y'
                | Undef => None
                end
  end.

(* State after SystemTmpl::readParameters (SystemTmpl.tpp:283-385): the
   r-grid arrays of w and c are allocated (allocateFieldsGrid), h knows the
   number of monomer types; cell and basis may have been set or not.  grp is
   the number of basis functions of the group, if any. *)
Definition initSys (nMon mesh : nat) (grp : option nat) (pk : PK) (po : PO)
  (env : option (bool * bool)) (iter iterSym : bool) : sys :=
  mkSys (mkStore nMon mesh 0 (repeat (repeat junk mesh) nMon) [] true false
                 false false 0)
        (withNMon nMon (newStore A)) (newMask A) mesh grp None None true false
        pk po (mkCache None None None None None)
        (mkCF (repeat (repeat junk mesh) nMon) [] false false false) None env
        true false iter iterSym.

End System.

Arguments OW {A Cell PK PO}.
Arguments OH {A Cell PK PO}.
Arguments OM {A Cell PK PO}.
Arguments OWSymmetrize {A Cell PK PO}.
Arguments OHSymmetrize {A Cell PK PO}.
Arguments OWClear {A Cell PK PO}.
Arguments OHClear {A Cell PK PO}.
Arguments OSetCell {A Cell PK PO}.
Arguments OSetKuhn {A Cell PK PO}.
Arguments OSetLength {A Cell PK PO}.
Arguments OSetOther {A Cell PK PO}.
Arguments OCompute {A Cell PK PO}.
Arguments OStress {A Cell PK PO}.
Arguments OThermo {A Cell PK PO}.
Arguments OIterBegin {A Cell PK PO}.
Arguments OIterEnd {A Cell PK PO}.
Arguments OSimBegin {A Cell PK PO}.
Arguments OEnvParam {A Cell PK PO}.
