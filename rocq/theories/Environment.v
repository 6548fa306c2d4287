(** Model of the environment classes: pscf/environment/EnvironmentBase.h,
    FieldGeneratorBase.{h,cpp}, MixAndMatchEnvTmpl.tpp,
    prdc/environment/Environment.{h,cpp} and MixAndMatchEnv.cpp.

    Simplifications: a generator (a subclass of FieldGeneratorBase) is a record
    of the virtual functions it overrides; its data members are a value of an
    arbitrary type G, the system it refers to is a value of an arbitrary type W
    and a position in the parameter file is a value of an arbitrary type S
    (so that rewinding with seekg and Label::clear is to use an earlier value).
    addParamComposite, which only matters for writing the parameter file, is
    not modelled. *)
From Coq Require Import Reals String List Bool Arith.
From Verif Require Import Base.
Import ListNotations.
Local Open Scope R_scope.

(** FieldGeneratorBase.h 46: enum Type {Mask, External, None}. *)
Inductive gtype := Mask | External | NoType.
Definition gtype_eqb (a b : gtype) : bool :=
  match a, b with
  | Mask, Mask | External, External | NoType, NoType => true
  | _, _ => false
  end.

(** The members of a subclass of FieldGenerator: type_ and isDependent_ as set
    by its constructor (FieldGeneratorBase.h 124-127), readParameters, and the
    virtual functions needsUpdate, checkCompatibility and compute
    (FieldGeneratorBase.h 66-116), getParameterTypes, setParameter and
    getParameter (ParameterModifier.h 63-136; the option is the flag success),
    stress and modifyStress (prdc/environment/FieldGenerator.h). *)
Record generator (S W G : Type) := mkGenerator {
  gType : gtype;
  gDep : bool;
  gNew : G;
  gRead : W -> S -> G -> outcome (G * S);
  gNeeds : W -> G -> outcome bool;
  gCheck : W -> G -> outcome W;
  gCompute : W -> G -> outcome (G * W);
  gParams : list (string * nat);
  gSet : string -> list nat -> R -> G -> outcome (option G);
  gGet : string -> list nat -> G -> outcome (option R);
  gStress : W -> G -> nat -> outcome R;
  gModify : W -> G -> nat -> R -> outcome R
}.
Arguments gType {S W G} _. Arguments gDep {S W G} _. Arguments gNew {S W G} _.
Arguments gRead {S W G} _. Arguments gNeeds {S W G} _. Arguments gCheck {S W G} _.
Arguments gCompute {S W G} _. Arguments gParams {S W G} _. Arguments gSet {S W G} _.
Arguments gGet {S W G} _. Arguments gStress {S W G} _. Arguments gModify {S W G} _.

Section MixAndMatch.
Variables S W G1 G2 : Type.
Notation gen1 := (generator S W G1).
Notation gen2 := (generator S W G2).

(** EnvironmentBase.h 143-152 (needsUpdate_, generatesMask_,
    generatesExternalFields_, boolsSet_), Environment.h 155-165 (stress_ with
    stressIds_, hasStress_, nParam_) and the objects *fieldGenPtr1_ and
    *fieldGenPtr2_ (None for the null pointer). *)
Record env := mkEnv {
  eNeeds : bool;
  eMask : bool;
  eExt : bool;
  eSet : bool;
  eStress : list (nat * R);
  eHasStress : bool;
  eNParam : nat;
  e1 : option G1;
  e2 : option G2
}.

(** EnvironmentBase.h 159-164, Environment.cpp 14-17, MixAndMatchEnvTmpl.tpp
    18-22: constructors. *)
Definition newEnv : env := mkEnv true false false false [] false 0 None None.

(** EnvironmentBase.h 171-172 and Environment.cpp 24-30: reset(). *)
Definition reset (e : env) : env :=
  mkEnv true (eMask e) (eExt e) (eSet e) [] false (eNParam e) (e1 e) (e2 e).

(** Environment.cpp 75-79: setNParams. *)
Definition setNParams (n : nat) (e : env) : outcome env :=
  check (Nat.eqb (eNParam e) 0) ;;
  Ok (mkEnv (eNeeds e) (eMask e) (eExt e) (eSet e) (eStress e) (eHasStress e) n (e1 e) (e2 e)).

(** EnvironmentBase.h 196-203: setGenerateBools. *)
Definition setGenerateBools (m x : bool) (e : env) : outcome env :=
  check (negb (eSet e)) ;;
  Ok (mkEnv (eNeeds e) m x true (eStress e) (eHasStress e) (eNParam e) (e1 e) (e2 e)).

(** EnvironmentBase.h 187-193: setNeedsUpdateFalse. *)
Definition setNeedsUpdateFalse (e : env) : outcome env :=
  if negb (eSet e) then Throw
  else Ok (mkEnv false (eMask e) (eExt e) (eSet e) (eStress e) (eHasStress e) (eNParam e) (e1 e) (e2 e)).

Definition put1 (g : G1) (e : env) : env :=
  mkEnv (eNeeds e) (eMask e) (eExt e) (eSet e) (eStress e) (eHasStress e) (eNParam e) (Some g) (e2 e).
Definition put2 (g : G2) (e : env) : env :=
  mkEnv (eNeeds e) (eMask e) (eExt e) (eSet e) (eStress e) (eHasStress e) (eNParam e) (e1 e) (Some g).

(** MixAndMatchEnvTmpl.tpp 48-116: readParameters.  The classes of the objects
    that createGenerators (52) assigns to the two pointers are c1 and c2, None
    if it leaves the pointer null. *)
Definition readParameters (c1 : option gen1) (c2 : option gen2) (w : W) (pos : S) (e : env)
  : outcome (env * S) :=
  match c1 with
  | None => Throw                                                   (* 85 *)
  | Some k1 =>
      check (negb (gDep k1)) ;;                                     (* 62 *)
      r1 <- gRead k1 w pos (gNew k1) ;;                             (* 70 *)
      let '(g1, pos1) := r1 in
      b1 <- (if gtype_eqb (gType k1) Mask then Ok (true, false)     (* 72-78 *)
             else if gtype_eqb (gType k1) Mask then Ok (false, true)
             else Throw) ;;
      let '(gm, gx) := b1 in
      match c2 with
      | None => e' <- setGenerateBools gm gx (put1 g1 e) ;; Ok (e', pos1)
      | Some k2 =>
          b2 <- (if gtype_eqb (gType k2) External                   (* 92-100 *)
                 then check (gtype_eqb (gType k1) Mask) ;; Ok (gm, true)
                 else if gtype_eqb (gType k2) Mask
                 then check (gtype_eqb (gType k1) External) ;; Ok (true, gx)
                 else Throw) ;;
          let '(gm, gx) := b2 in
          r2 <- gRead k2 w (if gDep k2 then pos else pos1) (gNew k2) ;;   (* 103-112 *)
          let '(g2, pos2) := r2 in
          e' <- setGenerateBools gm gx (put2 g2 (put1 g1 e)) ;;
          Ok (e', pos2)
      end
  end.

(** FieldGeneratorBase.cpp 24-33: generate() of one generator. *)
Definition genGenerate {G} (k : generator S W G) (w : W) (g : G) : outcome (G * W) :=
  b <- gNeeds k w g ;;
  if (b : bool) then w' <- gCheck k w g ;; gCompute k w' g else Ok (g, w).

(** MixAndMatchEnvTmpl.tpp 121-130: generate(). *)
Definition generate (k1 : gen1) (k2 : gen2) (w : W) (e : env) : outcome (env * W) :=
  if negb (eNeeds e) then Ok (e, w) else
  r1 <- match e1 e with
        | None => Ok (e, w)
        | Some g => r <- genGenerate k1 w g ;; Ok (put1 (fst r) e, snd r)
        end ;;
  let '(e, w) := r1 in
  r2 <- match e2 e with
        | None => Ok (e, w)
        | Some g => r <- genGenerate k2 w g ;; Ok (put2 (fst r) e, snd r)
        end ;;
  let '(e, w) := r2 in
  e <- setNeedsUpdateFalse e ;;
  Ok (e, w).

(** MixAndMatchEnvTmpl.tpp 153-167: setParameter; the boolean is success. *)
Definition setParameter (k1 : gen1) (k2 : gen2) (name : string) (ids : list nat) (v : R) (e : env)
  : outcome (env * bool) :=
  r1 <- match e1 e with
        | None => Ok (e, false)
        | Some g => o <- gSet k1 name ids v g ;;
                    Ok (match o with Some g' => (put1 g' e, true) | None => (e, false) end)
        end ;;
  let '(e, s) := r1 in
  r2 <- match (if s then None else e2 e) with
        | None => Ok (e, s)
        | Some g => o <- gSet k2 name ids v g ;;
                    Ok (match o with Some g' => (put2 g' e, true) | None => (e, false) end)
        end ;;
  let '(e, s) := r2 in
  Ok (if s then reset e else e, s).

(** MixAndMatchEnvTmpl.tpp 172-186: getParameter. *)
Definition getParameter (k1 : gen1) (k2 : gen2) (name : string) (ids : list nat) (e : env)
  : outcome (option R) :=
  r1 <- match e1 e with None => Ok None | Some g => gGet k1 name ids g end ;;
  match r1 with
  | Some v => Ok (Some v)
  | None => match e2 e with None => Ok None | Some g => gGet k2 name ids g end
  end.

(** The object a ParameterType refers to by its modifierPtr. *)
Inductive modifier := Gen1 | Gen2.

(** MixAndMatchEnvTmpl.tpp 135-148: getParameterTypes.  Each generator lists
    parameters whose modifierPtr is the generator itself (FilmFieldGenExtBase.tpp
    206-214: ParameterType(name, nId, *this)). *)
Definition getParameterTypes (k1 : gen1) (k2 : gen2) (e : env) : list (string * nat * modifier) :=
  (match e1 e with None => [] | Some _ => map (fun p => (p, Gen1)) (gParams k1) end)
  ++ (match e2 e with None => [] | Some _ => map (fun p => (p, Gen2)) (gParams k2) end).

(** rpc/scft/sweep/SweepParameter.tpp 253-256 and ParameterModifier.cpp 34-43:
    a sweep sets a parameter by calling setParameter of the object that
    modifierPtr refers to; an unknown name throws. *)
Definition sweepSet (k1 : gen1) (k2 : gen2) (p : string * nat * modifier) (ids : list nat) (v : R) (e : env)
  : outcome env :=
  let '(name, _, m) := p in
  match m with
  | Gen1 => match e1 e with
            | None => UB
            | Some g => o <- gSet k1 name ids v g ;;
                        match o with Some g' => Ok (put1 g' e) | None => Throw end
            end
  | Gen2 => match e2 e with
            | None => UB
            | Some g => o <- gSet k2 name ids v g ;;
                        match o with Some g' => Ok (put2 g' e) | None => Throw end
            end
  end.

(** SystemTmpl.tpp 808-813 and 873-878: compute() and iterate() bring the
    environment up to date before anything else. *)
Definition makeUpToDate (k1 : gen1) (k2 : gen2) (w : W) (e : env) : outcome (env * W) :=
  if eNeeds e then generate k1 k2 w e else Ok (e, w).

(** MixAndMatchEnv.cpp 28-49: modifyStress. *)
Definition modifyStress (k1 : gen1) (k2 : gen2) (w : W) (e : env) (i : nat) (s : R) : outcome R :=
  check (negb (eNeeds e)) ;;
  s <- match e1 e with None => Ok s | Some g => x <- gStress k1 w g i ;; Ok (s + x) end ;;
  s <- match e2 e with None => Ok s | Some g => x <- gStress k2 w g i ;; Ok (s + x) end ;;
  s <- match e1 e with None => Ok s | Some g => gModify k1 w g i s end ;;
  match e2 e with None => Ok s | Some g => gModify k2 w g i s end.

(** Environment.h 175-204: computeStress, given the stresses of the mixture
    (None if mixture.hasStress() is false) and flexibleParams, an FSArray of
    which elements 0, ..., nParam_-1 are read. *)
Fixpoint stressLoop (f : nat -> R -> outcome R) (mix : nat -> R) (flex : list bool) (is : list nat)
  : outcome (list (nat * R)) :=
  match is with
  | [] => Ok []
  | i :: t =>
      match nth_error flex i with
      | None => UB
      | Some false => stressLoop f mix flex t
      | Some true => s <- f i (mix i) ;; l <- stressLoop f mix flex t ;; Ok ((i, s) :: l)
      end
  end.
Definition computeStress (k1 : gen1) (k2 : gen2) (w : W) (mix : option (nat -> R)) (flex : list bool) (e : env)
  : outcome env :=
  if eHasStress e then Ok e else
  check (negb (eNeeds e)) ;;
  match mix with
  | None => Throw
  | Some m =>
      check (negb (Nat.eqb (eNParam e) 0)) ;;
      check (Nat.eqb (List.length (eStress e)) 0) ;;
      l <- stressLoop (modifyStress k1 k2 w e) m flex (seq 0 (eNParam e)) ;;
      Ok (mkEnv (eNeeds e) (eMask e) (eExt e) (eSet e) l true (eNParam e) (e1 e) (e2 e))
  end.

(** Environment.cpp 37-49: stress(paramId). *)
Definition stress (e : env) (i : nat) : outcome R :=
  check (eHasStress e) ;;
  match find (fun p => Nat.eqb (fst p) i) (eStress e) with
  | Some p => Ok (snd p)
  | None => Throw
  end.
End MixAndMatch.

Arguments mkEnv {G1 G2} _ _ _ _ _ _ _ _ _.
Arguments eNeeds {G1 G2} _. Arguments eMask {G1 G2} _. Arguments eExt {G1 G2} _.
Arguments eSet {G1 G2} _. Arguments eStress {G1 G2} _. Arguments eHasStress {G1 G2} _.
Arguments eNParam {G1 G2} _. Arguments e1 {G1 G2} _. Arguments e2 {G1 G2} _.
Arguments newEnv {G1 G2}. Arguments reset {G1 G2} _. Arguments setNParams {G1 G2} _ _.
Arguments readParameters {S W G1 G2} _ _ _ _ _. Arguments genGenerate {S W G} _ _ _.
Arguments generate {S W G1 G2} _ _ _ _. Arguments setParameter {S W G1 G2} _ _ _ _ _ _.
Arguments getParameter {S W G1 G2} _ _ _ _ _. Arguments getParameterTypes {S W G1 G2} _ _ _.
Arguments sweepSet {S W G1 G2} _ _ _ _ _ _. Arguments makeUpToDate {S W G1 G2} _ _ _ _.
Arguments modifyStress {S W G1 G2} _ _ _ _ _ _. Arguments computeStress {S W G1 G2} _ _ _ _ _ _.
Arguments stress {G1 G2} _ _. Arguments put1 {G1 G2} _ _. Arguments put2 {G1 G2} _ _.
Arguments setGenerateBools {G1 G2} _ _ _. Arguments setNeedsUpdateFalse {G1 G2} _.
