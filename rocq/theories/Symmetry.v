(** Model of the crystallographic symmetry classes:
    src/prdc/crystal/SpaceSymmetry.{h,tpp,cpp}, SymmetryGroup.tpp, SpaceGroup.tpp.

    Rational (util library, not in this repository) is a fraction in lowest
    terms with positive denominator: the type Qc.  Machine integers are Z. *)
From Coq Require Import ZArith QArith Qcanon List Bool Arith.
From Verif Require Import Base.
Import ListNotations.
Local Open Scope Z_scope.

(* ---------- helpers ---------- *)
Fixpoint zsum (n : nat) (f : nat -> Z) : Z := match n with O => 0 | S k => zsum k f + f k end.
Fixpoint qsum (n : nat) (f : nat -> Qc) : Qc := match n with O => 0%Qc | S k => (qsum k f + f k)%Qc end.
Definition IZQ (z : Z) : Qc := Q2Qc (inject_Z z).
Definition mkVec {A} (D : nat) (f : nat -> A) : list A := map f (seq 0 D).
Definition mkMat {A} (D : nat) (f : nat -> nat -> A) : list (list A) := mkVec D (fun i => mkVec D (f i)).

(** SpaceSymmetry.h 236-250: members R_ and t_. *)
Record symm := mkSymm { sR : list (list Z); sT : list Qc }.
Definition Rm (s : symm) (i j : nat) : Z := nth j (nth i (sR s) []) 0.
Definition tr (s : symm) (i : nat) : Qc := nth i (sT s) 0%Qc.

(** SpaceSymmetry.tpp 78-99: normalize(); the two while loops with fuel. *)
Fixpoint loopUp (fuel : nat) (num den : Z) : outcome Z :=
  match fuel with
  | O => NoFuel
  | S f => if num <? 0 then loopUp f (num + den) den else Ok num
  end.
Fixpoint loopDown (fuel : nat) (num den : Z) : outcome Z :=
  match fuel with
  | O => NoFuel
  | S f => if den <=? num then loopDown f (num - den) den else Ok num
  end.
Definition normalize1_loop (q : Qc) : outcome Qc :=
  let num := Qnum q in
  let den := Zpos (Qden q) in
  num' <- (if den =? 1 then Ok 0
           else a <- loopUp (S (Z.abs_nat num)) num den ;; loopDown (S (Z.abs_nat num)) a den) ;;
  Ok (if negb (num' =? num) then Q2Qc (num' # Qden q) else q).
(** The value computed by the loops ([normalize1_loop_ok] shows the loops return it). *)
Definition normalize1 (q : Qc) : Qc := Q2Qc ((Qnum q mod Zpos (Qden q)) # Qden q).
Definition normalize (D : nat) (s : symm) : symm :=
  mkSymm (sR s) (mkVec D (fun i => normalize1 (tr s i))).

(** SpaceSymmetry.tpp 104-117 and 21-35. *)
Definition identity (D : nat) : symm :=
  mkSymm (mkMat D (fun i j => if Nat.eqb i j then 1 else 0)) (mkVec D (fun _ => 0%Qc)).

(** SpaceSymmetry.h 373-388: operator ==. *)
Definition symm_eqb (D : nat) (a b : symm) : bool :=
  forallb (fun i => (if Qc_eq_dec (tr a i) (tr b i) then true else false)
                    && forallb (fun j => Rm a i j =? Rm b i j) (seq 0 D)) (seq 0 D).

(** SpaceSymmetry.h 393-422: operator *. *)
Definition smul (D : nat) (a b : symm) : symm :=
  normalize D (mkSymm (mkMat D (fun i j => zsum D (fun k => Rm a i k * Rm b k j)))
                      (mkVec D (fun i => (tr a i + qsum D (fun j => IZQ (Rm a i j) * tr b j))%Qc))).

(** SpaceSymmetry.h 427-440 and 445-458: S*V and V*S. *)
Definition mulSV (D : nat) (s : symm) (v : nat -> Z) : nat -> Z := fun i => zsum D (fun j => Rm s i j * v j).
Definition mulVS (D : nat) (v : nat -> Z) (s : symm) : nat -> Z := fun i => zsum D (fun j => v j * Rm s j i).

(** SpaceSymmetry.cpp: determinant(), specializations for D = 1, 2, 3 (17-19, 41-43, 67-74). *)
Definition determinant (D : nat) (s : symm) : Z :=
  match D with
  | 1%nat => Rm s 0 0
  | 2%nat => Rm s 0 0 * Rm s 1 1 - Rm s 0 1 * Rm s 1 0
  | 3%nat => Rm s 0 0 * (Rm s 1 1 * Rm s 2 2 - Rm s 1 2 * Rm s 2 1)
             + Rm s 0 1 * (Rm s 1 2 * Rm s 2 0 - Rm s 1 0 * Rm s 2 2)
             + Rm s 0 2 * (Rm s 1 0 * Rm s 2 1 - Rm s 1 1 * Rm s 2 0)
  | _ => 0
  end.
(** SpaceSymmetry.cpp 21-36, 45-62, 76-99: inverseRotation(); C++ division truncates. *)
Definition inverseRotation (D : nat) (s : symm) : outcome (list (list Z)) :=
  let det := determinant D s in
  check (1 =? det * det) ;;
  let q := fun x => Z.quot x det in
  match D with
  | 1%nat => Ok [[Rm s 0 0]]
  | 2%nat => Ok [[q (Rm s 1 1); q (- Rm s 0 1)]; [q (- Rm s 1 0); q (Rm s 0 0)]]
  | 3%nat => Ok [[q (Rm s 1 1 * Rm s 2 2 - Rm s 1 2 * Rm s 2 1); q (Rm s 2 1 * Rm s 0 2 - Rm s 2 2 * Rm s 0 1); q (Rm s 0 1 * Rm s 1 2 - Rm s 0 2 * Rm s 1 1)];
                 [q (Rm s 1 2 * Rm s 2 0 - Rm s 1 0 * Rm s 2 2); q (Rm s 2 2 * Rm s 0 0 - Rm s 2 0 * Rm s 0 2); q (Rm s 0 2 * Rm s 1 0 - Rm s 0 0 * Rm s 1 2)];
                 [q (Rm s 1 0 * Rm s 2 1 - Rm s 1 1 * Rm s 2 0); q (Rm s 2 0 * Rm s 0 1 - Rm s 2 1 * Rm s 0 0); q (Rm s 0 0 * Rm s 1 1 - Rm s 0 1 * Rm s 1 0)]]
  | _ => Throw
  end.

(** SpaceSymmetry.tpp 122-143: inverse(). *)
Definition sinverse (D : nat) (s : symm) : outcome symm :=
  Ri <- inverseRotation D s ;;
  let c := mkSymm Ri [] in
  Ok (normalize D (mkSymm Ri (mkVec D (fun i => (0 - qsum D (fun j => IZQ (Rm c i j) * tr s j))%Qc)))).

(** SpaceSymmetry.tpp 148-161: shiftOrigin. *)
Definition shiftOrigin (D : nat) (o : nat -> Qc) (s : symm) : symm :=
  normalize D (mkSymm (sR s) (mkVec D (fun i => (tr s i - o i + qsum D (fun j => IZQ (Rm s i j) * o j))%Qc))).

(* ---------- SymmetryGroup.tpp, a template over the Symmetry class ---------- *)
Section Group.
Variable S : Type.
Variable eqb : S -> S -> bool.         (* operator == *)
Variable mul : S -> S -> S.            (* operator * *)
Variable inv : S -> outcome S.         (* inverse() *)
Variable ident : S.                    (* Symmetry::identity() *)
Variable copy : S -> S.                (* copy constructor and assignment *)

(** SymmetryGroup.tpp 72-84: find (as a test for presence). *)
Definition gfind (els : list S) (s : S) : bool := existsb (fun e => eqb s e) els.
(** SymmetryGroup.tpp 89-105: add; push_back stores a copy. *)
Definition gadd (els : list S) (s : S) : list S * bool :=
  if gfind els s then (els, false) else (els ++ [copy s], true).
(** SymmetryGroup.tpp 25-30, 149-154: constructor and clear(). *)
Definition gclear : list S := [copy ident].

(** SymmetryGroup.tpp 118-122: add all inverses of the first n elements. *)
Fixpoint addInverses (todo : list S) (els : list S) : outcome (list S) :=
  match todo with
  | [] => Ok els
  | e :: todo' => a <- inv e ;; addInverses todo' (fst (gadd els (copy a)))
  end.
(** SymmetryGroup.tpp 131-143: inner loop over j; the n elements present at the
    start of the pass are [row] (elements are only appended, so elements_[j] for
    j < n is unaffected by the additions). *)
Fixpoint innerPass (a : S) (row : list S) (els : list S) (complete : bool) : outcome (list S * bool) :=
  match row with
  | [] => Ok (els, complete)
  | b :: row' =>
      let c := copy (mul a b) in
      let '(els1, added1) := gadd els c in
      let complete := if added1 then false else complete in
      b' <- inv c ;;
      let '(els2, added2) := gadd els1 (copy b') in
      let complete := if added2 then false else complete in
      innerPass a row' els2 complete
  end.
(** SymmetryGroup.tpp 129-145: outer loop over i. *)
Fixpoint outerPass (col row : list S) (els : list S) (complete : bool) : outcome (list S * bool) :=
  match col with
  | [] => Ok (els, complete)
  | a :: col' => r <- innerPass (copy a) row els complete ;; outerPass col' row (fst r) (snd r)
  end.
(** SymmetryGroup.tpp 126-146: while (!complete). *)
Fixpoint completeLoop (fuel : nat) (els : list S) : outcome (list S) :=
  match fuel with
  | O => NoFuel
  | Datatypes.S f =>
      r <- outerPass els els els true ;;
      if snd r then Ok (fst r) else completeLoop f (fst r)
  end.
Definition makeCompleteGroup (fuel : nat) (els : list S) : outcome (list S) :=
  els1 <- addInverses els els ;; completeLoop fuel els1.

(** SymmetryGroup.tpp 188-229: isValid; true or an exception. *)
Definition gisValid (els : list S) : outcome bool :=
  check (gfind els ident) ;;
  (fix outer (i : nat) (l : list S) : outcome bool :=
     match l with
     | [] => Ok true
     | a :: l' =>
         c <- inv a ;;
         check (gfind els c) ;;
         (fix inner (j : nat) (m : list S) : outcome bool :=
            match m with
            | [] => Ok true
            | b :: m' =>
                check (if Nat.eqb i j then true else negb (eqb a b)) ;;
                check (gfind els (mul a b)) ;;
                inner (Datatypes.S j) m'
            end) O els ;;
         outer (Datatypes.S i) l'
     end) O els.
End Group.

(** SpaceGroup<D> = SymmetryGroup< SpaceSymmetry<D> >. *)
Definition spaceAdd D := gadd symm (symm_eqb D) (normalize D).
Definition spaceComplete D :=
  makeCompleteGroup symm (symm_eqb D) (smul D) (sinverse D) (normalize D).
Definition spaceValid D := gisValid symm (symm_eqb D) (smul D) (sinverse D) (identity D).

(* ---------- SpaceGroup.tpp 62-159: checkMeshDimensions ---------- *)
(** 74-86: maximum denominator. *)
Definition maxDen (i : nat) (g : list symm) : Z :=
  fold_left (fun dv s =>
    let num := Qnum (tr s i) in let den := Zpos (Qden (tr s i)) in
    if negb (num =? 0) then (if dv <? den then den else dv) else dv) g 1.
(** 88-98: make it a multiple of all denominators. *)
Definition divisor (i : nat) (g : list symm) : Z :=
  fold_left (fun dv s =>
    let num := Qnum (tr s i) in let den := Zpos (Qden (tr s i)) in
    if negb (num =? 0) then
      (if den <? dv then (if negb (Z.rem dv den =? 0) then dv * den else dv) else dv)
    else dv) g (maxDen i g).
(** 120-136: areRelated(i,j). *)
Definition areRelated (g : list symm) (i j : nat) : bool :=
  if Nat.eqb i j then true
  else existsb (fun s => negb (Rm s i j =? 0) || negb (Rm s j i =? 0)) g.
(** 101-112 (note that the loop starts at i = 1) and 138-157. *)
Definition checkMeshDimensions (D : nat) (g : list symm) (dims : nat -> Z) : outcome unit :=
  check (forallb (fun i => Z.rem (dims i) (divisor i g) =? 0) (seq 1 (D - 1))) ;;
  check (forallb (fun i => forallb (fun j => negb (areRelated g i j && negb (dims i =? dims j))) (seq 0 i)) (seq 0 D)) ;;
  Ok tt.

(** SpaceGroup.tpp 22-47: hasInversionCenter. *)
Definition isInversion (D : nat) (s : symm) : bool :=
  forallb (fun j => forallb (fun k => if Nat.eqb j k then Rm s j k =? -1 else Rm s j k =? 0) (seq 0 D)) (seq 0 D).
Definition hasInversionCenter (D : nat) (g : list symm) : option (nat -> Qc) :=
  match find (isInversion D) g with
  | Some s => Some (fun j => (tr s j / IZQ 2)%Qc)
  | None => None
  end.
(** SpaceGroup.tpp 49-57: shiftOrigin of the group. *)
Definition groupShiftOrigin (D : nat) (o : nat -> Qc) (g : list symm) : list symm := map (shiftOrigin D o) g.
