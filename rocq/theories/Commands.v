(* Execution of a command file: SystemTmpl::readCommands.

   The text is a string of characters and the input stream is modelled with
   its eofbit and failbit.  Numbers are not converted: the value of a numeric
   argument is the text that was extracted.  Simplification: extraction of a
   floating point number takes the longest prefix made of digits, signs,
   point and exponent letters, and fails if it contains no digit. *)
From Coq Require Import List Ascii String Bool Arith Lia.
Import ListNotations.
Open Scope string_scope.
Open Scope list_scope.
Open Scope nat_scope.
Set Implicit Arguments.

(* isspace in the C locale *)
Definition isSpace (c : ascii) : bool :=
  let n := nat_of_ascii c in (n =? 32) || ((9 <=? n) && (n <=? 13)).
Definition isDigit (c : ascii) : bool :=
  let n := nat_of_ascii c in (48 <=? n) && (n <=? 57).
Definition isSign (c : ascii) : bool := (c =? "+")%char || (c =? "-")%char.
Definition isRealChar (c : ascii) : bool :=
  isDigit c || isSign c || (c =? ".")%char || (c =? "e")%char || (c =? "E")%char.

Fixpoint skipWs (s : string) : string :=
  match s with
  | EmptyString => EmptyString
  | String c r => if isSpace c then skipWs r else s
  end.

(* Longest prefix of characters satisfying p, and the rest. *)
Fixpoint span (p : ascii -> bool) (s : string) : string * string :=
  match s with
  | EmptyString => (EmptyString, EmptyString)
  | String c r => if p c then let (a, b) := span p r in (String c a, b)
                  else (EmptyString, s)
  end.

Fixpoint hasDigit (s : string) : bool :=
  match s with
  | EmptyString => false
  | String c r => isDigit c || hasDigit r
  end.

(* std::istream *)
Record istream : Type := mkIn { chars : string; eofb : bool; failb : bool }.

Definition isEmpty (s : string) : bool :=
  match s with EmptyString => true | _ => false end.

(* in >> word.  If the stream is not good, or only white space is left, the
   failbit is set and the variable keeps its value (None). *)
Definition getWord (i : istream) : option string * istream :=
  if eofb i || failb i then (None, mkIn (chars i) (eofb i) true)
  else
    let r := skipWs (chars i) in
    if isEmpty r then (None, mkIn EmptyString true true)
    else let (w, r') := span (fun c => negb (isSpace c)) r in
         (Some w, mkIn r' (isEmpty r') false).

(* in >> n for an int (false) or double (true) n; None: failure, in which case
   the variable is zero or not assigned. *)
Definition spanInt (s : string) : string * string :=
  match s with
  | String c r => if isSign c then let (a, b) := span isDigit r in (String c a, b)
                  else span isDigit s
  | EmptyString => (EmptyString, EmptyString)
  end.
Definition getNum (real : bool) (i : istream) : option string * istream :=
  if eofb i || failb i then (None, mkIn (chars i) (eofb i) true)
  else
    let r := skipWs (chars i) in
    if isEmpty r then (None, mkIn EmptyString true true)
    else let (w, r') := if real then span isRealChar r else spanInt r in
         if hasDigit w then (Some w, mkIn r' (isEmpty r') false)
         else (None, mkIn r' (isEmpty r') true).

(* Kinds of arguments: file or class name read by readEcho (throws on
   failure), double read by readEcho (throws on failure), name of a lattice
   (throws unless known), int or cell parameter read with no check. *)
Inductive argk : Type := AWord | AReal | ALat | AInt | ACell.

(* Number of parameters of a lattice; UnitCell1.cpp:31-32, 117-118;
   UnitCell2.cpp:31-44, 225-238; UnitCell3.cpp:50-69, 398-417 *)
Definition latParams (D : nat) (s : string) : option nat :=
  let is a b := String.eqb s a || String.eqb s b in
  match D with
  | 1 => if is "Lamellar" "lamellar" then Some 1 else None
  | 2 => if is "Square" "square" then Some 1 else
         if is "Rectangular" "rectangular" then Some 2 else
         if is "Rhombic" "rhombic" then Some 2 else
         if is "Hexagonal" "hexagonal" then Some 1 else
         if is "Oblique" "oblique" then Some 3 else None
  | 3 => if is "Cubic" "cubic" then Some 1 else
         if is "Tetragonal" "tetragonal" then Some 2 else
         if is "Orthorhombic" "orthorhombic" then Some 3 else
         if is "Monoclinic" "monoclinic" then Some 4 else
         if is "Triclinic" "triclinic" then Some 6 else
         if is "Rhombohedral" "rhombohedral" then Some 2 else
         if is "Hexagonal" "hexagonal" then Some 2 else None
  | _ => None
  end.

(* readEcho, SystemTmpl.tpp:1155-1176; in >> n; in >> lattice.  None: an
   exception was thrown.  Some None: a numeric argument was not read. *)
Definition getArg (D : nat) (k : argk) (i : istream)
  : option (option string * istream) :=
  match k with
  | AWord => let (v, i') := getWord i in
             match v with Some w => Some (Some w, i') | None => None end
  | AReal => let (v, i') := getNum true i in
             match v with Some w => Some (Some w, i') | None => None end
  | ALat => let (v, i') := getWord i in
            match v with
            | Some w => match latParams D w with
                        | Some _ => Some (Some w, i')
                        | None => None
                        end
            | None => None
            end
  | AInt => Some (getNum false i)
  | ACell => Some (getNum true i)
  end.

Fixpoint getArgs (D : nat) (ks : list argk) (i : istream)
  : option (list (option string) * istream) :=
  match ks with
  | [] => Some ([], i)
  | k :: ks' => match getArg D k i with
                | None => None
                | Some (v, i') => match getArgs D ks' i' with
                                  | None => None
                                  | Some (vs, i'') => Some (v :: vs, i'')
                                  end
                end
  end.

(* The commands and their arguments, SystemTmpl.tpp:425-773.  None: unknown
   command. *)
Definition plan1 (D : nat) (name : string) : option (list argk) :=
  let is := String.eqb name in
  let oneOf := existsb is in
  if oneOf ["FINISH"; "COMPUTE"; "ITERATE"; "SWEEP"; "COMPRESS"; "CLEAR_TIMERS"]%string
  then Some []
  else if oneOf ["READ_W_BASIS"; "READ_W_RGRID"; "WRITE_PARAM"; "WRITE_THERMO";
      "WRITE_STRESS"; "WRITE_W_BASIS"; "WRITE_W_RGRID"; "WRITE_C_BASIS";
      "WRITE_C_RGRID"; "WRITE_BLOCK_C_RGRID"; "WRITE_Q_ALL"; "WRITE_STARS";
      "WRITE_WAVES"; "WRITE_GROUP"; "READ_H_BASIS"; "READ_H_RGRID";
      "WRITE_H_BASIS"; "WRITE_H_RGRID"; "READ_MASK_BASIS"; "READ_MASK_RGRID";
      "WRITE_MASK_BASIS"; "WRITE_MASK_RGRID"; "WRITE_TIMERS"]%string
  then Some [AWord]
  else if oneOf ["BASIS_TO_RGRID"; "RGRID_TO_BASIS"; "KGRID_TO_RGRID";
      "RGRID_TO_KGRID"; "BASIS_TO_KGRID"; "KGRID_TO_BASIS"; "COMPARE_BASIS";
      "COMPARE_RGRID"; "ESTIMATE_W_BASIS"]%string
  then Some [AWord; AWord]
  else if is "SET_UNIT_CELL"%string then Some [ALat]
  else if is "SIMULATE"%string then Some [AInt]
  else if oneOf ["ANALYZE"; "ANALYZE_TRAJECTORY"]%string
  then Some [AInt; AInt; AWord; AWord]
  else if is "WRITE_Q_SLICE"%string then Some [AWord; AInt; AInt; AInt; AInt]
  else if oneOf ["WRITE_Q_TAIL"; "WRITE_Q"]%string then Some [AWord; AInt; AInt; AInt]
  else if is "CHECK_RGRID_SYMMETRY"%string then Some [AWord; AReal]
  else if oneOf ["SCALE_BASIS"; "SCALE_RGRID"]%string then Some [AWord; AWord; AReal]
  else if is "EXPAND_RGRID_DIMENSION"%string then Some [AWord; AWord; AInt]
  else if is "REPLICATE_UNIT_CELL"%string
  then Some ([AWord; AWord] ++ repeat AInt D)
  else None.

(* Value of a string of digits; a leading "+" is ignored, a leading "-" gives
   zero (only used for a comparison with D). *)
Fixpoint digits (acc : nat) (s : string) : nat :=
  match s with
  | EmptyString => acc
  | String c r => digits (10 * acc + (nat_of_ascii c - 48)) r
  end.
Definition natOf (s : string) : nat :=
  match s with
  | String c r => if (c =? "-")%char then 0
                  else if (c =? "+")%char then digits 0 r else digits 0 s
  | EmptyString => 0
  end.

(* Arguments whose number depends on earlier ones: parameters of the unit
   cell (UnitCell.h:545-556) and added dimensions
   (SystemTmpl.tpp:676-688, None: UTIL_CHECK(d > D) failed) *)
Definition plan2 (D : nat) (name : string) (vs : list (option string))
  : option (list argk) :=
  if String.eqb name "SET_UNIT_CELL" then
    match vs with
    | [Some lat] => match latParams D lat with
                    | Some n => Some (repeat ACell n)
                    | None => None
                    end
    | _ => None
    end
  else if String.eqb name "EXPAND_RGRID_DIMENSION" then
    match vs with
    | [_; _; Some d] => if D <? natOf d then Some (repeat AInt (natOf d - D)) else None
    | _ => None
    end
  else Some [].

Definition readArgs (D : nat) (name : string) (ks : list argk) (i : istream)
  : option (list (option string) * istream) :=
  match getArgs D ks i with
  | None => None
  | Some (v1, i1) =>
      match plan2 D name v1 with
      | None => None
      | Some ks2 => match getArgs D ks2 i1 with
                    | None => None
                    | Some (v2, i2) => Some (v1 ++ v2, i2)
                    end
      end
  end.

Section Exec.
Variable St : Type.

(* What the execution of a command can do: return, with permission to go on
   or not (ITERATE that failed to converge), or throw. *)
Inductive eres : Type := Go (s : St) | Halt (s : St) | Exc (s : St).
Variable exec : string -> list (option string) -> St -> eres.

(* How readCommands ended: end of file, end of the loop, exception. *)
Inductive fin : Type := FEof | FStop | FThrow | FFuel.

Definition logt : Type := list (string * list (option string)).

(* SystemTmpl::readCommands, SystemTmpl.tpp:411-780.  var is the value of the
   variable command; the log lists the commands that were executed. *)
Fixpoint loop (fuel : nat) (D : nat) (var : string) (i : istream) (s : St)
  : logt * St * fin :=
  match fuel with
  | 0 => ([], s, FFuel)
  | S fuel' =>
      let (v, i1) := getWord i in
      let var' := match v with Some w => w | None => var end in
      if eofb i1 then ([], s, FEof)
      else if String.eqb var' "FINISH" then ([], s, FStop)
      else match plan1 D var' with
           | None => ([], s, FStop)
           | Some ks =>
               match readArgs D var' ks i1 with
               | None => ([], s, FThrow)
               | Some (vs, i2) =>
                   match exec var' vs s with
                   | Exc s' => ([(var', vs)], s', FThrow)
                   | Halt s' => ([(var', vs)], s', FStop)
                   | Go s' =>
                       let '(l, s'', f) := loop fuel' D var' i2 s' in
                       ((var', vs) :: l, s'', f)
                   end
               end
           end
  end.

Definition readCommands (fuel D : nat) (text : string) (s : St) : logt * St * fin :=
  loop fuel D EmptyString (mkIn text false false) s.
End Exec.
