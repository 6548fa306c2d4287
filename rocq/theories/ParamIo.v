(** Text representation of ramp and sweep parameters.
    Models /repo/src/rpc/fts/ramp/RampParameter.tpp, rpc/scft/sweep/SweepParameter.tpp
    and r1d/sweep/SweepParameter.cpp.
    Simplifications: a stream is the list of its whitespace-separated tokens; numbers
    are written and read without loss (the precision of operator << for double is not
    modelled); extraction of a number from a token that is no number, or at the end of
    the stream, leaves an unset member and is [UB]. *)
From Coq Require Import List Arith Bool ZArith Reals String Ascii.
From Verif Require Import Base.
Import ListNotations.
Local Open Scope string_scope.

Inductive tok := Word (s : string) | Int (z : Z) | Num (x : R).
(** ::tolower for the characters of the C locale. *)
Definition lower (c : ascii) : ascii :=
  let n := nat_of_ascii c in if (65 <=? n)%nat && (n <=? 90)%nat then ascii_of_nat (n + 32) else c.
Fixpoint tolower (s : string) : string :=
  match s with EmptyString => EmptyString | String c r => String (lower c) (tolower r) end.

(** enum ParamType of the three classes (Lambda_Pert and Vmonomer occur only in
    RampParameter.h 187-190, Special only in SweepParameter.h). *)
Inductive ptype := Block | Chi | Kuhn | Phi_Polymer | Phi_Solvent | Mu_Polymer | Mu_Solvent | Solvent | Cell_Param
  | Lambda_Pert | Vmonomer | Special (i : nat) | PNull.
(** type_, nId_, id_, change_. *)
Record param := mkParam { qType : ptype; qIds : list Z; qChange : R }.

(** RampParameter.tpp 76-134, readParamType; the boolean is PolymerModel::isThread(). *)
Definition rampReadType (thread : bool) (word : string) : outcome (ptype * nat) :=
  let b := tolower word in
  if (b =? "block") || (b =? "block_length") then check thread ;; Ok (Block, 2%nat)
  else if b =? "chi" then Ok (Chi, 2%nat)
  else if b =? "kuhn" then Ok (Kuhn, 1%nat)
  else if b =? "phi_polymer" then Ok (Phi_Polymer, 1%nat)
  else if b =? "phi_solvent" then Ok (Phi_Solvent, 1%nat)
  else if b =? "mu_polymer" then Ok (Mu_Polymer, 1%nat)
  else if b =? "mu_solvent" then Ok (Mu_Solvent, 1%nat)
  else if (b =? "solvent") || (b =? "solvent_size") then Ok (Solvent, 1%nat)
  else if b =? "cell_param" then Ok (Cell_Param, 1%nat)
  else if b =? "lambda_pert" then Ok (Lambda_Pert, 0%nat)
  else if b =? "v_monomer" then Ok (Vmonomer, 0%nat)
  else Throw.
(** 160-189, type. *)
Definition rampType (thread : bool) (t : ptype) : outcome string :=
  match t with
  | Block => check thread ;; Ok "block"
  | Chi => Ok "chi"
  | Kuhn => Ok "kuhn"
  | Phi_Polymer => Ok "phi_polymer"
  | Phi_Solvent => Ok "phi_solvent"
  | Mu_Polymer => Ok "mu_polymer"
  | Mu_Solvent => Ok "mu_solvent"
  | Solvent => Ok "solvent_size"
  | Cell_Param => Ok "cell_param"
  | Lambda_Pert => Ok "lambda_pert"
  | Vmonomer => Ok "vMonomer"
  | _ => Throw
  end.

(** pscf/sweep/ParameterType.h: name and nId of a specialized parameter.  The search,
    SweepParameter.tpp 103-114 and SweepParameter.cpp 95-104. *)
Fixpoint findType (b : string) (l : list (string * nat)) (i : nat) : option (nat * nat) :=
  match l with
  | [] => None
  | (name, n) :: r => if b =? name then Some (i, n) else findType b r (S i)
  end.
(** rpc SweepParameter.tpp 66-126, readParamType.  [types]: *parameterTypesPtr_, or
    None for a null pointer.  DArray::allocate throws for a capacity of zero. *)
Definition sweepReadType (types : option (list (string * nat))) (word : string) : outcome (ptype * nat) :=
  let b := tolower word in
  if (b =? "block") || (b =? "block_length") then Ok (Block, 2%nat)
  else if b =? "chi" then Ok (Chi, 2%nat)
  else if b =? "kuhn" then Ok (Kuhn, 1%nat)
  else if b =? "phi_polymer" then Ok (Phi_Polymer, 1%nat)
  else if b =? "phi_solvent" then Ok (Phi_Solvent, 1%nat)
  else if b =? "mu_polymer" then Ok (Mu_Polymer, 1%nat)
  else if b =? "mu_solvent" then Ok (Mu_Solvent, 1%nat)
  else if (b =? "solvent") || (b =? "solvent_size") then Ok (Solvent, 1%nat)
  else if b =? "cell_param" then Ok (Cell_Param, 1%nat)
  else match types with
    | None => Throw
    | Some l =>
      match findType b l 0 with
      | None => Throw
      | Some (i, n) => check (0 <? n)%nat ;; Ok (Special i, n)
      end
    end.
(** 162-188, type, with parameterType (137-144). *)
Definition sweepType (types : option (list (string * nat))) (t : ptype) : outcome string :=
  match t with
  | Block => Ok "block"
  | Chi => Ok "chi"
  | Kuhn => Ok "kuhn"
  | Phi_Polymer => Ok "phi_polymer"
  | Phi_Solvent => Ok "phi_solvent"
  | Mu_Polymer => Ok "mu_polymer"
  | Mu_Solvent => Ok "mu_solvent"
  | Solvent => Ok "solvent_size"
  | Cell_Param => Ok "cell_param"
  | Special i =>
    match types with
    | None => Throw
    | Some l => match nth_error l i with Some (name, _) => Ok name | None => UB end
    end
  | _ => Throw
  end.
(** r1d SweepParameter.cpp 57-114, readParamType: as above, but a null
    parameterTypesPtr_ is dereferenced (93-95). *)
Definition r1dReadType (types : option (list (string * nat))) (word : string) : outcome (ptype * nat) :=
  let b := tolower word in
  if (b =? "block") || (b =? "block_length") then Ok (Block, 2%nat)
  else if b =? "chi" then Ok (Chi, 2%nat)
  else if b =? "kuhn" then Ok (Kuhn, 1%nat)
  else if b =? "phi_polymer" then Ok (Phi_Polymer, 1%nat)
  else if b =? "phi_solvent" then Ok (Phi_Solvent, 1%nat)
  else if b =? "mu_polymer" then Ok (Mu_Polymer, 1%nat)
  else if b =? "mu_solvent" then Ok (Mu_Solvent, 1%nat)
  else if (b =? "solvent") || (b =? "solvent_size") then Ok (Solvent, 1%nat)
  else if b =? "cell_param" then Ok (Cell_Param, 1%nat)
  else match types with
    | None => UB
    | Some l =>
      match findType b l 0 with
      | None => Throw
      | Some (i, n) => check (0 <? n)%nat ;; Ok (Special i, n)
      end
    end.
(** 152-175, type: no branch for Cell_Param. *)
Definition r1dType (types : option (list (string * nat))) (t : ptype) : outcome string :=
  match t with
  | Block => Ok "block"
  | Chi => Ok "chi"
  | Kuhn => Ok "kuhn"
  | Phi_Polymer => Ok "phi_polymer"
  | Phi_Solvent => Ok "phi_solvent"
  | Mu_Polymer => Ok "mu_polymer"
  | Mu_Solvent => Ok "mu_solvent"
  | Solvent => Ok "solvent_size"
  | Special i =>
    match types with
    | None => UB
    | Some l => match nth_error l i with Some (name, _) => Ok name | None => UB end
    end
  | _ => Throw
  end.

(** operator >>: the type, nId_ integers and the change (RampParameter.tpp 285-302,
    SweepParameter.tpp 280-295, SweepParameter.cpp 243-258). *)
Fixpoint readIds (n : nat) (l : list tok) : outcome (list Z * list tok) :=
  match n with
  | O => Ok ([], l)
  | S k =>
    match l with
    | Int z :: r => q <- readIds k r ;; Ok (z :: fst q, snd q)
    | _ => UB
    end
  end.
Definition readParam (readType : string -> outcome (ptype * nat)) (l : list tok) : outcome (param * list tok) :=
  match l with
  | Word s :: r =>
    t <- readType s ;;
    i <- readIds (snd t) r ;;
    match snd i with
    | Num x :: r' => Ok (mkParam (fst t) (fst i) x, r')
    | _ => UB
    end
  | _ => Throw
  end.
(** operator << (RampParameter.tpp 307-323, SweepParameter.tpp 300-313,
    SweepParameter.cpp 266-279). *)
Definition writeParam (typ : ptype -> outcome string) (p : param) : outcome (list tok) :=
  s <- typ (qType p) ;; Ok (Word s :: List.map Int (qIds p) ++ [Num (qChange p)]).
