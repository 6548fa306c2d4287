(** Specification of device arrays: what a call needs, and what holds between
    calls.  Independent of how DevArray.v computes its answers. *)
From Coq Require Import Reals ZArith List Bool.
From Verif Require Import Base GpuKernel DevArray.
Import ListNotations.
Local Open Scope Z_scope.

(** cudaMalloc returns memory outside all allocations in use *)
Definition good_malloc (malloc : nat -> list (Z * Z) -> Z -> option Z) : Prop :=
  forall k used n a, 0 < n -> malloc k used n = Some a ->
    forall b m, In (b, m) used -> a + n <= b \/ b + m <= a.

Definition there (s : state) (x : nat) : Prop := exists o, find (s_objs s) x = Some o.
(** x has n elements from address d on *)
Definition extent (s : state) (x : nat) (d n : Z) : Prop :=
  exists o, find (s_objs s) x = Some o /\ o_data o = Some (Some d) /\ o_cap o = Some n.
Definition associated (s : state) (x y : nat) : Prop :=
  exists o, find (s_objs s) x = Some o /\ o_owner o = Some (Some y).
Definition unassociated (s : state) (x : nat) : Prop :=
  exists o, find (s_objs s) x = Some o /\ o_owner o = Some None.
Definition owns (s : state) (x : nat) (a n : Z) : Prop := extent s x a n /\ unassociated s x.

(** Preconditions that the code does not test: objects exist, an object is destroyed
    after the objects associated with it, the copy constructor is not used, distinct
    operands of an assignment do not overlap, and the slice of copySlice does not
    begin before the array *)
Definition legal (s : state) (c : call) : Prop :=
  match c with
  | Construct x | ConstructSize x _ => ~ there s x
  | ConstructCopy _ _ => False
  | Destroy x => there s x /\ forall y, ~ associated s y x
  | Associate x y _ _ | AssociateR x y _ _ => there s x /\ there s y
  | Assign x y | AssignR x y =>
      there s x /\ there s y /\
      (x <> y -> forall p q n, extent s x p n -> extent s y q n -> p + n <= q \/ q + n <= p)
  | CopySlice x _ b => there s x /\ 0 <= b
  | Allocate x _ | Deallocate x | Dissociate x | AssignHost x _ | ToHost x _
  | Capacity x | IsAllocated x | IsOwner x | CArray x | AllocateR x _ | AssignHostR x _ => there s x
  end.

Section Runs.
Variable malloc : nat -> list (Z * Z) -> Z -> option Z.

Fixpoint legal_program (s : state) (l : list call) : Prop :=
  match l with
  | [] => True
  | c :: l' =>
      legal s c /\
      match snd (execute malloc c s) with
      | Answer _ | Exception => legal_program (fst (execute malloc c s)) l'
      | _ => True
      end
  end.

(** Answer of isAllocated() is true *)
Definition usable (s : state) (x : nat) : Prop :=
  snd (execute malloc (IsAllocated x) s) = Answer (VBool true).

(** What holds between calls *)
Record consistent (s : state) : Prop := {
  (* no leak and no element with two owners *)
  one_owner : forall z, s_mem s z <> Free ->
    exists x, (exists a n, owns s x a n /\ a <= z < a + n) /\
      forall x' a n, owns s x' a n -> a <= z < a + n -> x' = x;
  (* owners have their memory *)
  owner_memory : forall x a n, owns s x a n -> 0 < n /\ forall z, a <= z < a + n -> s_mem s z <> Free;
  (* and so has every array that calls itself allocated; a slice lies in its owner *)
  usable_memory : forall x, usable s x -> exists d n, extent s x d n /\ 0 < n /\
    (forall z, d <= z < d + n -> s_mem s z <> Free) /\
    (forall y, associated s x y -> usable s y /\
       exists a m, extent s y a m /\ a <= d /\ d + n <= a + m)
}.

End Runs.
