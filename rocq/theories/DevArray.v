(** Model of src/pscf/cuda/DeviceArray.h, of HostDArray.h (transfers from a
    DeviceArray) and of src/prdc/cuda/RField.tpp: arrays in device memory that own
    their data, or that are associated with a slice of another array.

    Objects are named by numbers (their addresses).  A member that has no
    initialiser is indeterminate ([None]), and its use, use of an object that does
    not exist, access to memory that is not allocated and overlapping copies are
    [UB].  Device memory is that of GpuKernel.v, with addresses counted in elements;
    cudaMalloc is an arbitrary function of the allocations in use and of a clock,
    and can fail.

    Simplifications: one element type; integers are unbounded; a Data* is an
    address, so that two pointers are equal if they are the same address. *)
From Coq Require Import Reals ZArith List Bool Arith.
From Verif Require Import Base GpuKernel.
Import ListNotations.
Local Open Scope Z_scope.

(** DeviceArray.h 172-204: members; RField.h: meshDimensions_ (for the objects of
    class RField) *)
Record obj := Obj {
  o_data : option (option Z); o_cap : option Z; o_owner : option (option nat);
  o_ocap : option Z; o_odata : option (option Z); o_mesh : list Z }.

(** Objects that exist, device memory, allocations in use (address and number of
    elements), number of calls of cudaMalloc *)
Record state := State { s_objs : list (nat * obj); s_mem : memory; s_used : list (Z * Z); s_clock : nat }.

Definition initial : state := State [] (fun _ => Free) [] 0.

Definition find (l : list (nat * obj)) (x : nat) : option obj :=
  match List.find (fun p => (fst p =? x)%nat) l with Some p => Some (snd p) | None => None end.
Definition remove (x : nat) (l : list (nat * obj)) : list (nat * obj) :=
  filter (fun p => negb (fst p =? x)%nat) l.
Definition setObj (x : nat) (o : obj) (s : state) : state :=
  State ((x, o) :: remove x (s_objs s)) (s_mem s) (s_used s) (s_clock s).

(** Use of a member *)
Definition member {A} (f : option A) : outcome A := match f with Some a => Ok a | None => UB end.
(** Use of the object x *)
Definition object (s : state) (x : nat) : outcome obj := member (find (s_objs s) x).

Definition ptr_eqb (p q : option Z) : bool :=
  match p, q with None, None => true | Some a, Some b => a =? b | _, _ => false end.
Definition notNull {A} (p : option A) : bool := match p with Some _ => true | None => false end.

(** ** Queries: they change nothing *)

(** DeviceArray.h 522-523: capacity() *)
Definition capacity (s : state) (x : nat) : outcome Z := o <- object s x ;; member (o_cap o).

(** DeviceArray.h 465-470, 483-488, 501-506: the checks made by cArray() and
    isAllocated().  They call isAllocated() and cArray() of the owner, hence the same
    checks there; [NoFuel] is a recursion deeper than [fuel]. *)
Fixpoint ownerChecks (fuel : nat) (s : state) (x : nat) : outcome unit :=
  match fuel with
  | O => NoFuel
  | S f =>
      o <- object s x ;;
      w <- member (o_owner o) ;;
      match w with
      | None => Ok tt
      | Some y =>
          (* ownerPtr_->isAllocated() *)
          ownerChecks f s y ;; o' <- object s y ;; d' <- member (o_data o') ;; check (notNull d') ;;
          (* ownerPtr_->capacity() == ownerCapacity_ *)
          c' <- capacity s y ;; oc <- member (o_ocap o) ;; check (c' =? oc) ;;
          (* ownerPtr_->cArray() == ownerDataPtr_ *)
          ownerChecks f s y ;; od <- member (o_odata o) ;; check (ptr_eqb d' od)
      end
  end.
Definition depth (s : state) : nat := S (length (s_objs s)).

(** DeviceArray.h 462-494: cArray() *)
Definition cArray (s : state) (x : nat) : outcome (option Z) :=
  ownerChecks (depth s) s x ;; o <- object s x ;; member (o_data o).
(** DeviceArray.h 499-517: isAllocated() *)
Definition isAllocated (s : state) (x : nat) : outcome bool :=
  ownerChecks (depth s) s x ;; o <- object s x ;; d <- member (o_data o) ;; Ok (notNull d).
(** DeviceArray.h 529-530: isOwner() *)
Definition isOwner (s : state) (x : nat) : outcome bool :=
  o <- object s x ;; w <- member (o_owner o) ;;
  match w with Some _ => Ok false | None => d <- member (o_data o) ;; Ok (notNull d) end.

(** ** Functions that change the state; a state accompanies an exception, too *)

Definition M (A : Type) : Type := state -> state * outcome A.
Definition ret {A} (a : A) : M A := fun s => (s, Ok a).
Definition ask {A} (q : state -> outcome A) : M A := fun s => (s, q s).
Definition bindM {A B} (e : M A) (f : A -> M B) : M B :=
  fun s => match e s with
           | (s', Ok a) => f a s'
           | (s', Throw) => (s', Throw)
           | (s', UB) => (s', UB)
           | (s', NoFuel) => (s', NoFuel)
           end.
Notation "x <~ e ;~ f" := (bindM e (fun x => f)) (at level 61, e at next level, right associativity).
Notation "e ;~ f" := (bindM e (fun _ => f)) (at level 61, right associativity).
Definition assert (b : bool) : M unit := fun s => (s, check b).

(** Assignment to members of x *)
Definition assignTo (x : nat) (f : obj -> obj) : M unit :=
  fun s => match find (s_objs s) x with
           | Some o => (setObj x (f o) s, Ok tt)
           | None => (s, UB)
           end.

Definition span (a n y : Z) : bool := (a <=? y) && (y <? a + n).

Section Arrays.
(** Answers of cudaMalloc *)
Variable malloc : nat -> list (Z * Z) -> Z -> option Z.

(** cudaErrorCheck( cudaMalloc(...) ) *)
Definition cudaMalloc (n : Z) : M Z :=
  fun s => match malloc (s_clock s) (s_used s) n with
           | Some a => (State (s_objs s) (fun y => if span a n y then Junk else s_mem s y)
                          ((a, n) :: s_used s) (S (s_clock s)), Ok a)
           | None => (State (s_objs s) (s_mem s) (s_used s) (S (s_clock s)), Throw)
           end.

(** cudaErrorCheck( cudaFree(p) ): an address that cudaMalloc did not return, or that
    was freed before, is UB; nullptr does nothing *)
Definition cudaFree (p : option Z) : M unit :=
  fun s => match p with
           | None => (s, Ok tt)
           | Some a =>
               match List.find (fun b => fst b =? a) (s_used s) with
               | Some b => (State (s_objs s) (fun y => if span a (snd b) y then Free else s_mem s y)
                              (filter (fun c => negb (fst c =? a)) (s_used s)) (s_clock s), Ok tt)
               | None => (s, UB)
               end
           end.

(** Elements from p on, at most n: all allocated? *)
Definition live (m : memory) (p : Z) (n : Z) : bool :=
  forallb (fun i => match m (p + Z.of_nat i) with Free => false | _ => true end) (seq 0 (Z.to_nat n)).
Definition apart (p q n : Z) : bool := (p + n <=? q) || (q + n <=? p).

(** cudaMemcpy(dst, src, n elements, cudaMemcpyDeviceToDevice) *)
Definition copyDD (dst src : option Z) (n : Z) : M unit :=
  fun s => match dst, src with
           | Some p, Some q =>
               if live (s_mem s) p n && live (s_mem s) q n && apart p q n then
                 (State (s_objs s) (fun y => if span p n y then s_mem s (q + (y - p)) else s_mem s y)
                    (s_used s) (s_clock s), Ok tt)
               else (s, UB)
           | _, _ => (s, UB)
           end.
(** cudaMemcpy(dst, host, n elements, cudaMemcpyHostToDevice) *)
Definition copyHD (dst : option Z) (h : list R) (n : Z) : M unit :=
  fun s => match dst with
           | Some p =>
               if live (s_mem s) p n && (n <=? Z.of_nat (length h)) then
                 (State (s_objs s) (fun y => if span p n y then Val (nth (Z.to_nat (y - p)) h 0%R) else s_mem s y)
                    (s_used s) (s_clock s), Ok tt)
               else (s, UB)
           | None => (s, UB)
           end.
(** cudaMemcpy(host, src, n elements, cudaMemcpyDeviceToHost): the elements *)
Definition copyDH (src : option Z) (n : Z) : M (list word) :=
  fun s => match src with
           | Some q =>
               if live (s_mem s) q n
               then (s, Ok (map (fun i => s_mem s (q + Z.of_nat i)) (seq 0 (Z.to_nat n))))
               else (s, UB)
           | None => (s, UB)
           end.

Definition owning (p : option Z) (c : Z) (o : obj) : obj :=
  Obj (Some p) (Some c) (o_owner o) (o_ocap o) (o_odata o) (o_mesh o).

(** DeviceArray.h 272-289: allocate *)
Definition allocate (x : nat) (n : Z) : M unit :=
  a <~ ask (fun s => isAllocated s x) ;~ assert (negb a) ;~
  w <~ ask (fun s => o <- object s x ;; member (o_owner o)) ;~ assert (negb (notNull w)) ;~
  assert (0 <? n) ;~
  p <~ cudaMalloc n ;~
  assignTo x (fun o => Obj (Some (Some p)) (Some n) (Some None) (o_ocap o) (o_odata o) (o_mesh o)).

(** DeviceArray.h 294-316: associate *)
Definition associate (x y : nat) (b n : Z) : M unit :=
  a <~ ask (fun s => isAllocated s y) ;~ assert a ;~
  w <~ ask (fun s => isOwner s y) ;~ assert w ;~
  assert (0 <=? b) ;~ assert (0 <? n) ;~
  c <~ ask (fun s => capacity s y) ;~ assert (b + n <=? c) ;~
  a' <~ ask (fun s => isAllocated s x) ;~ assert (negb a') ;~
  p <~ ask (fun s => cArray s y) ;~
  match p with
  | None => fun s => (s, UB)  (* arithmetic on nullptr *)
  | Some q =>
      assignTo x (fun o => Obj (Some (Some (q + b))) (Some n) (Some (Some y)) (Some c) (Some (Some q)) (o_mesh o))
  end.

(** DeviceArray.h 323-335: deallocate *)
Definition deallocate (x : nat) : M unit :=
  a <~ ask (fun s => isAllocated s x) ;~ assert a ;~
  w <~ ask (fun s => isOwner s x) ;~ assert w ;~
  p <~ ask (fun s => o <- object s x ;; member (o_data o)) ;~
  cudaFree p ;~
  assignTo x (owning None 0).

(** DeviceArray.h 342-356: dissociate *)
Definition dissociate (x : nat) : M unit :=
  w <~ ask (fun s => isOwner s x) ;~ assert (negb w) ;~
  a <~ ask (fun s => isAllocated s x) ;~ assert a ;~
  assignTo x (fun o => Obj (Some None) (Some 0) (Some None) (Some 0) (Some None) (o_mesh o)).

(** DeviceArray.h 361-391: operator = (DeviceArray const &) *)
Definition assign (x y : nat) : M unit :=
  if (x =? y)%nat then ret tt else
  a <~ ask (fun s => isAllocated s y) ;~ assert a ;~
  a' <~ ask (fun s => isAllocated s x) ;~
  (if a' then ret tt else c <~ ask (fun s => capacity s y) ;~ allocate x c) ;~
  c <~ ask (fun s => capacity s x) ;~ c' <~ ask (fun s => capacity s y) ;~ assert (c =? c') ;~
  q <~ ask (fun s => cArray s y) ;~
  p <~ ask (fun s => o <- object s x ;; member (o_data o)) ;~
  copyDD p q c.

(** DeviceArray.h 396-422: operator = (HostDArray const &); [None] is a host array
    that is not allocated *)
Definition assignHost (x : nat) (h : option (list R)) : M unit :=
  match h with
  | None => assert false
  | Some l =>
      a <~ ask (fun s => isAllocated s x) ;~
      (if a then ret tt else allocate x (Z.of_nat (length l))) ;~
      c <~ ask (fun s => capacity s x) ;~ assert (c =? Z.of_nat (length l)) ;~
      p <~ ask (fun s => o <- object s x ;; member (o_data o)) ;~
      copyHD p l c
  end.

(** HostDArray.h 154-180: operator = (DeviceArray const &) of a host array of
    capacity c ([None]: not allocated); the elements received *)
Definition toHost (x : nat) (hc : option Z) : M (list word) :=
  a <~ ask (fun s => isAllocated s x) ;~ assert a ;~
  c <~ ask (fun s => capacity s x) ;~
  let h := match hc with Some k => k | None => c end in
  assert (h =? c) ;~
  q <~ ask (fun s => cArray s x) ;~
  copyDH q h.

(** HostDArray.h 185-211: copySlice *)
Definition copySlice (x : nat) (hc : option Z) (b : Z) : M (list word) :=
  a <~ ask (fun s => isAllocated s x) ;~ assert a ;~
  match hc with
  | None => assert false ;~ ret []
  | Some h =>
      c <~ ask (fun s => capacity s x) ;~ assert (h + b <=? c) ;~
      q <~ ask (fun s => cArray s x) ;~
      match q with None => fun s => (s, UB) | Some q => copyDH (Some (q + b)) h end
  end.

(** DeviceArray.h 209-217: default constructor; the storage x must not hold an
    object *)
Definition construct (x : nat) : M unit :=
  fun s => match find (s_objs s) x with
           | Some _ => (s, UB)
           | None => (setObj x (Obj (Some None) (Some 0) (Some None) (Some 0) (Some None) []) s, Ok tt)
           end.
(** The same without initialisers *)
Definition constructBare (x : nat) : M unit :=
  fun s => match find (s_objs s) x with
           | Some _ => (s, UB)
           | None => (setObj x (Obj None None None None None []) s, Ok tt)
           end.
(** If the body of a constructor throws there is no object *)
Definition orNone (x : nat) (e : M unit) : M unit :=
  fun s => match e s with
           | (s', Throw) => (State (remove x (s_objs s')) (s_mem s') (s_used s') (s_clock s'), Throw)
           | r => r
           end.
(** DeviceArray.h 222-230: allocating constructor *)
Definition constructSize (x : nat) (n : Z) : M unit := construct x ;~ orNone x (allocate x n).
(** DeviceArray.h 237-249: copy constructor *)
Definition constructCopy (x y : nat) : M unit :=
  constructBare x ;~
  orNone x (
    a <~ ask (fun s => isAllocated s y) ;~ assert a ;~
    c <~ ask (fun s => capacity s y) ;~ allocate x c ;~
    q <~ ask (fun s => cArray s y) ;~
    c <~ ask (fun s => capacity s x) ;~
    p <~ ask (fun s => o <- object s x ;; member (o_data o)) ;~
    copyDD p q c).

(** DeviceArray.h 254-261: destructor *)
Definition destroy (x : nat) : M unit :=
  a <~ ask (fun s => isAllocated s x) ;~
  w <~ (if a then ask (fun s => isOwner s x) else ret false) ;~
  (if w then p <~ ask (fun s => o <- object s x ;; member (o_data o)) ;~ cudaFree p else ret tt) ;~
  fun s => (State (remove x (s_objs s)) (s_mem s) (s_used s) (s_clock s), Ok tt).

(** ** RField.tpp *)

Definition setMesh (l : list Z) (o : obj) : obj :=
  Obj (o_data o) (o_cap o) (o_owner o) (o_ocap o) (o_odata o) l.
(** RField.tpp 56-61, 74-79: the loop that checks and stores the dimensions; its
    result is size.  meshDimensions_[i] is stored before meshDimensions[i + 1] is
    checked. *)
Fixpoint storeMesh (x : nat) (done l : list Z) (size : Z) : M Z :=
  match l with
  | [] => ret size
  | d :: l' =>
      assert (0 <? d) ;~
      assignTo x (fun o => setMesh ((done ++ [d]) ++ skipn (S (length done)) (o_mesh o)) o) ;~
      storeMesh x (done ++ [d]) l' (size * d)
  end.
(** RField.tpp 53-63: allocate *)
Definition allocateR (x : nat) (dims : list Z) : M unit :=
  n <~ storeMesh x [] dims 1 ;~ allocate x n.
(** RField.tpp 71-81: associate *)
Definition associateR (x y : nat) (b : Z) (dims : list Z) : M unit :=
  n <~ storeMesh x [] dims 1 ;~ associate x y b n.
(** RField.tpp 87-93: operator = (RField const &) *)
Definition assignR (x y : nat) : M unit :=
  assign x y ;~ m <~ ask (fun s => o <- object s y ;; Ok (o_mesh o)) ;~ assignTo x (setMesh m).
(** RField.tpp 99-115: operator = (HostDArray const &) *)
Definition assignHostR (x : nat) (h : option (list R)) : M unit :=
  match h with
  | None => assert false
  | Some l =>
      a <~ ask (fun s => isAllocated s x) ;~ assert a ;~
      c <~ ask (fun s => capacity s x) ;~ assert (c =? Z.of_nat (length l)) ;~
      assignHost x h
  end.

(** ** Calls *)

Inductive call :=
| Construct (x : nat) | ConstructSize (x : nat) (n : Z) | ConstructCopy (x y : nat) | Destroy (x : nat)
| Allocate (x : nat) (n : Z) | Associate (x y : nat) (b n : Z) | Deallocate (x : nat) | Dissociate (x : nat)
| Assign (x y : nat) | AssignHost (x : nat) (h : option (list R))
| ToHost (x : nat) (hc : option Z) | CopySlice (x : nat) (hc : option Z) (b : Z)
| Capacity (x : nat) | IsAllocated (x : nat) | IsOwner (x : nat) | CArray (x : nat)
| AllocateR (x : nat) (dims : list Z) | AssociateR (x y : nat) (b : Z) (dims : list Z)
| AssignR (x y : nat) | AssignHostR (x : nat) (h : option (list R)).

Inductive value := VUnit | VInt (z : Z) | VBool (b : bool) | VPtr (p : option Z) | VData (l : list word).
(** An exception that leaves a destructor ends the program (std::terminate) *)
Inductive answer := Answer (v : value) | Exception | Terminate | Undefined | Deep.

Definition said {A} (f : A -> value) (r : outcome A) : answer :=
  match r with Ok a => Answer (f a) | Throw => Exception | UB => Undefined | NoFuel => Deep end.
Definition with_ {A} (f : A -> value) (e : M A) (s : state) : state * answer :=
  let r := e s in (fst r, said f (snd r)).
Definition unit_ : M unit -> state -> state * answer := with_ (fun _ => VUnit).

Definition execute (c : call) (s : state) : state * answer :=
  match c with
  | Construct x => unit_ (construct x) s
  | ConstructSize x n => unit_ (constructSize x n) s
  | ConstructCopy x y => unit_ (constructCopy x y) s
  | Destroy x => match unit_ (destroy x) s with (s', Exception) => (s', Terminate) | r => r end
  | Allocate x n => unit_ (allocate x n) s
  | Associate x y b n => unit_ (associate x y b n) s
  | Deallocate x => unit_ (deallocate x) s
  | Dissociate x => unit_ (dissociate x) s
  | Assign x y => unit_ (assign x y) s
  | AssignHost x h => unit_ (assignHost x h) s
  | ToHost x hc => with_ VData (toHost x hc) s
  | CopySlice x hc b => with_ VData (copySlice x hc b) s
  | Capacity x => with_ VInt (ask (fun s => capacity s x)) s
  | IsAllocated x => with_ VBool (ask (fun s => isAllocated s x)) s
  | IsOwner x => with_ VBool (ask (fun s => isOwner s x)) s
  | CArray x => with_ VPtr (ask (fun s => cArray s x)) s
  | AllocateR x dims => unit_ (allocateR x dims) s
  | AssociateR x y b dims => unit_ (associateR x y b dims) s
  | AssignR x y => unit_ (assignR x y) s
  | AssignHostR x h => unit_ (assignHostR x h) s
  end.

(** A program catches exceptions and goes on; it stops at the other bad ends *)
Fixpoint program (l : list call) (s : state) : state * answer :=
  match l with
  | [] => (s, Answer VUnit)
  | c :: l' =>
      match execute c s with
      | (s', Answer _) | (s', Exception) => program l' s'
      | r => r
      end
  end.

End Arrays.

(** ** The arrays of rpg/solvers/Propagator: qFieldsAll_ (q) and qFields_[i] (f i) *)

(** Propagator.tpp 52-57, 80-87: associated fields; qFields_.allocate(ns) constructs
    ns objects *)
Definition propFields (q : nat) (f : nat -> nat) (dims : list Z) (ns : nat) : list call :=
  map (fun i => Construct (f i)) (seq 0 ns) ++
  map (fun i => AssociateR (f i) q (Z.of_nat i * fold_left Z.mul dims 1) dims) (seq 0 ns).
(** Propagator.tpp 44-59: allocate *)
Definition propAllocate (q : nat) (f : nat -> nat) (dims : list Z) (ns : nat) : list call :=
  Allocate q (Z.of_nat ns * fold_left Z.mul dims 1) :: propFields q f dims ns.
(** Propagator.tpp 65-90: reallocate, from ns to ns' slices *)
Definition propReallocate (q : nat) (f : nat -> nat) (dims : list Z) (ns ns' : nat) : list call :=
  map (fun i => Destroy (f i)) (seq 0 ns) ++ Deallocate q :: propAllocate q f dims ns'.
(** Propagator.h 227, 237: members are destroyed in reverse order *)
Definition propDestroy (q : nat) (f : nat -> nat) (ns : nat) : list call :=
  map (fun i => Destroy (f i)) (seq 0 ns) ++ [Destroy q].
(** All values of ns, one reallocate after the other *)
Fixpoint propReallocates (q : nat) (f : nat -> nat) (dims : list Z) (ns : nat) (l : list nat) : list call :=
  match l with
  | [] => []
  | ns' :: l' => propReallocate q f dims ns ns' ++ propReallocates q f dims ns' l'
  end.
