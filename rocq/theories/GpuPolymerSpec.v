(** Specification of a polymer solver on the GPU: which arrays there are, where
    they lie, and what it means that an array holds a field. *)
From Coq Require Import Reals ZArith List Bool.
From Verif Require Import GpuKernel VecOp Fft Rpc GpuBlock.
Import ListNotations.

(** Words of an array *)
Definition occupies (d : darr) (y : Z) : Prop :=
  (da_addr d <= y < da_addr d + Z.of_nat (match da_ty d with Re => 1 | Co => 2 end) * da_cap d)%Z.
Definition disjoint (d d' : darr) : Prop := forall y, occupies d y -> ~ occupies d' y.
Definition present (m : memory) (d : darr) : Prop := forall y, occupies d y -> m y <> Free.
Definition defined (m : memory) (d : darr) : Prop := forall y, occupies d y -> exists x, m y = Val x.
Definition shape (d : darr) (t : ty) (n : nat) : Prop := da_ty d = t /\ da_cap d = Z.of_nat n.
(** An array of real numbers holds f *)
Definition holdsR (m : memory) (d : darr) (f : nat -> R) : Prop :=
  forall i, (Z.of_nat i < da_cap d)%Z -> m (da_addr d + Z.of_nat i)%Z = Val (f i).

(** Arrays of a block with their types and sizes *)
Definition arraysOf (dims : list Z) (model : polyModel) (batched : bool) (ns : nat) (B : garrays) : list (darr * ty * nat) :=
  [(a_expW B, Re, nR dims); (a_expKsq B, Re, nK dims); (a_expKsq2 B, Re, nK dims); (a_c B, Re, nR dims);
   (a_rTmp B, Re, nK dims); (a_q0All B, Re, ns * nR dims); (a_q1All B, Re, ns * nR dims)] ++
  match model with
  | Thread => [(a_expW2 B, Re, nR dims); (a_qrPair B, Re, 2 * nR dims); (a_qkPair B, Co, 2 * nK dims)]
  | Bead => [(a_expWInv B, Re, nR dims); (a_qk B, Co, nK dims)]
  end ++
  if batched then [(a_q0kB B, Co, ns * nK dims); (a_q1kB B, Co, ns * nK dims)]
  else [(a_q0k B, Co, nK dims); (a_q1k B, Co, nK dims)].

(** Arrays of nB blocks; [input d n] are the arrays of n real numbers that are
    only read. *)
Record layout (dims : list Z) (model : polyModel) (batched : bool) (nB : nat) (ns : nat -> nat) (arr : nat -> garrays)
  (input : darr -> nat -> Prop) (m : memory) : Prop := Layout {
  lo_shape : forall b d t n, b < nB -> In (d, t, n) (arraysOf dims model batched (ns b) (arr b)) -> shape d t n;
  lo_present : forall b d t n, b < nB -> In (d, t, n) (arraysOf dims model batched (ns b) (arr b)) -> present m d;
  lo_apart : forall b b' i j x y, b < nB -> b' < nB ->
    nth_error (arraysOf dims model batched (ns b) (arr b)) i = Some x ->
    nth_error (arraysOf dims model batched (ns b') (arr b')) j = Some y ->
    b <> b' \/ i <> j -> disjoint (fst (fst x)) (fst (fst y));
  lo_input : forall d n, input d n -> shape d Re n /\ present m d /\
    forall b d' t n', b < nB -> In (d', t, n') (arraysOf dims model batched (ns b) (arr b)) -> disjoint d' d }.

(** Arrays that a polymer solver reads: the fields of the monomer types of its
    blocks, |k|^2 and its derivatives *)
Definition inputs (dims : list Z) (bs : list pblock) (nB : nat) (wD : nat -> darr) (kSqD : darr) (dKSqD : nat -> darr)
  (nParams : nat) (d : darr) (n : nat) : Prop :=
  (exists b, b < nB /\ d = wD (pb_monomer (pblockAt bs b)) /\ n = nR dims) \/
  (d = kSqD /\ n = nK dims) \/
  (exists k, k < nParams /\ d = dKSqD k /\ n = nK dims).

(** Memory of a polymer solver: its arrays exist, and the arrays that it reads hold
    the field w m of each monomer type m of a block, kSq and dKSq n. *)
Record solver_memory (dims : list Z) (model : polyModel) (batched : bool) (dsTarget : R) (bs : list pblock) (nB : nat)
  (arr : nat -> garrays) (wD : nat -> darr) (kSqD : darr) (dKSqD : nat -> darr) (nParams : nat)
  (w : nat -> nat -> R) (kSq : nat -> R) (dKSq : nat -> nat -> R) (m : memory) : Prop := Solver_memory {
  sm_layout : layout dims model batched nB (pNs model dsTarget bs) arr (inputs dims bs nB wD kSqD dKSqD nParams) m;
  sm_w : forall b, b < nB -> holdsR m (wD (pb_monomer (pblockAt bs b))) (w (pb_monomer (pblockAt bs b)));
  sm_kSq : holdsR m kSqD kSq;
  sm_dKSq : forall n, n < nParams -> holdsR m (dKSqD n) (dKSq n) }.

(** The exponentials of |k|^2 of every block are up to date. *)
Definition holds_expKsq (model : polyModel) (dsTarget : R) (bs : list pblock) (arr : nat -> garrays) (kSq : nat -> R)
  (m : memory) (b : nat) : Prop :=
  holdsR m (a_expKsq (arr b)) (fun k => exp (- (kSq k * (pb_kuhn (pblockAt bs b) * pb_kuhn (pblockAt bs b) / 6) * pDs model dsTarget bs b))) /\
  holdsR m (a_expKsq2 (arr b)) (fun k => exp (- (kSq k * (pb_kuhn (pblockAt bs b) * pb_kuhn (pblockAt bs b) / 6) * pDs model dsTarget bs b) / 2)).
