(** Model of the host arithmetic of src/prdc/cpu: complex.h (numbers of type
    fftw_complex, that is double[2]), VecOp.cpp and Reduce.cpp.  Memory is a
    function from cells to values, so that arguments may be the same object;
    arithmetic is exact.  In VecOp and complex.h values are real numbers (no
    infinities or NaN); in Reduce a value may be NaN (None). *)
From Coq Require Import Reals List Arith Bool.
From Verif Require Import Base RSum.
Import ListNotations.
Local Open Scope R_scope.

Definition mem := nat -> R.
Definition store (m : mem) (x : nat) (v : R) : mem := fun y => if (y =? x)%nat then v else m y.

(* ---------- complex.h: z[0] is cell z, z[1] is cell z + 1 ---------- *)
(** 33-50. *)
Definition creal (m : mem) (a : nat) : R := m a.
Definition cimag (m : mem) (a : nat) : R := m (a + 1)%nat.
(** 57-72. *)
Definition cabs (m : mem) (a : nat) : R := sqrt (m a * m a + m (a + 1)%nat * m (a + 1)%nat).
Definition cabsSq (m : mem) (a : nat) : R := m a * m a + m (a + 1)%nat * m (a + 1)%nat.
(** 82-88. *)
Definition conjC (m : mem) (z a : nat) : mem :=
  let m := store m z (m a) in store m (z + 1) (- m (a + 1)%nat).
(** 96-102. *)
Definition conjEq (m : mem) (a : nat) : mem :=
  let m := store m a (m a) in store m (a + 1) (- m (a + 1)%nat).
(** 114-120, 129-135, 144-150.  The versions for std::complex at 159-177 are
    the first and the reading of both parts. *)
Definition assign2 (m : mem) (z : nat) (a b : R) : mem := let m := store m z a in store m (z + 1) b.
Definition assign1 (m : mem) (z : nat) (a : R) : mem := let m := store m z a in store m (z + 1) 0.
Definition assignC (m : mem) (z a : nat) : mem :=
  let m := store m z (m a) in store m (z + 1) (m (a + 1)%nat).
(** 189-195, 205-211, 220-226, 235-239. *)
Definition addC (m : mem) (z a b : nat) : mem :=
  let m := store m z (m a + m b) in store m (z + 1) (m (a + 1)%nat + m (b + 1)%nat).
Definition addR (m : mem) (z a : nat) (b : R) : mem :=
  let m := store m z (m a + b) in store m (z + 1) (m (a + 1)%nat).
Definition addEqC (m : mem) (a b : nat) : mem :=
  let m := store m a (m a + m b) in store m (a + 1) (m (a + 1)%nat + m (b + 1)%nat).
Definition addEqR (m : mem) (a : nat) (b : R) : mem := store m a (m a + b).
(** 252-258, 268-274, 283-289, 298-302. *)
Definition subC (m : mem) (z a b : nat) : mem :=
  let m := store m z (m a - m b) in store m (z + 1) (m (a + 1)%nat - m (b + 1)%nat).
Definition subR (m : mem) (z a : nat) (b : R) : mem :=
  let m := store m z (m a - b) in store m (z + 1) (m (a + 1)%nat).
Definition subEqC (m : mem) (a b : nat) : mem :=
  let m := store m a (m a - m b) in store m (a + 1) (m (a + 1)%nat - m (b + 1)%nat).
Definition subEqR (m : mem) (a : nat) (b : R) : mem := store m a (m a - b).
(** 314-321: the local variable z is a pair of cells t of its own. *)
Definition absSqDiff (m : mem) (t a b : nat) : R := cabsSq (subC m t a b) t.
(** 333-339, 349-355. *)
Definition mulC (m : mem) (z a b : nat) : mem :=
  let m := store m z (m a * m b - m (a + 1)%nat * m (b + 1)%nat) in
  store m (z + 1) (m (a + 1)%nat * m b + m a * m (b + 1)%nat).
Definition mulR (m : mem) (z a : nat) (b : R) : mem :=
  let m := store m z (m a * b) in store m (z + 1) (m (a + 1)%nat * b).
(** 364-372, 381-386. *)
Definition mulEqC (m : mem) (a b : nat) : mem :=
  let a0 := m a * m b - m (a + 1)%nat * m (b + 1)%nat in
  let m := store m (a + 1) (m (a + 1)%nat * m b + m a * m (b + 1)%nat) in
  store m a a0.
Definition mulEqR (m : mem) (a : nat) (b : R) : mem :=
  let m := store m a (m a * b) in store m (a + 1) (m (a + 1)%nat * b).
(** 396-402. *)
Definition squareC (m : mem) (z a : nat) : mem :=
  let m := store m z (m a * m a - m (a + 1)%nat * m (a + 1)%nat) in
  store m (z + 1) (2 * m (a + 1)%nat * m a).
(** 414-421, 431-437. *)
Definition divC (m : mem) (z a b : nat) : mem :=
  let bSq := m b * m b + m (b + 1)%nat * m (b + 1)%nat in
  let m := store m z ((m a * m b + m (a + 1)%nat * m (b + 1)%nat) / bSq) in
  store m (z + 1) ((m (a + 1)%nat * m b - m a * m (b + 1)%nat) / bSq).
Definition divR (m : mem) (z a : nat) (b : R) : mem :=
  let m := store m z (m a / b) in store m (z + 1) (m (a + 1)%nat / b).
(** 446-454, 463-468. *)
Definition divEqC (m : mem) (a b : nat) : mem :=
  let bSq := m b * m b + m (b + 1)%nat * m (b + 1)%nat in
  let a0 := (m a * m b + m (a + 1)%nat * m (b + 1)%nat) / bSq in
  let m := store m (a + 1) ((m (a + 1)%nat * m b - m a * m (b + 1)%nat) / bSq) in
  store m a a0.
Definition divEqR (m : mem) (a : nat) (b : R) : mem :=
  let m := store m a (m a / b) in store m (a + 1) (m (a + 1)%nat / b).

(* ---------- VecOp.cpp ---------- *)
(** Array<double>: address of the first element and capacity. *)
Record arr := mkArr { base : nat; cap : nat }.
Definition el (m : mem) (a : arr) (i : nat) : R := m (base a + i)%nat.
(** The loops for (i = 0; i < n; ++i) a[i] = e. *)
Definition vecLoop (n : nat) (a : arr) (e : mem -> nat -> R) (m : mem) : mem :=
  fold_left (fun m i => store m (base a + i) (e m i)) (seq 0 n) m.
(** The checks on capacities, then the loop. *)
Definition checked0 (a : arr) (e : mem -> nat -> R) (m : mem) : outcome mem :=
  check (0 <? cap a)%nat ;; Ok (vecLoop (cap a) a e m).
Definition checked1 (a b : arr) (e : mem -> nat -> R) (m : mem) : outcome mem :=
  check (0 <? cap a)%nat ;; check (cap b =? cap a)%nat ;; Ok (vecLoop (cap a) a e m).
Definition checked2 (a b c : arr) (e : mem -> nat -> R) (m : mem) : outcome mem :=
  check (0 <? cap a)%nat ;; check (cap b =? cap a)%nat ;; check (cap c =? cap a)%nat ;; Ok (vecLoop (cap a) a e m).
(** 23-43. *)
Definition eqV a b m := checked1 a b (fun m i => el m b i) m.
Definition eqS a (b : R) m := checked0 a (fun _ _ => b) m.
(** 50-74. *)
Definition addVV a b c m := checked2 a b c (fun m i => el m b i + el m c i) m.
Definition addVS a b (c : R) m := checked1 a b (fun m i => el m b i + c) m.
(** 81-104. *)
Definition subVV a b c m := checked2 a b c (fun m i => el m b i - el m c i) m.
Definition subVS a b (c : R) m := checked1 a b (fun m i => el m b i - c) m.
(** 111-134. *)
Definition mulVV a b c m := checked2 a b c (fun m i => el m b i * el m c i) m.
Definition mulVS a b (c : R) m := checked1 a b (fun m i => el m b i * c) m.
(** 141-177. *)
Definition divVV a b c m := checked2 a b c (fun m i => el m b i / el m c i) m.
Definition divVS a b (c : R) m := checked1 a b (fun m i => el m b i / c) m.
Definition divSV a (b : R) c m := checked1 a c (fun m i => b / el m c i) m.
(** 184-192. *)
Definition expV a b m := checked1 a b (fun m i => exp (el m b i)) m.
(** 199-219. *)
Definition addEqV a b m := checked1 a b (fun m i => el m a i + el m b i) m.
Definition addEqS a (b : R) m := checked0 a (fun m i => el m a i + b) m.
(** 227-247. *)
Definition subEqV a b m := checked1 a b (fun m i => el m a i - el m b i) m.
Definition subEqS a (b : R) m := checked0 a (fun m i => el m a i - b) m.
(** 254-274. *)
Definition mulEqV a b m := checked1 a b (fun m i => el m a i * el m b i) m.
Definition mulEqS a (b : R) m := checked0 a (fun m i => el m a i * b) m.
(** 281-301. *)
Definition divEqV a b m := checked1 a b (fun m i => el m a i / el m b i) m.
Definition divEqS a (b : R) m := checked0 a (fun m i => el m a i / b) m.

(* ---------- Reduce.cpp ---------- *)
(** A double that is not infinite: NaN is None.  Comparisons with NaN are false. *)
Definition fl := option R.
Definition flt (x y : fl) : bool := match x, y with Some a, Some b => if Rlt_dec a b then true else false | _, _ => false end.
Definition fabs (x : fl) : fl := option_map Rabs x.
Definition fadd (x y : fl) : fl := match x, y with Some a, Some b => Some (a + b) | _, _ => None end.
Definition fmul (x y : fl) : fl := match x, y with Some a, Some b => Some (a * b) | _, _ => None end.

Definition keepMax (best x : fl) : fl := if flt best x then x else best.
Definition keepMin (best x : fl) : fl := if flt x best then x else best.
(** 20-29; arrays are lists. *)
Definition redMax (l : list fl) : outcome fl := match l with [] => Throw | x :: l' => Ok (fold_left keepMax l' x) end.
(** 34-45. *)
Definition redMaxAbs (l : list fl) : outcome fl :=
  match l with [] => Throw | x :: l' => Ok (fold_left (fun b y => keepMax b (fabs y)) l' (fabs x)) end.
(** 50-59. *)
Definition redMin (l : list fl) : outcome fl := match l with [] => Throw | x :: l' => Ok (fold_left keepMin l' x) end.
(** 64-75. *)
Definition redMinAbs (l : list fl) : outcome fl :=
  match l with [] => Throw | x :: l' => Ok (fold_left (fun b y => keepMin b (fabs y)) l' (fabs x)) end.
(** 80-89. *)
Definition redSum (l : list fl) : outcome fl :=
  match l with [] => Throw | _ => Ok (fold_left fadd l (Some 0)) end.
(** 94-106. *)
Definition innerProduct (l l' : list fl) : outcome fl :=
  check (0 <? length l)%nat ;; check (length l' =? length l)%nat ;;
  Ok (fold_left (fun s p => fadd s (fmul (fst p) (snd p))) (combine l l') (Some 0)).
