(** Model of src/prdc/cuda/WaveList.{h,tpp} with isRealField_ = true.

    Arrays on the device are functions of the index, in the layout of the code:
    component j of the minimum image of wave i is element i + j*kSize of
    minImages_, the derivative of its squared norm with respect to parameter n is
    element n*kSize + i of dKSq_.  Real arithmetic is exact.  The unit cell is the
    argument [c] of each function, as in WaveList.v.

    Blocks of _computeMinimumImages run in an arbitrary order, one after another:
    different blocks use different elements of the global arrays.  Within a block
    threads interleave arbitrarily between barriers.  The three components of an
    image and its squared norm are one value of shared memory; in every round of
    the reduction a thread only changes its own value, and only reads that of a
    thread that is not active in the round. *)
From Coq Require Import Reals List Arith ZArith Bool.
From Verif Require Import Base RSum UnitCell ShiftMin Mesh Fft WaveList GpuThreads GpuReduce GpuGrid.
Import ListNotations.
Local Open Scope nat_scope.

(** An image of a wave and its squared norm *)
Definition wave : Type := ((nat -> Z) * R)%type.

(** WaveList.tpp 100-104 (D = 2), 210-216 (D = 3): the shift of an image *)
Definition shift_of (D imageID : nat) : list Z :=
  match D with
  | 2 =>
      let s0 := imageID / 5 in
      let s1 := imageID - s0 * 5 in
      [Z.of_nat s0 - 2; Z.of_nat s1 - 2]%Z
  | _ =>
      let s0 := imageID / 25 in
      let s1 := (imageID - s0 * 25) / 5 in
      let s2 := imageID - s0 * 25 - s1 * 5 in
      [Z.of_nat s0 - 2; Z.of_nat s1 - 2; Z.of_nat s2 - 2]%Z
  end.

(** WaveList.tpp 543-551, 614-621: kBasis on the device; idx = j*D + k *)
Definition flatK (D : nat) (k : nat -> nat -> R) (idx : nat) : R := k (idx / D) (idx mod D).

(** WaveList.tpp 125-131 (D = 2), 239-248 (D = 3): squared norm *)
Definition gsq (D : nat) (kb : nat -> R) (u : nat -> Z) : R :=
  (match D with
   | 2%nat =>
       let kVec0 := kb 0%nat * IZR (u 0%nat) + kb 2%nat * IZR (u 1%nat) in
       let kVec1 := kb 1%nat * IZR (u 0%nat) + kb 3%nat * IZR (u 1%nat) in
       kVec0 * kVec0 + kVec1 * kVec1
   | _ =>
       let kVec0 := rsum 3 (fun k => kb (3 * k)%nat * IZR (u k)) in
       let kVec1 := rsum 3 (fun k => kb (3 * k + 1)%nat * IZR (u k)) in
       let kVec2 := rsum 3 (fun k => kb (3 * k + 2)%nat * IZR (u k)) in
       kVec0 * kVec0 + kVec1 * kVec1 + kVec2 * kVec2
   end)%R.

(** WaveList.tpp 120-123 (D = 2), 232-237 (D = 3): image of wave p, from the
    wavevectors in global memory *)
Definition image_at (D kSize : nat) (gm : nat -> Z) (d : nat -> Z) (p imageID : nat) (i : nat) : Z :=
  if i <? D then (gm (p + i * kSize)%nat + nth i (shift_of D imageID) 0 * d i)%Z else 0%Z.

(** WaveList.tpp 140-166 (D = 2), 257-285 (D = 3): the value of thread t after a
    round, from its value u and the value v of thread t + stride *)
Definition swap_min (D : nat) (u v : wave) : wave :=
  if Rlt_dec (snd v) (snd u - epsilon) then v
  else if Rlt_dec (snd v) (snd u + epsilon) then
    if lexlt D (fst u) (fst v) then v else u
  else u.

(** WaveList.tpp 554-562: threads per wave; 137, 254: the strides of the reduction *)
Definition threadsPerGP (D : nat) : nat := match D with 1 => 1 | 2 => 32 | _ => 128 end.
Definition strides (D : nat) : list nat :=
  match D with 2 => [16; 8; 4; 2; 1] | _ => [64; 32; 16; 8; 4; 2; 1] end.

(** WaveList.tpp 92-96, 202-206 *)
Definition paramID (D bDim b t : nat) : nat := (b * bDim + t) / threadsPerGP D.
Definition imageID (D bDim b t : nat) : nat := b * bDim + t - paramID D bDim b t * threadsPerGP D.

(** The statements between two barriers: thread t processes the offsets offs t *)
Definition gphase {A} (red : A -> A -> A) (bDim : nat) (offs : nat -> list nat)
  (s : list nat) (m : nat -> option A) : outcome (nat -> option A) :=
  c <- run red s (Conf m offs (fun _ => None)) ;;
  if all_done bDim c then Ok (mem c) else NoFuel.

(** WaveList.tpp 137-171, 254-289: the rounds of the reduction in a block.  With
    D = 3 there is a barrier after each round; with D = 2 there is none, and the
    model is that of a warp whose threads run in lockstep. *)
Fixpoint rounds {A} (red : A -> A -> A) (D kSize bDim b : nat) (l : list nat) (k : nat)
  (sch : nat -> list nat) (m : nat -> option A) : outcome (nat -> option A) :=
  match l with
  | [] => Ok m
  | stride :: l' =>
      m' <- gphase red bDim
              (fun t => if (t <? bDim) && (paramID D bDim b t <? kSize) && (imageID D bDim b t <? stride)
                        then [stride] else []) (sch k) m ;;
      rounds red D kSize bDim b l' (S k) sch m'
  end.

(** The same without any synchronisation between the rounds *)
Definition unsynced {A} (red : A -> A -> A) (D kSize bDim b : nat) (s : list nat)
  (m : nat -> option A) : outcome (nat -> option A) :=
  gphase red bDim
    (fun t => if (t <? bDim) && (paramID D bDim b t <? kSize)
              then filter (fun stride => imageID D bDim b t <? stride) (strides D) else []) s m.

(** WaveList.tpp 118-132, 230-249: shared memory after the load *)
Definition load_images (D kSize bDim b : nat) (gm d : nat -> Z) (kb : nat -> R) (t : nat)
  : option wave :=
  if (t <? bDim) && (paramID D bDim b t <? kSize) then
    let u := image_at D kSize gm d (paramID D bDim b t) (imageID D bDim b t) in
    Some (u, gsq D kb u)
  else None.

(** minImages_ and kSq_ on the device *)
Definition arrays : Type := ((nat -> Z) * (nat -> R))%type.

(** WaveList.tpp 176-180, 294-299: store one wave *)
Definition store (D kSize p : nat) (w : wave) (a : arrays) : arrays :=
  (fold_left (fun m j => set m (p + j * kSize) (fst w j)) (seq 0 D) (fst a), set (snd a) p (snd w)).

Fixpoint store_all (D kSize bDim b : nat) (l : list nat) (m : nat -> option wave) (a : arrays)
  : outcome arrays :=
  match l with
  | [] => Ok a
  | t :: l' =>
      if (imageID D bDim b t =? 0) && (paramID D bDim b t <? kSize) then
        match m t with
        | Some w => store_all D kSize bDim b l' m (store D kSize (paramID D bDim b t) w a)
        | None => UB
        end
      else store_all D kSize bDim b l' m a
  end.

(** Schedules: the order of blocks, of the threads of a block in each round, of
    the threads of a kernel with a grid-stride loop *)
Record wsched := Wsched {
  block_order : nat -> list nat;
  round_order : nat -> nat -> list nat;
  grid_order : nat -> nat -> list nat
}.

(** WaveList.tpp 86-181, 196-300: one block *)
Definition images_block (D kSize bDim : nat) (d : nat -> Z) (kb : nat -> R) (sch : wsched)
  (a : arrays) (b : nat) : outcome arrays :=
  m <- rounds (swap_min D) D kSize bDim b (strides D) 0 (round_order sch b)
         (load_images D kSize bDim b (fst a) d kb) ;;
  store_all D kSize bDim b (seq 0 bDim) m a.

Fixpoint images_blocks (D kSize bDim : nat) (d : nat -> Z) (kb : nat -> R) (sch : wsched)
  (l : list nat) (a : arrays) : outcome arrays :=
  match l with
  | [] => Ok a
  | b :: l' => a' <- images_block D kSize bDim d kb sch a b ;;
               images_blocks D kSize bDim d kb sch l' a'
  end.

(** WaveList.tpp 61-66: while (img > (d>>1)) img -= d; while (img < -1*(d>>1))
    img += d; *)
Fixpoint lower (fuel : nat) (img d : Z) : outcome Z :=
  match fuel with
  | O => NoFuel
  | S f => if (Z.shiftr d 1 <? img)%Z then lower f (img - d) d else Ok img
  end.
Fixpoint raise (fuel : nat) (img d : Z) : outcome Z :=
  match fuel with
  | O => NoFuel
  | S f => if (img <? -1 * Z.shiftr d 1)%Z then raise f (img + d) d else Ok img
  end.
Definition shift_1d (img d : Z) : outcome Z :=
  x <- lower (S (Z.to_nat (Z.abs img))) img d ;; raise (S (Z.to_nat (Z.abs x))) x d.

(** WaveList.tpp 45-71 (D = 1): the kernel with a grid-stride loop.  (A loop that
    did not end would leave the element as it was; shift_1d is proved to end.) *)
Definition images_1d (kSize : nat) (total : nat) (d : Z) (kb : R) (sch : wsched) (a : arrays)
  : outcome arrays :=
  r <- grid_stride
         (fun _ e => match shift_1d (fst e) d with
                     | Ok img => (img, (IZR (img * img) * kb * kb)%R)
                     | _ => e
                     end)
         total (fun t => iterations kSize t kSize total) (grid_order sch total kSize)
         (fun i => (fst a i, snd a i)) ;;
  Ok (fun i => fst (r i), fun i => snd (r i)).

(** ** The class *)

Record gwave := Gwave {
  gPtr : bool;                      (* unitCellPtr_, meshPtr_ not null *)
  gAlloc : bool;                    (* isAllocated_ *)
  gHasMin : bool;                   (* hasMinImages_ *)
  gHasMinH : bool;                  (* hasMinImages_h_ *)
  gHasK : bool;                     (* hasKSq_ *)
  gHasDK : bool;                    (* hasdKSq_ *)
  gDims : list Z;                   (* mesh().dimensions() *)
  gInv : nat -> bool;               (* implicitInverse_ *)
  gMin : nat -> Z;                  (* minImages_ *)
  gK : nat -> R;                    (* kSq_ *)
  gDK : nat -> R                    (* dKSq_ *)
}.

(** WaveList.tpp 421-431: constructor; array contents are arguments. *)
Definition newGwave (m : nat -> Z) (k dk : nat -> R) (iv : nat -> bool) : gwave :=
  Gwave false false false false false false [] iv m k dk.

(** WaveList.tpp 502-511: clearUnitCellData; hasVariableAngle checks the lattice
    for D = 2, 3. *)
Definition g_clear (w : gwave) (c : ucell) : outcome gwave :=
  if gPtr w then
    match uLat c with
    | None => if (uD c =? 1)%nat then Ok (Gwave true (gAlloc w) (gHasMin w) (gHasMinH w) false false (gDims w) (gInv w) (gMin w) (gK w) (gDK w)) else Throw
    | Some l =>
        let keep := negb (hasVariableAngle l) in
        Ok (Gwave true (gAlloc w) (keep && gHasMin w) (keep && gHasMinH w) false false
              (gDims w) (gInv w) (gMin w) (gK w) (gDK w))
    end
  else UB.

(** WaveList.tpp 480-491: implicitInverse_ *)
Definition implicit_at (dims : list Z) (m : nat) : bool :=
  let pos := last (gridPos (computeKMesh dims) m) 0%Z in
  let inverseId := if (pos =? 0)%Z then 0%Z else (last dims 0 - pos)%Z in
  (last (computeKMesh dims) 0 <? inverseId)%Z.

(** WaveList.tpp 443-497: allocate.  minImages_.capacity() is kSize_*D from here on. *)
Definition g_allocate (w : gwave) (dims : list Z) (c : ucell) : outcome gwave :=
  check (0 <? gridSize dims)%Z ;;
  check (0 <? uN c)%nat ;;
  check (negb (gAlloc w)) ;;
  w1 <- g_clear (Gwave true (gAlloc w) (gHasMin w) (gHasMinH w) (gHasK w) (gHasDK w) dims
           (fillTo (nK dims) (implicit_at dims) (gInv w)) (gMin w) (gK w) (gDK w)) c ;;
  Ok (Gwave true true (gHasMin w1) (gHasMinH w1) (gHasK w1) (gHasDK w1) (gDims w1) (gInv w1)
        (gMin w1) (gK w1) (gDK w1)).

(** WaveList.tpp 528-536: the k-grid points as initial images *)
Definition grid_points (D : nat) (dims : list Z) (old : nat -> Z) (e : nat) : Z :=
  if e <? D * nK dims
  then nth (e / nK dims) (gridPos (computeKMesh dims) (e mod nK dims)) 0%Z
  else old e.

(** WaveList.tpp 564-577: number of blocks and threads; kSize_*threadsPerGP is an
    int. *)
Definition images_resources (dev : device) (D kSize : nat) (st : tarr) : outcome tarr :=
  let n := Z.of_nat (kSize * threadsPerGP D) in
  if (2 ^ 31 - 1 <? n)%Z then UB
  else
    st1 <- setThreadsLogical dev n st ;;
    if (D =? 3) && (tpb st1 <? 128)%Z then
      st2 <- setThreadsPerBlock dev 128 st1 ;; setThreadsLogical dev n st2
    else Ok st1.

(** WaveList.tpp 516-587: computeMinimumImages.  The launch is not checked: when
    it is refused, the arrays are left as they are. *)
Definition g_images (dev : device) (sch : wsched) (w : gwave) (c : ucell) (st : tarr)
  : outcome (gwave * tarr) :=
  if gHasMin w then Ok (w, st) else
  check (gAlloc w) ;;
  check (cellOk c) ;;
  let D := uD c in
  let n := nK (gDims w) in
  let gm := grid_points D (gDims w) (gMin w) in
  st1 <- images_resources dev D n st ;;
  a <- (if accepted dev (blocks st1) (tpb st1) then
          if D =? 1
          then images_1d n (Z.to_nat (blocks st1 * tpb st1)) (vecOf (gDims w) 0) (flatK 1 (uK c) 0)
                 sch (gm, gK w)
          else images_blocks D n (Z.to_nat (tpb st1)) (vecOf (gDims w)) (flatK D (uK c)) sch
                 (block_order sch (Z.to_nat (blocks st1))) (gm, gK w)
        else Ok (gm, gK w)) ;;
  Ok (Gwave (gPtr w) (gAlloc w) true (gHasMinH w) true (gHasDK w) (gDims w) (gInv w) (fst a) (snd a)
        (gDK w), st1).

(** WaveList.tpp 329-351 (_computeKSq): squared norm of wave i.  The copy of kBasis
    to shared memory (313-318) is complete when blocks have at least D*D threads. *)
Definition ksq_at (D kSize : nat) (wbz : nat -> Z) (kb : nat -> R) (i : nat) : R :=
  rsum D (fun k => let kVec := rsum D (fun j => (kb (k + D * j)%nat * IZR (wbz (i + j * kSize)%nat))%R) in
                   (kVec * kVec)%R).

(** WaveList.tpp 592-633: computeKSq *)
Definition g_ksq (dev : device) (sch : wsched) (w : gwave) (c : ucell) (st : tarr)
  : outcome (gwave * tarr) :=
  if gHasK w then Ok (w, st) else
  if negb (gHasMin w) then g_images dev sch w c st else
  check (0 <? uN c)%nat ;;
  check (cellOk c) ;;
  let D := uD c in
  let n := nK (gDims w) in
  st1 <- setThreadsLogical dev (Z.of_nat n) st ;;
  let total := Z.to_nat (blocks st1 * tpb st1) in
  a <- (if accepted dev (blocks st1) (tpb st1)
        then grid_stride (fun i _ => ksq_at D n (gMin w) (flatK D (uK c)) i) total
               (fun t => iterations n t n total) (grid_order sch total n) (gK w)
        else Ok (gK w)) ;;
  Ok (Gwave (gPtr w) (gAlloc w) (gHasMin w) (gHasMinH w) true (gHasDK w) (gDims w) (gInv w) (gMin w)
        a (gDK w), st1).

(** WaveList.tpp 655-665: dkkBasis on the device *)
Definition flatDkk (D : nat) (dkk : nat -> nat -> nat -> R) (idx : nat) : R :=
  dkk (idx / (D * D)) (idx mod (D * D) / D) (idx mod D).

(** WaveList.tpp 387-408 (_computedKSq): derivative of the squared norm of wave i
    with respect to parameter param *)
Definition dksq_at (D kSize : nat) (wbz : nat -> Z) (dkk : nat -> R) (iv : nat -> bool) (param i : nat) : R :=
  let d := rsum D (fun j => rsum D (fun k =>
             (IZR (wbz (i + j * kSize)%nat * wbz (i + k * kSize)%nat) * dkk (k + j * D + param * (D * D))%nat)%R)) in
  if iv i then (d * 2)%R else d.

(** WaveList.tpp 384-385, 410: for (param ...) for (i = startID; i < kSize; i += nThreads): indices
    param*kSize + i, in order *)
Definition dksq_todo (nParam kSize total t : nat) : list nat :=
  flat_map (fun param => map (fun i => param * kSize + i) (iterations kSize t kSize total)) (seq 0 nParam).

(** WaveList.tpp 638-683: computedKSq *)
Definition g_dksq (dev : device) (sch : wsched) (w : gwave) (c : ucell) (st : tarr)
  : outcome (gwave * tarr) :=
  if gHasDK w then Ok (w, st) else
  r <- (if negb (gHasMin w) then g_images dev sch w c st else Ok (w, st)) ;;
  let w1 := fst r in
  let st0 := snd r in
  check (0 <? uN c)%nat ;;
  check (cellOk c) ;;
  let D := uD c in
  let n := nK (gDims w1) in
  st1 <- setThreadsLogical dev (Z.of_nat n) st0 ;;
  check (Z.of_nat (uN c * D * D) <? tpb st1)%Z ;;
  let total := Z.to_nat (blocks st1 * tpb st1) in
  a <- (if accepted dev (blocks st1) (tpb st1)
        then grid_stride (fun e _ => dksq_at D n (gMin w1) (flatDkk D (uDkk c)) (gInv w1) (e / n) (e mod n))
               total (dksq_todo (uN c) n total) (grid_order sch total (uN c * n)) (gDK w1)
        else Ok (gDK w1)) ;;
  Ok (Gwave (gPtr w1) (gAlloc w1) (gHasMin w1) (gHasMinH w1) (gHasK w1) true (gDims w1) (gInv w1)
        (gMin w1) (gK w1) a, st1).

(** WaveList.tpp 690-707: minImages_h.  minImages_h_ is never allocated, so that the
    first access is to a null pointer; [halloc] is what it would be if it were. *)
Definition minImages_h (halloc : bool) (D : nat) (w : gwave) : outcome (nat -> nat -> Z) :=
  check (gHasMin w) ;;
  if halloc then Ok (fun i j => gMin w (i + D * j)) else UB.

(** Use by a system, as in WaveList.v *)
Definition gl_step (dev : device) (sch : wsched) (s : ucell * gwave * tarr) (o : wl_op)
  : outcome (ucell * gwave * tarr) :=
  let '(c, w, st) := s in
  match o with
  | WParams ps => c' <- setParameters c ps ;; w' <- g_clear w c' ;; Ok (c', w', st)
  | WMin => r <- g_images dev sch w c st ;; Ok (c, fst r, snd r)
  | WKSq => r <- g_ksq dev sch w c st ;; Ok (c, fst r, snd r)
  | WDKSq => r <- g_dksq dev sch w c st ;; Ok (c, fst r, snd r)
  end.
Fixpoint gl_run (dev : device) (sch : nat -> wsched) (k : nat) (s : ucell * gwave * tarr) (l : list wl_op)
  : outcome (ucell * gwave * tarr) :=
  match l with
  | [] => Ok s
  | o :: l' => s' <- gl_step dev (sch k) s o ;; gl_run dev sch (S k) s' l'
  end.
