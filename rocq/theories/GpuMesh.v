(** Execution configuration of kernels on a mesh: pscf/cuda/ThreadMesh.cu.

    The static variables of the anonymous namespace are a record.  The unsigned
    components of dim3 and the ints are [Z]; the largest product formed,
    BLOCK_DIMS.x*y*z, stays below 2^31 for meshes of at most 2^19 points along
    each direction, and the model is exact for those.  Messages and the flag
    UNUSED_THREADS, which nothing reads, are not modelled.  A call returns the
    state that it leaves behind also when it throws. *)
From Coq Require Import ZArith List Bool Lia.
From Verif Require Import Base GpuThreads.
Import ListNotations.
Local Open Scope Z_scope.

Record dim3 := Dim3 { dx : Z; dy : Z; dz : Z }.

(** ThreadMesh.cu lines 25-48: MAX_THREADS_PER_SM, MAX_THREADS_PER_BLOCK,
    THREADS_PER_BLOCK, WARP_SIZE, MESH_DIMS, BLOCK_DIMS, GRID_DIMS *)
Record tmesh := Tmesh {
  m_sm : Z;
  m_max : Z;
  m_tpb : Z;
  m_warp : Z;
  mesh : dim3;
  blk : dim3;
  grid : dim3
}.

Definition tmesh0 : tmesh :=
  Tmesh (-1) (-1) (-1) (-1) (Dim3 0 0 0) (Dim3 0 0 0) (Dim3 0 0 0).

(** ThreadMesh.cu lines 53-83 (init), a device being present *)
Definition m_init (dev : device) (st : tmesh) : outcome tmesh :=
  let t := Z.land (maxPerSM dev) (Z.lnot (maxPerSM dev - 1)) in
  t' <- shrink (S (Z.to_nat t)) t (maxPerBlock dev) ;;
  Ok (Tmesh (maxPerSM dev) t' (m_tpb st) (warpSize dev) (mesh st) (blk st) (grid st)).

(** meshDims in the order x, y, z: lines 104-111, 121-131.  [dims] has D = 1, 2
    or 3 elements. *)
Definition ordered (invert : bool) (dims : list Z) : list Z :=
  if invert then rev dims else dims.

(** ThreadMesh.cu lines 100-112: the test whether the request matches the stored
    configuration *)
Definition matches (dims : list Z) (invert : bool) (blockSize : Z) (st : tmesh) : bool :=
  if (0 <? blockSize) && negb (blockSize =? m_tpb st) then false
  else
    match ordered invert dims with
    | [] => true
    | [x] => x =? dx (mesh st)
    | [x; y] => (x =? dx (mesh st)) && (y =? dy (mesh st))
    | x :: y :: z :: _ =>
        (x =? dx (mesh st)) && (y =? dy (mesh st)) && (z =? dz (mesh st))
    end.

(** ThreadMesh.cu lines 119-131: MESH_DIMS *)
Definition to_dim3 (invert : bool) (dims : list Z) : dim3 :=
  match ordered invert dims with
  | [] => Dim3 0 1 1
  | [x] => Dim3 x 1 1
  | [x; y] => Dim3 x y 1
  | x :: y :: z :: _ => Dim3 x y z
  end.

(** ThreadMesh.cu lines 149-172: BLOCK_DIMS.x *)
Definition block_x (mx w : Z) : Z :=
  if Z.rem mx w =? 0 then w
  else if Z.land mx (mx - 1) =? 0 then mx
  else if Z.rem (Z.quot mx (Z.quot w 2)) 2 =? 0 then Z.quot w 2
  else w.

(** ThreadMesh.cu lines 175-178, 182-185: while (b < m) b *= 2; *)
Fixpoint pow2_up (fuel : nat) (b m : Z) : outcome Z :=
  match fuel with
  | O => NoFuel
  | S f => if b <? m then pow2_up f (b * 2) m else Ok b
  end.

(** g = m / b; if (m % b) g++; *)
Definition ceil_grid (m b : Z) : Z :=
  if Z.rem m b =? 0 then Z.quot m b else Z.quot m b + 1.

(** ThreadMesh.cu lines 200-219: while (blockSize > THREADS_PER_BLOCK) ... *)
Fixpoint shrink_block (fuel : nat) (T my mz bx bY gY bz gz : Z)
  : outcome (Z * Z * Z * Z) :=
  match fuel with
  | O => NoFuel
  | S f =>
      if T <? bx * bY * bz then
        let yOvershoot := bY * gY - my in
        let zOvershoot := bz * gz - mz in
        if (zOvershoot <? yOvershoot) || (bz =? 1) then
          _ <- check (1 <? bY) ;;
          let bY' := Z.quot bY 2 in
          shrink_block f T my mz bx bY' (ceil_grid my bY') bz gz
        else
          let bz' := Z.quot bz 2 in
          shrink_block f T my mz bx bY gY bz' (ceil_grid mz bz')
      else Ok (bY, gY, bz, gz)
  end.

(** ThreadMesh.cu lines 225-229: while ((x < mx) && (bs < T)) { x *= 2; bs *= 2; } *)
Fixpoint grow_x (fuel : nat) (mx T bx bs : Z) : outcome (Z * Z) :=
  match fuel with
  | O => NoFuel
  | S f => if (bx <? mx) && (bs <? T) then grow_x f mx T (bx * 2) (bs * 2) else Ok (bx, bs)
  end.

(** ThreadMesh.cu lines 230-237: at least one warp *)
Fixpoint grow_warp (fuel : nat) (w bx bs : Z) : outcome (Z * Z) :=
  match fuel with
  | O => NoFuel
  | S f => if bs <? w then grow_warp f w (bx * 2) (bs * 2) else Ok (bx, bs)
  end.

(** ThreadMesh.cu lines 149-244: block and grid dimensions and the final
    THREADS_PER_BLOCK *)
Definition dimensions (m : dim3) (w T : Z) : outcome (dim3 * dim3 * Z) :=
  let bx := block_x (dx m) w in
  bY <- pow2_up (S (Z.to_nat (dy m))) 1 (dy m) ;;
  bz0 <- pow2_up (S (Z.to_nat (dz m))) 1 (dz m) ;;
  let bz := if 64 <? bz0 then 64 else bz0 in
  let gz := ceil_grid (dz m) bz in
  let bs := bx * bY * bz in
  if T <=? bs then
    r <- shrink_block (S (Z.to_nat bs)) T (dy m) (dz m) bx bY 1 bz gz ;;
    match r with
    | (bY', gY', bz', gz') =>
        let bs' := bx * bY' * bz' in
        _ <- check (bs' =? T) ;;
        _ <- check (Z.rem bs' w =? 0) ;;
        Ok (Dim3 bx bY' bz', Dim3 (ceil_grid (dx m) bx) gY' gz', T)
    end
  else
    p <- grow_x (S (Z.to_nat (dx m))) (dx m) T bx bs ;;
    q <- (if snd p <? w then
            _ <- check (0 <? snd p) ;; grow_warp (S (Z.to_nat w)) w (fst p) (snd p)
          else Ok p) ;;
    Ok (Dim3 (fst q) bY bz, Dim3 (ceil_grid (dx m) (fst q)) 1 gz, snd q).

(** ThreadMesh.cu lines 273-334 (checkConfig) *)
Definition checkConfig (st : tmesh) : outcome unit :=
  _ <- check (Z.land (m_max st) (m_max st - 1) =? 0) ;;
  _ <- check (Z.rem (m_max st) (m_warp st) =? 0) ;;
  _ <- check (Z.rem (m_tpb st) (m_warp st) =? 0) ;;
  _ <- check ((1 <=? dx (blk st)) && (1 <=? dy (blk st)) && (1 <=? dz (blk st))) ;;
  _ <- check (dx (blk st) * dy (blk st) * dz (blk st) =? m_tpb st) ;;
  _ <- check ((dx (mesh st) <=? dx (blk st) * dx (grid st)) &&
              (dy (mesh st) <=? dy (blk st) * dy (grid st)) &&
              (dz (mesh st) <=? dz (blk st) * dz (grid st))) ;;
  if m_max st =? 0 then UB else Ok tt.

Definition set_mesh (st : tmesh) (m : dim3) : tmesh :=
  Tmesh (m_sm st) (m_max st) (m_tpb st) (m_warp st) m (blk st) (grid st).
Definition set_tpb (st : tmesh) (T : Z) : tmesh :=
  Tmesh (m_sm st) (m_max st) T (m_warp st) (mesh st) (blk st) (grid st).
Definition set_dims (st : tmesh) (b g : dim3) : tmesh :=
  Tmesh (m_sm st) (m_max st) (m_tpb st) (m_warp st) (mesh st) b g.

(** ThreadMesh.cu lines 133-147: the block size that is requested *)
Definition requested (st : tmesh) (blockSize : Z) : outcome Z :=
  if blockSize <? 0 then Ok (m_max st)
  else
    _ <- check (Z.land blockSize (blockSize - 1) =? 0) ;;
    _ <- check (m_warp st <=? blockSize) ;;
    Ok blockSize.

(** The rest of a computation that may fail, with the state left behind then *)
Definition orelse {A} (st : tmesh) (x : outcome A) (f : A -> tmesh * outcome unit)
  : tmesh * outcome unit :=
  match x with
  | Ok a => f a
  | Throw => (st, Throw)
  | UB => (st, UB)
  | NoFuel => (st, NoFuel)
  end.

(** ThreadMesh.cu lines 87-263 (setConfig).  (When [dimensions] throws, which it
    is proved not to do, BLOCK_DIMS and GRID_DIMS are left as they were.) *)
Definition setConfig (dev : device) (dims : list Z) (invert : bool) (blockSize : Z)
  (st : tmesh) : tmesh * outcome unit :=
  if negb (forallb (fun d => 0 <? d) dims) then (st, Throw)
  else
    orelse st (if m_max st =? -1 then m_init dev st else Ok st) (fun st1 =>
    if matches dims invert blockSize st1 then (st1, Ok tt)
    else
      let st2 := set_mesh st1 (to_dim3 invert dims) in
      orelse st2 (requested st2 blockSize) (fun T =>
      let st3 := set_tpb st2 T in
      orelse st3 (dimensions (mesh st3) (m_warp st3) T) (fun r =>
      match r with
      | (b, g, T') =>
          let st4 := set_tpb (set_dims st3 b g) T' in (st4, checkConfig st4)
      end))).

(** ThreadMesh.cu lines 341-360 (setThreadsPerBlock) *)
Definition m_setThreadsPerBlock (dev : device) (blockSize : Z) (st : tmesh)
  : tmesh * outcome unit :=
  orelse st (if m_max st =? -1 then m_init dev st else Ok st) (fun st1 =>
  if negb (Z.land blockSize (blockSize - 1) =? 0) then (st1, Throw)
  else if blockSize <? m_warp st1 then (st1, Throw)
  else (Tmesh (m_sm st1) blockSize (m_tpb st1) (m_warp st1) (mesh st1) (blk st1) (grid st1),
        Ok tt)).

(** ** Threads of a kernel launched with the stored configuration *)

(** blockIdx and threadIdx *)
Record thread := Thread { bIdx : dim3; tIdx : dim3 }.

(** The threads of a launch <<<g, b>>> *)
Definition launched (b g : dim3) (t : thread) : Prop :=
  0 <= dx (bIdx t) < dx g /\ 0 <= dy (bIdx t) < dy g /\ 0 <= dz (bIdx t) < dz g /\
  0 <= dx (tIdx t) < dx b /\ 0 <= dy (tIdx t) < dy b /\ 0 <= dz (tIdx t) < dz b.

(** rpg/environment/FilmFieldGenMask.tpp lines 58-60, FilmFieldGenExt.tpp lines
    65-67: (ix, iy, iz) *)
Definition cell (b : dim3) (t : thread) : dim3 :=
  Dim3 (dx (bIdx t) * dx b + dx (tIdx t)) (dy (bIdx t) * dy b + dy (tIdx t))
       (dz (bIdx t) * dz b + dz (tIdx t)).

(** FilmFieldGenMask.tpp line 79: the threads that write *)
Definition writes (m p : dim3) : bool :=
  (dx p <? dx m) && (dy p <? dy m) && (dz p <? dz m).

(** FilmFieldGenMask.tpp lines 63-65: index in the linearized array *)
Definition kernel_id (D : nat) (m p : dim3) : Z :=
  dx p + (if Nat.ltb 1 D then dx m * dy p else 0) +
  (if Nat.ltb 2 D then dx m * dy m * dz p else 0).

(** FilmFieldGenMask.tpp lines 68-77: the coordinate along normalVecId and the
    number of points along that direction, whose quotient is d *)
Definition kernel_axis (D normal : nat) (m p : dim3) : option (Z * Z) :=
  match D, normal with
  | 3%nat, 2%nat => Some (dx p, dx m)
  | 3%nat, 1%nat => Some (dy p, dy m)
  | 3%nat, O => Some (dz p, dz m)
  | 2%nat, 1%nat => Some (dx p, dx m)
  | 2%nat, O => Some (dy p, dy m)
  | 1%nat, _ => Some (dx p, dx m)
  | _, _ => None
  end.
