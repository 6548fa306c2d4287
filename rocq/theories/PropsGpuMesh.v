(** C72: execution configurations of CUDA kernels on a mesh. *)
From Coq Require Import ZArith List Bool Arith Lia.
From Verif Require Import Base GpuThreads GpuMesh GpuMeshProofs.
Import ListNotations.
Local Open Scope Z_scope.

(** ** Specification *)

(** Position in the mesh, and its rank: the last coordinate varies fastest *)
Definition in_mesh (dims pos : list Z) : Prop :=
  Forall2 (fun d p => 0 <= p < d) dims pos.

Definition mesh_rank (dims pos : list Z) : Z :=
  fold_left (fun r dp => r * fst dp + snd dp) (combine dims pos) 0.

(** States reached by calls that returned normally, all for meshes of dimension D;
    setThreadsPerBlock may also have thrown *)
Inductive reach (dev : device) (D : nat) : tmesh -> Prop :=
| reach0 : reach dev D tmesh0
| reach1 : forall st dims inv bs st',
    reach dev D st -> length dims = D ->
    setConfig dev dims inv bs st = (st', Ok tt) -> reach dev D st'
| reach2 : forall st n st' r,
    reach dev D st -> m_setThreadsPerBlock dev n st = (st', r) -> reach dev D st'.

(** A thread that writes element i *)
Definition writer (D : nat) (st : tmesh) (i : Z) (t : thread) : Prop :=
  launched (blk st) (grid st) t /\ writes (mesh st) (cell (blk st) t) = true /\
  kernel_id D (mesh st) (cell (blk st) t) = i.

(** ** Proofs *)

Lemma minv_init : forall dev st, device_ok dev -> m_max st = -1 -> mesh st = Dim3 0 0 0 ->
  exists st1, m_init dev st = Ok st1 /\ forall D, minv D st1.
Proof.
  intros dev st Hd _ Hm. destruct (m_init_ok dev st Hd) as (k & Hk & _ & E).
  eexists. split; [exact E|]. intro D. split; [exists k; auto|]. split; auto.
Qed.

Lemma minv_max : forall D st, minv D st -> (m_max st =? -1) = false.
Proof.
  intros D st ((k & -> & _) & _). apply Z.eqb_neq. pose proof (p2_pos k). lia.
Qed.

Lemma p2_of : forall n, Z.land n (n - 1) = 0 -> 32 <= n -> exists k, n = p2 k /\ (5 <= k)%nat.
Proof.
  intros n H H32. destruct (land_p2 n ltac:(lia) H) as (k & ->). exists k. split; auto.
  change 32 with (p2 5) in H32. now apply p2_le in H32.
Qed.

Lemma reach_minv : forall dev D st, device_ok dev -> (1 <= D <= 3)%nat -> reach dev D st ->
  st = tmesh0 \/ minv D st.
Proof.
  intros dev D st Hd HD H. induction H as [|st dims inv bs st' H IH Hl E|st n st' r H IH E].
  - now left.
  - right.
    assert (H1 : exists st1, (if m_max st =? -1 then m_init dev st else Ok st) = Ok st1 /\ minv D st1).
    { destruct IH as [->|IH].
      - change (m_max tmesh0 =? -1) with true. cbv iota.
        destruct (minv_init dev tmesh0 Hd eq_refl eq_refl) as (s1 & E1 & I1). exists s1. auto.
      - rewrite (minv_max D st IH). eauto. }
    destruct H1 as (st1 & E1 & I1).
    unfold setConfig in E. rewrite E1 in E. cbn [orelse] in E.
    destruct (forallb (fun d => 0 <? d) dims) eqn:Ef; cbn [negb] in E; [|discriminate].
    destruct (matches dims inv bs st1) eqn:Em.
    { injection E as <-. exact I1. }
    assert (Hb : bs < 0 \/ exists k, bs = p2 k /\ (5 <= k)%nat).
    { destruct (Z.lt_ge_cases bs 0) as [Hn|Hn]; [now left|right].
      unfold requested in E. rewrite (proj2 (Z.ltb_ge bs 0) Hn) in E.
      destruct (Z.eqb_spec (Z.land bs (bs - 1)) 0) as [E0|E0];
        cbn [check bind orelse] in E; [|discriminate].
      cbn [set_mesh m_warp] in E. pose proof I1 as (_ & Hw & _). rewrite Hw in E.
      destruct (Z.leb_spec 32 bs) as [E2|E2]; cbn [check bind orelse] in E; [|discriminate].
      now apply p2_of. }
    assert (Hr : request D dims bs).
    { split; auto. split; auto. split; auto. intros d Hi.
      rewrite forallb_forall in Ef. now apply Z.ltb_lt, Ef. }
    destruct (setConfig_ok dev D dims inv bs st1 Hd Hr (or_intror I1)) as (s2 & E2 & I2 & _).
    unfold setConfig in E2. rewrite Ef, (minv_max D st1 I1) in E2. cbn [orelse negb] in E2.
    rewrite Em in E2. rewrite E2 in E. injection E as <-. exact I2.
  - assert (H1 : exists st1, (if m_max st =? -1 then m_init dev st else Ok st) = Ok st1 /\ minv D st1).
    { destruct IH as [->|IH].
      - change (m_max tmesh0 =? -1) with true. cbv iota.
        destruct (minv_init dev tmesh0 Hd eq_refl eq_refl) as (s1 & E1 & I1). exists s1. auto.
      - rewrite (minv_max D st IH). eauto. }
    destruct H1 as (st1 & E1 & I1).
    unfold m_setThreadsPerBlock in E. rewrite E1 in E. cbn [orelse] in E.
    pose proof I1 as (Hk & Hw & Hm). rewrite Hw in E. right.
    destruct (Z.eqb_spec (Z.land n (n - 1)) 0) as [E0|E0]; cbn [negb] in E;
      [|injection E as <- <-; exact I1].
    destruct (Z.ltb_spec n 32) as [E2|E2]; [injection E as <- <-; exact I1|].
    injection E as <- <-. destruct (p2_of n E0 E2) as (k & Ek & Hk5).
    split; [exists k; split; [exact Ek|exact Hk5]|split; [reflexivity|exact Hm]].
Qed.

Lemma divmod : forall b g x, 0 < b -> 0 <= x < b * g ->
  0 <= x / b < g /\ 0 <= x mod b < b /\ x / b * b + x mod b = x.
Proof.
  intros b g x Hb Hx. split; [split|].
  - apply Z.div_pos; lia.
  - apply Z.div_lt_upper_bound; lia.
  - split; [apply Z.mod_pos_bound; lia|]. pose proof (Z.div_mod x b ltac:(lia)). lia.
Qed.

Lemma divmod_unique : forall b q r q' r', 0 <= r < b -> 0 <= r' < b ->
  q * b + r = q' * b + r' -> q = q' /\ r = r'.
Proof. intros. assert (q = q') by nia. subst. lia. Qed.

(** Every point is the cell of exactly one thread *)
Lemma cell_unique : forall m b g T p, good m b g T ->
  0 <= dx p < dx m -> 0 <= dy p < dy m -> 0 <= dz p < dz m ->
  exists t, (launched b g t /\ cell b t = p) /\
    forall t', launched b g t' -> cell b t' = p -> t' = t.
Proof.
  intros m b g T [x y z] (i & j & k & -> & _ & _ & _ & (g1 & g2 & g3) & (C1 & C2 & C3) & _) Hx Hy Hz.
  cbn [dx dy dz] in *.
  destruct (divmod (p2 i) (dx g) x (p2_pos i)) as (X1 & X2 & X3); [lia|].
  destruct (divmod (p2 j) (dy g) y (p2_pos j)) as (Y1 & Y2 & Y3); [lia|].
  destruct (divmod (p2 k) (dz g) z (p2_pos k)) as (Z1 & Z2 & Z3); [lia|].
  exists (Thread (Dim3 (x / p2 i) (y / p2 j) (z / p2 k)) (Dim3 (x mod p2 i) (y mod p2 j) (z mod p2 k))).
  split.
  - split; [unfold launched; cbn [bIdx tIdx dx dy dz]; tauto|].
    unfold cell. cbn [bIdx tIdx dx dy dz]. now rewrite X3, Y3, Z3.
  - intros [[bx bY bz] [tx ty tz]] (L1 & L2 & L3 & L4 & L5 & L6) E.
    unfold cell in E. cbn [bIdx tIdx dx dy dz] in *. injection E as E1 E2 E3.
    rewrite <- X3 in E1. rewrite <- Y3 in E2. rewrite <- Z3 in E3.
    apply divmod_unique in E1; [|lia..]. apply divmod_unique in E2; [|lia..].
    apply divmod_unique in E3; [|lia..].
    destruct E1, E2, E3. now subst.
Qed.

(** The cell at a position and back, for the inverted order of the kernels *)
Lemma rank_cell : forall D dims pos, length dims = D -> (1 <= D <= 3)%nat -> in_mesh dims pos ->
  exists p, 0 <= dx p < dx (to_dim3 true dims) /\ 0 <= dy p < dy (to_dim3 true dims) /\
    0 <= dz p < dz (to_dim3 true dims) /\
    kernel_id D (to_dim3 true dims) p = mesh_rank dims pos /\
    (forall axis, (axis < D)%nat ->
       kernel_axis D axis (to_dim3 true dims) p = Some (nth axis pos 0, nth axis dims 0)).
Proof.
  intros D dims pos Hl HD Hm.
  inversion Hm as [|d1 p1 ds1 ps1 H1 Hm1]; subst; [cbn in HD; lia|].
  inversion Hm1 as [|d2 p2' ds2 ps2 H2 Hm2]; subst.
  - exists (Dim3 p1 0 0). cbn. split; [lia|]. split; [lia|]. split; [lia|]. split; [unfold kernel_id; cbn; lia|].
    intros [|axis] Ha; [reflexivity|lia].
  - inversion Hm2 as [|d3 p3 ds3 ps3 H3 Hm3]; subst.
    + exists (Dim3 p2' p1 0). cbn. split; [lia|]. split; [lia|]. split; [lia|]. split; [unfold kernel_id; cbn; lia|].
      intros [|[|axis]] Ha; [reflexivity|reflexivity|lia].
    + inversion Hm3; subst; [|cbn in HD; lia].
      exists (Dim3 p3 p2' p1). cbn. split; [lia|]. split; [lia|]. split; [lia|]. split; [unfold kernel_id; cbn; lia|].
      intros [|[|[|axis]]] Ha; [reflexivity|reflexivity|reflexivity|lia].
Qed.

Lemma cell_rank : forall D dims p, length dims = D -> (1 <= D <= 3)%nat ->
  0 <= dx p < dx (to_dim3 true dims) -> 0 <= dy p < dy (to_dim3 true dims) ->
  0 <= dz p < dz (to_dim3 true dims) ->
  exists pos, in_mesh dims pos /\ kernel_id D (to_dim3 true dims) p = mesh_rank dims pos /\
    (forall axis, (axis < D)%nat ->
       kernel_axis D axis (to_dim3 true dims) p = Some (nth axis pos 0, nth axis dims 0)).
Proof.
  intros D dims [x y z] Hl HD Hx Hy Hz.
  destruct dims as [|d1 [|d2 [|d3 [|d4 r]]]]; cbn [length] in Hl; subst D; [lia| | | |lia];
    cbn in Hx, Hy, Hz.
  - exists [x]. split; [repeat constructor; lia|]. split; [unfold kernel_id; cbn; lia|].
    intros [|axis] Ha; [reflexivity|lia].
  - exists [y; x]. split; [repeat constructor; lia|]. split; [unfold kernel_id; cbn; lia|].
    intros [|[|axis]] Ha; [reflexivity|reflexivity|lia].
  - exists [z; y; x]. split; [repeat constructor; lia|]. split; [unfold kernel_id; cbn; lia|].
    intros [|[|[|axis]]] Ha; [reflexivity|reflexivity|reflexivity|lia].
Qed.

Lemma kernel_id_inj : forall D dims bs p q, request D dims bs ->
  0 <= dx p < dx (to_dim3 true dims) -> 0 <= dy p < dy (to_dim3 true dims) ->
  0 <= dz p < dz (to_dim3 true dims) ->
  0 <= dx q < dx (to_dim3 true dims) -> 0 <= dy q < dy (to_dim3 true dims) ->
  0 <= dz q < dz (to_dim3 true dims) ->
  kernel_id D (to_dim3 true dims) p = kernel_id D (to_dim3 true dims) q -> p = q.
Proof.
  intros D dims bs [x y z] [x' y' z'] (Hl & HD & _) Hx Hy Hz Hx' Hy' Hz'.
  unfold to_dim3 in *.
  destruct dims as [|d1 [|d2 [|d3 [|d4 r]]]]; cbn [length] in Hl; subst D; [lia| | | |lia];
    unfold kernel_id; cbn in Hx, Hy, Hz, Hx', Hy', Hz' |- *; intro E.
  - f_equal; lia.
  - assert (y = y') by nia. subst. f_equal; lia.
  - assert (z = z').
    { assert (0 <= x + d3 * y < d3 * d2) by nia. assert (0 <= x' + d3 * y' < d3 * d2) by nia.
      assert (E1 : z * (d3 * d2) + (x + d3 * y) = z' * (d3 * d2) + (x' + d3 * y')) by lia.
      apply divmod_unique in E1; lia. }
    subst. assert (y = y') by nia. subst. f_equal; lia.
Qed.

Lemma writes_iff : forall m b g t, launched b g t -> pos3 b ->
  writes m (cell b t) = true <->
  0 <= dx (cell b t) < dx m /\ 0 <= dy (cell b t) < dy m /\ 0 <= dz (cell b t) < dz m.
Proof.
  intros m b g t (L1 & L2 & L3 & L4 & L5 & L6) (P1 & P2 & P3). unfold writes.
  rewrite !andb_true_iff, !Z.ltb_lt. unfold cell. cbn [dx dy dz]. split; [|tauto].
  intros ((H1 & H2) & H3). split; [nia|]. split; nia.
Qed.

Lemma good_pos : forall m b g T, good m b g T -> pos3 b.
Proof.
  intros m b g T (i & j & k & -> & _). repeat split; cbn [dx dy dz]; apply p2_pos.
Qed.

(** setConfig succeeds from every reachable state; then every grid point is
    written by exactly one thread, which computes its coordinates; and no thread
    writes outside of the array. *)
Theorem C72_cover : forall dev D st dims bs,
  device_ok dev -> reach dev D st -> request D dims bs ->
  exists st', setConfig dev dims true bs st = (st', Ok tt) /\ reach dev D st' /\
    (forall pos, in_mesh dims pos ->
       exists t, writer D st' (mesh_rank dims pos) t /\
         (forall t', writer D st' (mesh_rank dims pos) t' -> t' = t) /\
         (forall axis, (axis < D)%nat ->
            kernel_axis D axis (mesh st') (cell (blk st') t)
            = Some (nth axis pos 0, nth axis dims 0))) /\
    (forall t i, writer D st' i t -> exists pos, in_mesh dims pos /\ i = mesh_rank dims pos).
Proof.
  intros dev D st dims bs Hd Hr Hq.
  assert (HD : (1 <= D <= 3)%nat) by apply Hq. assert (Hl : length dims = D) by apply Hq.
  destruct (setConfig_ok dev D dims true bs st Hd Hq (reach_minv dev D st Hd HD Hr))
    as (st' & E & _ & Em & Hg & _).
  exists st'. split; [exact E|]. split; [exact (reach1 dev D st dims true bs st' Hr Hl E)|].
  pose proof (good_pos _ _ _ _ Hg) as Hp. rewrite Em in *. split.
  - intros pos Hpos.
    destruct (rank_cell D dims pos Hl HD Hpos) as (p & P1 & P2 & P3 & Pid & Pax).
    destruct (cell_unique _ _ _ _ p Hg P1 P2 P3) as (t & (Ht & Hc) & Hu).
    exists t. split; [|split].
    + split; [exact Ht|]. rewrite Em. split; [|rewrite Hc; exact Pid].
      apply (writes_iff _ _ _ _ Ht Hp). rewrite Hc. auto.
    + intros t' (L & W & I). rewrite Em in W, I. apply Hu; auto.
      apply (writes_iff _ _ _ _ L Hp) in W. destruct W as (W1 & W2 & W3).
      apply (kernel_id_inj D dims bs); auto. now rewrite I, Pid.
    + intros axis Ha. rewrite Hc. now apply Pax.
  - intros t i (L & W & I). rewrite Em in W, I.
    apply (writes_iff _ _ _ _ L Hp) in W. destruct W as (W1 & W2 & W3).
    destruct (cell_rank D dims _ Hl HD W1 W2 W3) as (pos & Hpos & Hid & _).
    exists pos. split; auto. now rewrite <- I, Hid.
Qed.

(** Whole warps, powers of two, at most 64 in z, no block without a grid point;
    and no more threads than were asked for, unless a stored configuration is
    reused *)
Theorem C72_shape : forall dev D st dims inv bs,
  device_ok dev -> reach dev D st -> request D dims bs ->
  exists st' i j k, setConfig dev dims inv bs st = (st', Ok tt) /\
    blk st' = Dim3 (2 ^ Z.of_nat i) (2 ^ Z.of_nat j) (2 ^ Z.of_nat k) /\
    dx (blk st') * dy (blk st') * dz (blk st') = m_tpb st' /\ m_tpb st' mod 32 = 0 /\
    dz (blk st') <= 64 /\
    (forall u v w, 0 <= u < dx (grid st') -> 0 <= v < dy (grid st') -> 0 <= w < dz (grid st') ->
       writes (mesh st') (cell (blk st') (Thread (Dim3 u v w) (Dim3 0 0 0))) = true) /\
    (0 < bs -> m_tpb st' <= bs) /\
    (bs < 0 -> matches dims inv bs st = false -> m_tpb st' <= m_max st').
Proof.
  intros dev D st dims inv bs Hd Hr Hq.
  assert (HD : (1 <= D <= 3)%nat) by apply Hq.
  pose proof (reach_minv dev D st Hd HD Hr) as Hi.
  destruct (setConfig_ok dev D dims inv bs st Hd Hq Hi) as (st' & E & _ & Em & Hg & HT).
  pose proof Hg as (i & j & k & Hb & Hs & HTp & Hk & Hgp & HC & HI1 & HI2 & HI3).
  exists st', i, j, k. split; [exact E|]. split; [exact Hb|].
  split. { rewrite Hb. cbn [dx dy dz]. rewrite <- !p2_add. exact HTp. }
  split. { rewrite <- HTp. change 32 with (p2 5). replace (i + j + k)%nat with (i + j + k - 5 + 5)%nat by lia.
           rewrite p2_add. apply Z.mod_mul. pose proof (p2_pos 5). lia. }
  split. { rewrite Hb. cbn [dz]. change 64 with (p2 6). now apply p2_le. }
  split.
  { intros u v w Hu Hv Hw. rewrite Hb in HI1, HI2, HI3 |- *. cbn [dx dy dz] in HI1, HI2, HI3.
    pose proof (p2_pos i). pose proof (p2_pos j). pose proof (p2_pos k).
    unfold writes, cell. cbn [dx dy dz bIdx tIdx]. rewrite !andb_true_iff, !Z.ltb_lt.
    split; [split|]; nia. }
  split.
  - intro Hbs. destruct (matches dims inv bs st) eqn:Emt.
    + destruct Hi as [->|Hi].
      * unfold matches in Emt. rewrite (proj2 (Z.ltb_lt 0 bs) Hbs) in Emt. cbn [m_tpb tmesh0] in Emt.
        rewrite (proj2 (Z.eqb_neq bs (-1))) in Emt by lia. cbn in Emt. discriminate.
      * destruct (matches_mesh D dims inv bs st Hq Hi Emt) as (_ & _ & _ & [Hn|Hbs2]); [lia|].
        unfold setConfig in E. rewrite (minv_max D st Hi) in E. cbn [orelse] in E.
        rewrite Emt in E. destruct (forallb (fun d => 0 <? d) dims); cbn [negb] in E; [|discriminate].
        injection E as <-. lia.
    + specialize (HT eq_refl). rewrite (proj2 (Z.ltb_ge bs 0)) in HT by lia. exact HT.
  - intros Hn Emt. specialize (HT Emt). now rewrite (proj2 (Z.ltb_lt bs 0) Hn) in HT.
Qed.

(** ** What fails *)

(** Volta: 2048 threads per multiprocessor, at most 1024 per block *)
Definition gpu : device := Device 32 2048 1024.

Definition st_of (r : tmesh * outcome unit) : tmesh := fst r.

(** A stored configuration is reused for a mesh of lower dimension with the same
    first dimension: then several threads write the same element. *)
Theorem C72_dimension_refuted : exists st st' t t',
  setConfig gpu [32; 32; 32] true (-1) tmesh0 = (st, Ok tt) /\
  setConfig gpu [32] true (-1) st = (st', Ok tt) /\
  t <> t' /\ writer 1 st' 0 t /\ writer 1 st' 0 t'.
Proof.
  exists (st_of (setConfig gpu [32; 32; 32] true (-1) tmesh0)),
         (st_of (setConfig gpu [32; 32; 32] true (-1) tmesh0)),
         (Thread (Dim3 0 0 0) (Dim3 0 0 0)), (Thread (Dim3 0 0 0) (Dim3 0 1 0)).
  split; [vm_compute; reflexivity|]. split; [vm_compute; reflexivity|].
  split; [discriminate|].
  split; (split; [unfold launched; vm_compute; repeat split; discriminate|
                  split; vm_compute; reflexivity]).
Qed.

(** After an exception for a bad block size the mesh is remembered as configured:
    the repeated request succeeds and launches nothing. *)
Theorem C72_exception_refuted : exists st,
  setConfig gpu [64; 64; 64] true 48 tmesh0 = (st, Throw) /\
  setConfig gpu [64; 64; 64] true (-1) st = (st, Ok tt) /\
  forall t, ~ launched (blk st) (grid st) t.
Proof.
  exists (st_of (setConfig gpu [64; 64; 64] true 48 tmesh0)).
  split; [vm_compute; reflexivity|]. split; [vm_compute; reflexivity|].
  intros t (H & _). remember (dx (bIdx t)) as x eqn:Ex.
  change (dx (grid _)) with 0 in H. lia.
Qed.

(** setThreadsPerBlock has no effect on a configuration that is already stored, and
    accepts more threads per block than the device supports. *)
Theorem C72_setting_refuted :
  (exists st st' st'', setConfig gpu [64; 64; 64] true (-1) tmesh0 = (st, Ok tt) /\
     m_setThreadsPerBlock gpu 64 st = (st', Ok tt) /\
     setConfig gpu [64; 64; 64] true (-1) st' = (st'', Ok tt) /\
     m_max st'' = 64 /\ m_tpb st'' = 1024) /\
  (exists st st', m_setThreadsPerBlock gpu 2048 tmesh0 = (st, Ok tt) /\
     setConfig gpu [64; 64; 64] true (-1) st = (st', Ok tt) /\
     maxPerBlock gpu < dx (blk st') * dy (blk st') * dz (blk st')).
Proof.
  split.
  - eexists. eexists. eexists. split; [vm_compute; reflexivity|].
    split; [vm_compute; reflexivity|]. split; [vm_compute; reflexivity|].
    split; reflexivity.
  - eexists. eexists. split; [vm_compute; reflexivity|].
    split; [vm_compute; reflexivity|]. vm_compute. reflexivity.
Qed.

(** ** Concrete cases *)

Example C72_device : device_ok gpu.
Proof. vm_compute. repeat split; discriminate. Qed.

Example C72_request : request 3 [72; 40; 50] (-1).
Proof.
  split; [reflexivity|]. split; [lia|]. split; [|left; lia].
  intros d H. cbn in H. lia.
Qed.

Example C72_reached : exists st, setConfig gpu [64; 64; 64] true 256 tmesh0 = (st, Ok tt) /\
  reach gpu 3 st.
Proof.
  eexists. split; [vm_compute; reflexivity|].
  apply (reach1 gpu 3 tmesh0 [64; 64; 64] true 256); [constructor|reflexivity|].
  vm_compute. reflexivity.
Qed.

Example C72_config :
  setConfig gpu [72; 40; 50] true (-1) tmesh0
  = (Tmesh 2048 1024 1024 32 (Dim3 50 40 72) (Dim3 32 8 4) (Dim3 2 5 18), Ok tt) /\
  setConfig gpu [5] true (-1) tmesh0
  = (Tmesh 2048 1024 32 32 (Dim3 5 1 1) (Dim3 32 1 1) (Dim3 1 1 1), Ok tt).
Proof. split; vm_compute; reflexivity. Qed.

Print Assumptions C72_cover.
Print Assumptions C72_shape.
Print Assumptions C72_dimension_refuted.
Print Assumptions C72_exception_refuted.
Print Assumptions C72_setting_refuted.
