(** C74: the element-wise operations on device arrays compute their formulas, for
    all arguments, numbers of threads and interleavings. *)
From Coq Require Import Reals ZArith Bool Arith Lia Lra.
From Coquelicot Require Import Complex.
From Coq Require Import List.
From Verif Require Import Base GpuThreads GpuGrid GpuWaveHost GpuKernel VecOp VecOpSpec VecOpProofs VecOpValue
  VecOpKernel VecOpCall PropsGpuWave.
Import ListNotations.
Local Open Scope nat_scope.

(** ** Kernels *)

(** Whatever the number of threads and the order of their steps: no access
    outside the arrays, no use of a word without a value; when the threads are
    done each output element is the formula of the values before, and no other word
    has changed.  The threads are done if each gets enough steps. *)
Theorem C74_kernel : forall o A n m (v : nat -> nat -> C) total sch,
  match o with addVMany k | mulVMany k => 0 < k | _ => True end ->
  (forall k, k < length (types o) -> snd (arr A k) = nth k (types o) Re) ->
  separate A o n ->
  (forall i k, i < n -> In k (operands o) -> holds A m k i (v i k)) ->
  (real_scalar o = true -> forall k, snd (sca A k) = 0%R) ->
  (forall i z, i < n -> In z (divisors o (v i) (sca A)) -> z <> RtoC 0) ->
  (forall k y, k < nout o -> in_array A n k y -> m y <> Free) ->
  0 < total ->
  match kernel A (body o) total n sch m with
  | Ok m' =>
      (forall i k, i < n -> k < nout o -> holds A m' k i (formula o (v i) (sca A) k)) /\
      (forall y, (forall k, k < nout o -> ~ in_array A n k y) -> m' y = m y)
  | NoFuel => ~ enough total (n * length (body o)) sch
  | _ => False
  end.
Proof.
  intros o A n m v total sch Ho Hty Hsep Hv Hr Hd Hf Ht.
  pose proof (op_kernel o A n m v (sca A) Ho Hty Hsep Hv (fun k => eq_refl) Hr Hd Hf total sch Ht) as K.
  pose proof (kernel_finishes A (body o) total n sch m) as F.
  destruct (kernel A (body o) total n sch m); auto. intros H. now apply F.
Qed.
Print Assumptions C74_kernel.

(** ** Wrappers *)

(** Operations on slices: an exception if a slice ends beyond its array, the
    formulas otherwise. *)
Theorem C74_slices : forall dev sch o ds sc n st m v,
  ready dev st -> op_ok o -> (0 < n)%Z -> call o ds sc n m v ->
  (forall p, In p ds -> (0 <= snd p)%Z) ->
  match vec dev sch o ds sc n st m with
  | Ok (m', st') => ready dev st' /\ done o ds sc n m v m'
  | Throw => exists p, In p ds /\ ~ in_bounds n p
  | NoFuel => ~ fair o sch
  | UB => False
  end.
Proof.
  intros dev sch o ds sc n st m v R Ho Hn Hc H0. unfold vec.
  destruct (forallb (fun p => (n + snd p <=? da_cap (fst p))%Z) ds) eqn:E; cbn [check bind].
  - rewrite forallb_forall in E.
    assert (Hb : forall p, In p ds -> in_bounds n p).
    { intros p Hp. specialize (E p Hp). apply Z.leb_le in E. split; auto. }
    pose proof (launch_done o ds sc n m v Ho Hn Hc Hb true dev sch st R) as K.
    destruct (launch true dev sch o ds sc n st m) as [[m' st']| | |]; auto. contradiction.
  - apply Bool.not_true_iff_false in E.
    assert (X : Exists (fun p => ~ in_bounds n p) ds).
    { apply Exists_exists. rewrite forallb_forall in E.
      destruct (Exists_dec (fun p => ~ in_bounds n p) ds) as [X|X].
      - intros p. unfold in_bounds. destruct (Z_le_dec 0 (snd p)), (Z_le_dec (n + snd p) (da_cap (fst p)));
          [right|left|left|left]; tauto.
      - now apply Exists_exists.
      - exfalso. apply E. intros p Hp. apply Z.leb_le.
        destruct (Z_le_dec (n + snd p) (da_cap (fst p))) as [L|L]; [exact L|]. exfalso. apply X. apply Exists_exists. exists p.
        split; [exact Hp|]. unfold in_bounds. tauto. }
    apply Exists_exists in X. exact X.
Qed.
Print Assumptions C74_slices.

(** Operations on whole arrays (VecOp.h; VecOpMisc.cu; Block.tpp) *)
Lemma whole_in : forall ds p, In p (whole ds) -> exists d, In d ds /\ p = (d, 0%Z).
Proof. intros ds p H. apply in_map_iff in H. destruct H as (d & <- & H). eauto. Qed.

Theorem C74_whole : forall dev sch o ds sc st m v,
  ready dev st -> op_ok o -> (0 < capacity0 ds)%Z -> call o (whole ds) sc (capacity0 ds) m v ->
  match vec_all dev sch o ds sc st m with
  | Ok (m', st') => ready dev st' /\ done o (whole ds) sc (capacity0 ds) m v m'
  | Throw => exists d, In d ds /\ (da_cap d < capacity0 ds)%Z
  | NoFuel => ~ fair o sch
  | UB => False
  end.
Proof.
  intros dev sch o ds sc st m v R Ho Hn Hc. unfold vec_all.
  assert (H0 : forall p, In p (whole ds) -> (0 <= snd p)%Z).
  { intros p Hp. apply whole_in in Hp. destruct Hp as (d & _ & ->). cbn. lia. }
  pose proof (C74_slices dev sch o (whole ds) sc (capacity0 ds) st m v R Ho Hn Hc H0) as K.
  destruct (vec dev sch o (whole ds) sc (capacity0 ds) st m) as [[m' st']| | |]; auto.
  destruct K as (p & Hp & Hb). apply whole_in in Hp. destruct Hp as (d & Hd & ->).
  exists d. split; [exact Hd|]. unfold in_bounds in Hb. cbn [fst snd] in Hb. lia.
Qed.
Print Assumptions C74_whole.

Theorem C74_misc : forall dev sch o ds sc st m v,
  ready dev st -> op_ok o -> (0 < capacity0 ds)%Z -> call o (whole ds) sc (capacity0 ds) m v ->
  match misc dev sch o ds sc st m with
  | Ok (m', st') => ready dev st' /\ done o (whole ds) sc (capacity0 ds) m v m'
  | Throw => exists k d, nth_error ds k = Some d /\
      ((da_cap d < capacity0 ds)%Z \/ ((k < nout o \/ o = richardsonEx) /\ da_cap d <> capacity0 ds))
  | NoFuel => ~ fair o sch
  | UB => False
  end.
Proof.
  intros dev sch o ds sc st m v R Ho Hn Hc. unfold misc.
  set (n := capacity0 ds) in *.
  assert (Hin : forall k d, nth_error ds k = Some d -> In (k, d) (combine (seq 0 (length ds)) ds)).
  { intros k d H. assert (G : forall (l : list darr) a j e, nth_error l j = Some e -> In (a + j, e) (combine (seq a (length l)) l)).
    { induction l as [|x l IH]; intros a j e Hj; [destruct j; discriminate|].
      destruct j as [|j]; cbn [nth_error length seq combine] in *.
      - injection Hj as <-. left. now rewrite Nat.add_0_r.
      - right. replace (a + S j) with (S a + j) by lia. now apply IH. }
    now apply (G ds 0). }
  assert (Hout : forall k d, In (k, d) (combine (seq 0 (length ds)) ds) -> nth_error ds k = Some d).
  { intros k d. assert (G : forall (l : list darr) a j e, In (j, e) (combine (seq a (length l)) l) ->
      a <= j /\ nth_error l (j - a) = Some e).
    { induction l as [|x l IH]; intros a j e; cbn [length seq combine]; [intros []|].
      intros [[= <- <-]|H]; [rewrite Nat.sub_diag; auto|].
      apply IH in H. destruct H as [H1 H2]. split; [lia|]. replace (j - a) with (S (j - S a)) by lia. exact H2. }
    intros H. apply (G ds 0) in H. rewrite Nat.sub_0_r in H. tauto. }
  destruct (forallb _ (combine (seq 0 (length ds)) ds)) eqn:E; cbn [check bind].
  - rewrite forallb_forall in E.
    assert (Hb : forall p, In p (whole ds) -> in_bounds n p).
    { intros p Hp. apply whole_in in Hp. destruct Hp as (d & Hd & ->). unfold in_bounds. cbn [fst snd].
      split; [lia|]. destruct (In_nth_error _ _ Hd) as [k Hk]. specialize (E (k, d) (Hin k d Hk)).
      unfold cap_ok in E. cbn [fst snd] in E. destruct (_ || _).
      - apply Z.eqb_eq in E. lia.
      - apply Z.leb_le in E. lia. }
    pose proof (launch_done o (whole ds) sc n m v Ho Hn Hc Hb (negb (in_block o)) dev sch st R) as K.
    destruct (launch (negb (in_block o)) dev sch o (whole ds) sc n st m) as [[m' st']| | |]; auto. contradiction.
  - assert (X : existsb (fun p => negb (cap_ok o n (fst p) (snd p))) (combine (seq 0 (length ds)) ds) = true).
    { clear -E. induction (combine (seq 0 (length ds)) ds) as [|x l IH]; [discriminate|].
      cbn [forallb existsb] in *. destruct (cap_ok o n (fst x) (snd x)); cbn [andb negb orb] in *; auto. }
    apply existsb_exists in X. destruct X as ([k d] & Hp & X). cbn [fst snd] in X.
    exists k, d. split; [now apply Hout|]. unfold cap_ok in X.
    destruct (Nat.ltb_spec k (nout o)) as [L|L]; cbn [orb] in X.
    + apply negb_true_iff, Z.eqb_neq in X. auto.
    + destruct o; try (apply negb_true_iff, Z.leb_gt in X; auto; fail).
      apply negb_true_iff, Z.eqb_neq in X. auto.
Qed.
Print Assumptions C74_misc.

(** Sums and products of any number of arrays, of one capacity *)
Theorem C74_many : forall dev sch (mul : bool) a vecs st m v n,
  let o := if mul then mulVMany (length vecs) else addVMany (length vecs) in
  ready dev st -> (0 < n)%Z -> 1 < length vecs ->
  (forall d, In d (a :: vecs) -> da_cap d = n) ->
  call o (whole (a :: vecs)) [] n m v ->
  match many dev sch mul a vecs st m with
  | Ok (m', st') => ready dev st' /\ done o (whole (a :: vecs)) [] n m v m'
  | NoFuel => ~ fair o sch
  | _ => False
  end.
Proof.
  intros dev sch mul a vecs st m v n o R Hn Hl Hcap Hc. unfold many.
  replace (1 <? length vecs) with true by (symmetry; now apply Nat.ltb_lt). cbn [check bind].
  assert (Hb : forall p, In p (whole (a :: vecs)) -> in_bounds n p).
  { intros p Hp. apply whole_in in Hp. destruct Hp as (d & Hd & ->). unfold in_bounds. cbn [fst snd].
    rewrite (Hcap d Hd). lia. }
  destruct (Nat.eqb_spec (length vecs) 2) as [E2|E2].
  - unfold vec_all. set (o2 := if mul then mulVV RR else addVV RR).
    assert (Hc2 : call o2 (whole (a :: vecs)) [] n m v).
    { unfold o2, o in *. rewrite E2 in Hc. destruct Hc as [H1 H2 H3 H4 H5 H6]. destruct mul; constructor; auto. }
    assert (Ho2 : op_ok o2) by (unfold o2; destruct mul; exact I).
    assert (H0 : forall p, In p (whole (a :: vecs)) -> (0 <= snd p)%Z) by (intros p Hp; apply (Hb p Hp)).
    assert (En : capacity0 (a :: vecs) = n) by (cbn [capacity0]; apply Hcap; now left).
    rewrite En.
    pose proof (C74_slices dev sch o2 (whole (a :: vecs)) [] n st m v R Ho2 Hn Hc2 H0) as K.
    destruct (vec dev sch o2 (whole (a :: vecs)) [] n st m) as [[m' st']| | |]; auto.
    + destruct K as [K1 [K2 K3]]. split; [exact K1|]. split.
      * intros i k p Hi Hk Ep. assert (k = 0) by (unfold o in Hk; destruct mul; cbn [nout] in Hk; lia). subst k.
        specialize (K2 i 0 p Hi ltac:(unfold o2; destruct mul; cbn; lia) Ep).
        replace (formula o (v i) (scalars []) 0) with (formula o2 (v i) (scalars []) 0); [exact K2|].
        unfold o, o2. rewrite E2. destruct mul; cbn [formula Csum Cprod]; ring.
      * intros y Hy. apply K3. intros k p Hk. apply Hy.
        unfold o, o2 in *. destruct mul; exact Hk.
    + destruct K as (p & Hp & X). exfalso. apply X. now apply Hb.
    + intros F. apply K. intros total k t Ht. specialize (F total k t Ht). revert F.
      unfold o, o2. rewrite E2. destruct mul; cbn [body length map seq app mul_body add_body Nat.sub]; nia.
  - assert (Ho : op_ok o) by (unfold o; destruct mul; cbn; lia).
    destruct vecs as [|d vecs]; [cbn in Hl; lia|].
    assert (En : capacity0 (d :: vecs) = n) by (cbn [capacity0]; apply Hcap; right; now left).
    rewrite En. fold o.
    pose proof (launch_done o (whole (a :: d :: vecs)) [] n m v Ho Hn Hc Hb true dev sch st R) as K.
    destruct (launch true dev sch o (whole (a :: d :: vecs)) [] n st m) as [[m' st']| | |]; auto.
Qed.
Print Assumptions C74_many.

(** ** Calls that are not covered *)

Lemma launch_kernel : forall checked dev sch o ds sc n st m, ready dev st -> (0 < n)%Z ->
  exists total st', (n <= Z.of_nat total)%Z /\ 2 <= total /\
    launch checked dev sch o ds sc n st m =
    (m' <- kernel (Args (slices ds) (scalars sc)) (body o) total (Z.to_nat n) (sch total (Z.to_nat n)) m ;;
     Ok (m', st')).
Proof.
  intros checked dev sch o ds sc n st m R Hn.
  destruct (logical_ready dev n st R Hn) as (st' & E & R' & M & P & C1 & A1 & B1).
  exists (Z.to_nat (blocks st' * tpb st')), st'. unfold launch. rewrite E. cbn [bind]. rewrite A1.
  destruct R as (_ & ((j & Hj) & _) & _). rewrite P, Hj in *.
  assert (0 < 2 ^ Z.of_nat j)%Z by (apply Z.pow_pos_nonneg; lia).
  split; [nia|]. split; [nia|]. reflexivity.
Qed.

(** The threads take turns *)
Definition rounds (o : vop) : nat -> nat -> list nat :=
  fun total n => concat (repeat (seq 0 total) (n * length (body o))).
Lemma rounds_fair : forall o, fair o (rounds o).
Proof.
  intros o total n t Ht. unfold rounds. induction (n * length (body o)) as [|k IH]; [lia|].
  cbn [repeat concat]. rewrite count_occ_app, count_seq by auto. lia.
Qed.

(** A negative first index is not refused: a word before the array, here of some
    other array, is overwritten. *)
Definition offArr : darr := Darr 1 Re 1.
Theorem C74_offset_refuted : forall dev st sch, ready dev st -> fair (eqS Re) sch ->
  let ds := [(offArr, (-1)%Z)] in
  let m := fun _ : Z => Val 5 in
  exists m' st', vec dev sch (eqS Re) ds [(7, 0)%R] 1 st m = Ok (m', st') /\
    m' 0%Z = Val 7 /\ m 0%Z = Val 5 /\
    ~ (word_at offArr 0 0 <= 0 < word_at offArr (da_cap offArr) 0)%Z.
Proof.
  intros dev st sch R F ds m. unfold vec.
  change (forallb (fun p => (1 + snd p <=? da_cap (fst p))%Z) ds) with true. cbn [check bind].
  destruct (launch_kernel true dev sch (eqS Re) ds [(7, 0)%R] 1 st m R eq_refl) as (total & st' & H1 & H2 & E).
  rewrite E. change (Z.to_nat 1) with 1 in *.
  set (A := Args (slices ds) (scalars [(7, 0)%R])) in *.
  destruct (kernel_one A (body (eqS Re)) total (sch total 1) m (upd m 0 7)) as (m' & K & V).
  { lia. }
  { apply (F total 1). }
  { intros loc. exists loc. reflexivity. }
  rewrite K. cbn [bind]. exists m', st'. split; [reflexivity|]. rewrite V. split; [reflexivity|].
  split; [reflexivity|]. cbn. lia.
Qed.
Print Assumptions C74_offset_refuted.

(** addVMany and mulVMany do not look at the capacity of the output when there are
    more than two vectors: a shorter output is overrun. *)
Definition manyOut : darr := Darr 0 Re 1.
Definition manyIn : darr := Darr 4 Re 2.
Definition manyMem : memory :=
  fun y => if (y =? 0)%Z then Val 0 else if ((4 <=? y) && (y <? 6))%Z%bool then Val 1 else Free.
Theorem C74_many_refuted : forall dev st sch (mul : bool), ready dev st ->
  fair (if mul then mulVMany 3 else addVMany 3) sch ->
  allocated manyMem manyOut /\ allocated manyMem manyIn /\
  many dev sch mul manyOut [manyIn; manyIn; manyIn] st manyMem = UB.
Proof.
  intros dev st sch mul R F.
  split. { intros y Hy. cbn in Hy. assert (y = 0%Z) by lia. subst y. discriminate. }
  split. { intros y Hy. cbn in Hy. assert (y = 4 \/ y = 5)%Z as [-> | ->] by lia; discriminate. }
  unfold many. cbn [length Nat.ltb Nat.leb check bind Nat.eqb].
  set (o := if mul then mulVMany 3 else addVMany 3) in *.
  set (ds := whole [manyOut; manyIn; manyIn; manyIn]).
  change (capacity0 [manyIn; manyIn; manyIn]) with 2%Z.
  destruct (launch_kernel true dev sch o ds [] 2 st manyMem R eq_refl) as (total & st' & H1 & H2 & E).
  rewrite E. change (Z.to_nat 2) with 2 in *. set (A := Args (slices ds) (scalars [])) in *.
  pose proof (kernel_finishes A (body o) total 2 (sch total 2) manyMem (F total 2)) as Kf.
  pose proof (kernel_throw A (body o) total 2 (sch total 2) manyMem) as Kt.
  pose proof (kernel_alloc A (body o) total 2 (sch total 2) manyMem) as Ka.
  destruct (kernel A (body o) total 2 (sch total 2) manyMem) as [m'| | |]; try congruence; [|reflexivity].
  exfalso. apply (Ka m' ltac:(lia) eq_refl 1 1%Z ltac:(lia)); [|reflexivity].
  unfold o. destruct mul; cbn; tauto.
Qed.
Print Assumptions C74_many_refuted.

(** In place, the complex product, and the pair of products if the second factor is
    the first output, use a word that was already overwritten. *)
Definition cA : darr := Darr 0 Co 1.
Definition cB : darr := Darr 2 Co 1.
Definition cMem : memory := fun y => if (y =? 0)%Z then Val 0 else if (y =? 1)%Z then Val 1 else
  if (y =? 2)%Z then Val 0 else if (y =? 3)%Z then Val 1 else Free.
Theorem C74_in_place_refuted : forall dev st sch, ready dev st -> fair (mulVV CC) sch ->
  allocated cMem cA /\ allocated cMem cB /\ elem cMem cA 0 Ci /\ elem cMem cB 0 Ci /\
  exists m' st', vec_all dev sch (mulVV CC) [cA; cA; cB] [] st cMem = Ok (m', st') /\
    elem m' cA 0 (-1, -1)%R /\ (Ci * Ci = (-1, 0)%R)%C.
Proof.
  intros dev st sch R F.
  split. { intros y Hy. cbn in Hy. assert (y = 0 \/ y = 1)%Z as [-> | ->] by lia; discriminate. }
  split. { intros y Hy. cbn in Hy. assert (y = 2 \/ y = 3)%Z as [-> | ->] by lia; discriminate. }
  split; [split; reflexivity|]. split; [split; reflexivity|].
  unfold vec_all. set (ds := whole [cA; cA; cB]). unfold vec.
  change (capacity0 [cA; cA; cB]) with 1%Z.
  change (forallb (fun p => (1 + snd p <=? da_cap (fst p))%Z) ds) with true. cbn [check bind].
  destruct (launch_kernel true dev sch (mulVV CC) ds [] 1 st cMem R eq_refl) as (total & st' & H1 & H2 & E).
  rewrite E. change (Z.to_nat 1) with 1 in *. set (A := Args (slices ds) (scalars [])) in *.
  destruct (kernel_one A (body (mulVV CC)) total (sch total 1) cMem
    (upd (upd cMem 0 (0 * 0 - 1 * 1)) 1 ((0 * 0 - 1 * 1) * 1 + 1 * 0))%R) as (m' & K & V).
  { lia. }
  { apply (F total 1). }
  { intros loc. exists loc. reflexivity. }
  rewrite K. cbn [bind]. exists m', st'. split; [reflexivity|].
  split. { unfold elem. cbn [da_ty cA]. rewrite !V. unfold upd. cbn. split; f_equal; ring. }
  unfold Ci, Cmult. cbn [fst snd]. f_equal; ring.
Qed.
Print Assumptions C74_in_place_refuted.

Definition rA (j : Z) : darr := Darr j Re 1.
Definition rMem : memory := fun y => if ((0 <=? y) && (y <? 4))%Z%bool then Val (IZR (y + 2)) else Free.
Theorem C74_pair_refuted : forall dev st sch, ready dev st -> fair mulVVPair sch ->
  (forall j, (0 <= j < 4)%Z -> allocated rMem (rA j) /\ elem rMem (rA j) 0 (RtoC (IZR (j + 2)))) /\
  exists m' st', misc dev sch mulVVPair [rA 0; rA 1; rA 2; rA 0; rA 3] [] st rMem = Ok (m', st') /\
    elem m' (rA 0) 0 (RtoC (4 * 5)) /\ elem m' (rA 1) 0 (RtoC (4 * 5 * 5)) /\ (4 * 5 * 5 <> 2 * 5)%R.
Proof.
  intros dev st sch R F.
  split.
  { intros j Hj. assert (j = 0 \/ j = 1 \/ j = 2 \/ j = 3)%Z as [-> |[-> |[-> | ->]]] by lia;
      (split; [intros y Hy; cbn in Hy; match type of Hy with (?a <= _ < _)%Z => assert (y = a) by lia; subst y end; discriminate
              |split; reflexivity]). }
  unfold misc. change (capacity0 [rA 0; rA 1; rA 2; rA 0; rA 3]) with 1%Z.
  set (ds := whole [rA 0; rA 1; rA 2; rA 0; rA 3]).
  match goal with |- context [check ?b] => change b with true end. cbn [check bind].
  match goal with |- context [launch ?c] => change c with true end.
  destruct (launch_kernel true dev sch mulVVPair ds [] 1 st rMem R eq_refl) as (total & st' & H1 & H2 & E).
  rewrite E. change (Z.to_nat 1) with 1 in *. set (A := Args (slices ds) (scalars [])) in *.
  destruct (kernel_one A (body mulVVPair) total (sch total 1) rMem
    (upd (upd rMem 0 (4 * 5)) 1 (4 * 5 * 5))%R) as (m' & K & V).
  { lia. }
  { apply (F total 1). }
  { intros loc. eexists. reflexivity. }
  rewrite K. cbn [bind]. exists m', st'. split; [reflexivity|].
  split. { unfold elem. cbn [da_ty rA]. rewrite V. split; reflexivity. }
  split. { unfold elem. cbn [da_ty rA]. rewrite V. split; reflexivity. }
  lra.
Qed.
Print Assumptions C74_pair_refuted.

(** Wrappers of Block.tpp do not look for errors: with a block size that the device
    refuses they return as if the result were there.  The other wrappers stop. *)
Definition bMem : memory := fun y => if (y =? 0)%Z then Val 0 else Val 1.
Theorem C74_launch_refuted : forall sch, exists st st',
  setThreadsPerBlock gpu1024 2048 tarr0 = Ok st /\
  misc gpu1024 sch richardsonEx [rA 0; rA 1; rA 2; rA 3] [] st bMem = Ok (bMem, st') /\
  call richardsonEx (whole [rA 0; rA 1; rA 2; rA 3]) [] 1 bMem (fun _ _ => RtoC 1) /\
  ~ done richardsonEx (whole [rA 0; rA 1; rA 2; rA 3]) [] 1 bMem (fun _ _ => RtoC 1) bMem /\
  vec_all gpu1024 sch (eqV Re) [rA 0; rA 1] [] st bMem = Throw.
Proof.
  intros sch. exists (mark gpu1024 2048 tarr0), (Tarr 2048 2048 1 1 32).
  split; [reflexivity|]. split; [reflexivity|]. split; [|split; [|reflexivity]].
  - constructor.
    + reflexivity.
    + intros p _ y _. unfold bMem. destruct (y =? 0)%Z; discriminate.
    + intros k l p q Hk Hkl Ep Eq. left. cbn in Hk. assert (k = 0) by lia. subst k.
      cbn in Ep. injection Ep as <-. intros y.
      destruct l as [|[|[|[|l]]]]; cbn in Eq; [lia| | | |destruct l; discriminate];
        injection Eq as <-; unfold in_slice, word_at; cbn; lia.
    + intros _ z [].
    + intros i k p Hi Hk Ep. assert (i = 0) by lia. subst i. cbn in Hk.
      destruct Hk as [<-|[<-|[<-|[]]]]; cbn in Ep; injection Ep as <-; split; reflexivity.
    + intros i z Hi [].
  - intros [D _]. specialize (D 0 0 (rA 0, 0%Z) ltac:(lia) ltac:(cbn; lia) eq_refl).
    unfold elem in D. cbn [fst snd da_ty rA] in D. destruct D as [D _].
    cbn [formula] in D. injection D as D. revert D.
    match goal with |- _ = ?x -> _ => replace x with 1%R; [lra|] end.
    unfold Cdiv, Cinv, Cminus, Cmult, Cplus, Copp, RtoC. cbn [fst snd]. field.
Qed.
Print Assumptions C74_launch_refuted.

(** Slices that overlap without being the same: the result depends on the order in
    which threads take their turns. *)
Lemma run_idle : forall A s m ths, (forall t, t_code (ths t) = []) -> run A s m ths = Ok (m, ths).
Proof. intros A. induction s as [|t s IH]; intros m ths H; cbn [run]; [reflexivity|]. rewrite H. auto. Qed.

Definition ovArr : darr := Darr 0 Re 3.
Definition ovMem : memory :=
  fun y => if ((0 <=? y) && (y <? 3))%Z%bool then Val (IZR (y + 1)) else Free.

Lemma overlap_run : forall first second total s,
  (first = 0 /\ second = 1) \/ (first = 1 /\ second = 0) -> 2 <= total ->
  let A := Args (slices [(ovArr, 1%Z); (ovArr, 0%Z)]) (scalars []) in
  exists m', kernel A (body (eqV Re)) total 2 (first :: second :: s) ovMem = Ok m' /\
    m' 2%Z = Val (if first =? 0 then 1 else 2).
Proof.
  intros first second total s H Ht A. unfold kernel.
  assert (E0 : start (body (eqV Re)) total 2 0 = Thr [(0, St 0 0 (Ld 1 0))] (fun _ => None)).
  { unfold start. replace (0 <? total) with true by (symmetry; apply Nat.ltb_lt; lia).
    destruct total as [|[|t]]; [lia|lia|]. reflexivity. }
  assert (E1 : start (body (eqV Re)) total 2 1 = Thr [(1, St 0 0 (Ld 1 0))] (fun _ => None)).
  { unfold start. replace (1 <? total) with true by (symmetry; apply Nat.ltb_lt; lia).
    destruct total as [|[|t]]; [lia|lia|]. reflexivity. }
  assert (E2 : forall t, 2 <= t -> t_code (start (body (eqV Re)) total 2 t) = []).
  { intros t H2. unfold start. cbn [t_code]. destruct (t <? total); [|reflexivity].
    destruct t as [|[|t]]; [lia|lia|]. reflexivity. }
  set (ths := start (body (eqV Re)) total 2) in *.
  destruct H as [[-> ->]|[-> ->]]; cbn [run]; rewrite ?E0, ?E1; cbn [t_code t_loc];
  match goal with |- context [exec1 ?a ?m ?l ?x] =>
    let r := eval cbn in (exec1 a m l x) in change (exec1 a m l x) with r end; cbn [bind fst snd Nat.eqb];
  rewrite ?E0, ?E1; cbn [t_code t_loc].
  all: match goal with |- context [exec1 ?a ?m ?l ?x] =>
    let r := eval cbn in (exec1 a m l x) in change (exec1 a m l x) with r end; cbn [bind fst snd];
  rewrite run_idle by (intros t; destruct t as [|[|t]]; cbn [Nat.eqb t_code]; auto; apply E2; lia); cbn [bind fst snd];
  (replace (forallb _ (seq 0 total)) with true
    by (symmetry; apply forallb_forall; intros t _; destruct t as [|[|t]]; cbn [Nat.eqb t_code]; auto;
        rewrite E2 by lia; reflexivity));
  eexists; (split; [reflexivity|]); reflexivity.
Qed.

Theorem C74_overlap_refuted : forall dev st, ready dev st -> exists sch1 sch2 m1 m2 st1 st2,
  fair (eqV Re) sch1 /\ fair (eqV Re) sch2 /\
  (forall p, In p [(ovArr, 1%Z); (ovArr, 0%Z)] -> in_bounds 2 p /\ allocated ovMem (fst p)) /\
  vec dev sch1 (eqV Re) [(ovArr, 1%Z); (ovArr, 0%Z)] [] 2 st ovMem = Ok (m1, st1) /\
  vec dev sch2 (eqV Re) [(ovArr, 1%Z); (ovArr, 0%Z)] [] 2 st ovMem = Ok (m2, st2) /\
  elem ovMem ovArr 1 (RtoC 2) /\ elem m1 ovArr 2 (RtoC 1) /\ elem m2 ovArr 2 (RtoC 2).
Proof.
  intros dev st R.
  set (sch1 := fun total n => 0 :: 1 :: rounds (eqV Re) total n).
  set (sch2 := fun total n => 1 :: 0 :: rounds (eqV Re) total n).
  assert (F : forall a b, fair (eqV Re) (fun total n => a :: b :: rounds (eqV Re) total n)).
  { intros a b total n t Ht. pose proof (rounds_fair (eqV Re) total n t Ht).
    cbn [count_occ]. destruct (Nat.eq_dec a t), (Nat.eq_dec b t); lia. }
  destruct (launch_kernel true dev sch1 (eqV Re) [(ovArr, 1%Z); (ovArr, 0%Z)] [] 2 st ovMem R eq_refl)
    as (t1 & st1 & H1 & H2 & Ea).
  destruct (launch_kernel true dev sch2 (eqV Re) [(ovArr, 1%Z); (ovArr, 0%Z)] [] 2 st ovMem R eq_refl)
    as (t2 & st2 & H3 & H4 & Eb).
  destruct (overlap_run 0 1 t1 (rounds (eqV Re) t1 2) ltac:(auto) H2) as (m1 & K1 & V1).
  destruct (overlap_run 1 0 t2 (rounds (eqV Re) t2 2) ltac:(auto) H4) as (m2 & K2 & V2).
  exists sch1, sch2, m1, m2, st1, st2.
  split; [apply F|]. split; [apply F|]. split.
  { intros p Hp.
    assert (Ha : allocated ovMem ovArr).
    { intros y Hy. cbn in Hy. unfold ovMem. replace ((0 <=? y)%Z && (y <? 3)%Z) with true; [discriminate|].
      symmetry. apply andb_true_iff. rewrite Z.leb_le, Z.ltb_lt. lia. }
    destruct Hp as [<-|[<-|[]]]; (split; [unfold in_bounds; cbn; lia|exact Ha]). }
  unfold vec. cbn [forallb fst snd ovArr da_cap andb Z.add]. cbn [Z.leb Z.compare Pos.compare Pos.compare_cont check bind].
  split. { rewrite Ea. change (Z.to_nat 2) with 2. unfold sch1. rewrite K1. reflexivity. }
  split. { rewrite Eb. change (Z.to_nat 2) with 2. unfold sch2. rewrite K2. reflexivity. }
  split; [split; reflexivity|]. split; (split; [assumption|reflexivity]).
Qed.
Print Assumptions C74_overlap_refuted.

(** ** Concrete cases *)

(** (1 + i)(3 + i) and (2 + i) i, on slices *)
Definition exA : darr := Darr 0 Co 3.
Definition exB : darr := Darr 6 Co 2.
Definition exMem : memory := fun y =>
  if (y <? 0)%Z then Free else
  nth (Z.to_nat y) [Junk; Junk; Val 1; Val 1; Val 2; Val 1; Val 3; Val 1; Val 0; Val 1] Free.
Definition exV (i k : nat) : C :=
  match k, i with 0, 0 => (1, 1)%R | 0, _ => (2, 1)%R | _, 0 => (3, 1)%R | _, _ => (0, 1)%R end.

Lemma exMem_alloc : forall y, (0 <= y < 10)%Z -> exMem y <> Free.
Proof.
  intros y Hy. unfold exMem. destruct (Z.ltb_spec y 0); [lia|].
  remember (Z.to_nat y) as k eqn:E. assert (Hk : k < 10) by lia. clear - Hk.
  do 10 (destruct k as [|k]; [discriminate|]). lia.
Qed.
Example C74_call : call (mulEqV ECC) [(exA, 1%Z); (exB, 0%Z)] [] 2 exMem exV.
Proof.
  constructor.
  - reflexivity.
  - intros p [<-|[<-|[]]] y Hy; cbn in Hy; apply exMem_alloc; lia.
  - intros k l p q Hk Hkl Ep Eq. left. cbn in Hk. assert (k = 0) by lia. subst k.
    cbn in Ep. injection Ep as <-. intros y.
    destruct l as [|[|l]]; cbn in Eq; [lia| |destruct l; discriminate].
    injection Eq as <-; unfold in_slice, word_at; cbn; lia.
  - intros _ z [].
  - intros i k p Hi Hk Ep. cbn in Hk.
    assert (i = 0 \/ i = 1) as [-> | ->] by lia; destruct Hk as [<-|[<-|[]]]; cbn in Ep; injection Ep as <-;
      split; reflexivity.
  - intros i z Hi [].
Qed.

Example C74_product : exists m' st',
  vec gpu1024 (rounds (mulEqV ECC)) (mulEqV ECC) [(exA, 1%Z); (exB, 0%Z)] [] 2 st256 exMem = Ok (m', st') /\
  elem m' exA 1 (2, 4)%R /\ elem m' exA 2 (-1, 2)%R /\ m' 0%Z = Junk.
Proof.
  pose proof (C74_slices gpu1024 (rounds (mulEqV ECC)) (mulEqV ECC) [(exA, 1%Z); (exB, 0%Z)] [] 2 st256 exMem exV
    (proj2 C73_ready) I eq_refl C74_call) as K.
  assert (H0 : forall p, In p [(exA, 1%Z); (exB, 0%Z)] -> (0 <= snd p)%Z).
  { intros p [<-|[<-|[]]]; cbn; lia. }
  specialize (K H0).
  destruct (vec _ _ _ _ _ _ _ _) as [[m' st']| | |].
  - destruct K as [_ [K1 K2]]. exists m', st'. split; [reflexivity|].
    pose proof (K1 0 0 (exA, 1%Z) ltac:(lia) ltac:(cbn; lia) eq_refl) as V0.
    pose proof (K1 1 0 (exA, 1%Z) ltac:(lia) ltac:(cbn; lia) eq_refl) as V1.
    cbn [fst snd formula exV] in V0, V1.
    replace ((1, 1)%R * (3, 1)%R)%C with ((2, 4)%R : C) in V0
      by (unfold Cmult; cbn [fst snd]; f_equal; ring).
    replace ((2, 1)%R * (0, 1)%R)%C with ((-1, 2)%R : C) in V1
      by (unfold Cmult; cbn [fst snd]; f_equal; ring).
    split; [exact V0|]. split; [exact V1|]. rewrite K2; [reflexivity|].
    intros k p Hk Ep. cbn in Hk. assert (k = 0) by lia. subst k. cbn in Ep. injection Ep as <-.
    unfold in_slice, word_at. cbn. lia.
  - exfalso. destruct K as (p & Hp & X). apply X. destruct Hp as [<-|[<-|[]]]; unfold in_bounds; cbn; lia.
  - destruct K.
  - exfalso. apply K, rounds_fair.
Qed.

(** In place, where sharing is allowed: a[i] = 4*a[i]*b[i] - c[i] over 3 *)
Example C74_call_shared : call richardsonEx (whole [rA 0; rA 1; rA 0; rA 2]) [] 1 rMem
  (fun _ k => match k with 1 => RtoC 3 | 2 => RtoC 2 | _ => RtoC 4 end).
Proof.
  constructor.
  - reflexivity.
  - intros p Hp y Hy. unfold rMem.
    destruct Hp as [<-|[<-|[<-|[<-|[]]]]]; cbn in Hy;
      (replace ((0 <=? y)%Z && (y <? 4)%Z) with true; [discriminate|]);
      symmetry; apply andb_true_iff; rewrite Z.leb_le, Z.ltb_lt; lia.
  - intros k l p q Hk Hkl Ep Eq. cbn in Hk. assert (k = 0) by lia. subst k.
    cbn in Ep. injection Ep as <-.
    destruct l as [|[|[|[|l]]]]; cbn in Eq; [lia| | | |destruct l; discriminate]; injection Eq as <-.
    + left. intros y. unfold in_slice, word_at. cbn. lia.
    + right. split; [cbn; lia|]. split; reflexivity.
    + left. intros y. unfold in_slice, word_at. cbn. lia.
  - intros _ z [].
  - intros i k p Hi Hk Ep. assert (i = 0) by lia. subst i. cbn in Hk.
    destruct Hk as [<-|[<-|[<-|[]]]]; cbn in Ep; injection Ep as <-; split; reflexivity.
  - intros i z Hi [].
Qed.

(** The product of three arrays *)
Example C74_call_many : call (mulVMany (length [rA 1; rA 2; rA 3])) (whole (rA 0 :: [rA 1; rA 2; rA 3])) [] 1 rMem
  (fun _ k => RtoC (IZR (Z.of_nat k + 2))).
Proof.
  constructor.
  - reflexivity.
  - intros p Hp y Hy. unfold rMem.
    destruct Hp as [<-|[<-|[<-|[<-|[]]]]]; cbn in Hy;
      (replace ((0 <=? y)%Z && (y <? 4)%Z) with true; [discriminate|]);
      symmetry; apply andb_true_iff; rewrite Z.leb_le, Z.ltb_lt; lia.
  - intros k l p q Hk Hkl Ep Eq. left. cbn in Hk. assert (k = 0) by lia. subst k.
    cbn in Ep. injection Ep as <-. intros y.
    destruct l as [|[|[|[|l]]]]; cbn in Eq; [lia| | | |destruct l; discriminate]; injection Eq as <-;
      unfold in_slice, word_at; cbn; lia.
  - intros _ z [].
  - intros i k p Hi Hk Ep. assert (i = 0) by lia. subst i. cbn in Hk.
    destruct Hk as [<-|[<-|[<-|[]]]]; cbn in Ep; injection Ep as <-; split; reflexivity.
  - intros i z Hi [].
Qed.
