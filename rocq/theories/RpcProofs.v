From Coq Require Import Reals ZArith List Bool Arith Lia Lra.
From Verif Require Import Base RSum MeshSpec Polymer PolymerSpec PolymerProofs PropsPolymer Solve SolveProofs
  Species Fft FftProofs R1d R1dProofs PropsR1d Rpc.
Import ListNotations.
Local Open Scope R_scope.

Lemma iter_swap : forall (T : field -> field) k f, Nat.iter k T (T f) = T (Nat.iter k T f).
Proof. induction k; intros; [reflexivity|]. simpl. rewrite IHk. auto. Qed.
Lemma iter_add : forall (T : field -> field) j k f, Nat.iter (j + k) T f = Nat.iter j T (Nat.iter k T f).
Proof. induction j; intros; [reflexivity|]. simpl. rewrite IHj. auto. Qed.

Section Adj.
Variables (n : nat) (wt : nat -> R).
Notation avg := (wavg n wt).
Definition Adj (T T' : field -> field) : Prop := forall f g, avg (T f) g = avg f (T' g).

Lemma Adj_sym : forall T T', Adj T T' -> Adj T' T.
Proof. intros T T' H f g. rewrite wavg_comm, <- H, wavg_comm. auto. Qed.
Lemma Adj_comp : forall T T' S S', Adj T T' -> Adj S S' ->
  Adj (fun f => T (S f)) (fun g => S' (T' g)).
Proof. intros T T' S S' H1 H2 f g. rewrite H1, H2. auto. Qed.
Lemma Adj_id : Adj (fun f => f) (fun f => f).
Proof. intros f g. auto. Qed.
Lemma Adj_diag : forall e, Adj (fun f i => f i * e i) (fun f i => f i * e i).
Proof. intros e f g. unfold wavg. apply rsum_ext. intros. lra. Qed.
Lemma Adj_lin : forall a b T S, Adj T T -> Adj S S ->
  Adj (fun f i => a * T f i + b * S f i) (fun f i => a * T f i + b * S f i).
Proof.
  intros a b T S HT HS f g.
  transitivity (a * avg (T f) g + b * avg (S f) g).
  - unfold wavg. rewrite <- !rsum_scal, <- rsum_plus. apply rsum_ext. intros; lra.
  - rewrite HT, HS. unfold wavg. rewrite <- !rsum_scal, <- rsum_plus. apply rsum_ext. intros; lra.
Qed.
Lemma Adj_iter : forall T T' k, Adj T T' -> Adj (Nat.iter k T) (Nat.iter k T').
Proof.
  intros T T' k H. induction k; [apply Adj_id|].
  intros f g. change (Nat.iter (S k) T f) with (T (Nat.iter k T f)). rewrite H, IHk.
  rewrite iter_swap. reflexivity.
Qed.
End Adj.

Section K.
Variable dims : list Z.
Let n := nR dims.
Let wt := fun _ : nat => 1 / INR n.

Lemma kOp_selfadj : forall e, Adj n wt (kOp dims e) (kOp dims e).
Proof.
  intros e f g. unfold wavg, wt.
  set (c := 1 / INR n).
  set (M := fun r s => rsum (nK dims) (fun k => c2rWeight dims k * e k * cos (theta dims k r - theta dims k s))).
  assert (K : forall h r, kOp dims e h r = rsum n (fun s => h s * c * M r s))
    by (intros; unfold kOp; rewrite fft_kernel; reflexivity).
  assert (SM : forall r s, M r s = M s r).
  { intros. unfold M. apply rsum_ext. intros. rewrite <- cos_neg. do 2 f_equal. lra. }
  rewrite (rsum_ext n (fun i => c * (kOp dims e f i * g i))
     (fun r => rsum n (fun s => c * c * (f s * g r * M r s)))).
  2:{ intros r _. rewrite K, <- rsum_scal_r, <- rsum_scal. apply rsum_ext. intros; lra. }
  rewrite rsum_swap. apply rsum_ext. intros s _. rewrite K, <- rsum_scal, <- rsum_scal.
  apply rsum_ext. intros r _. rewrite (SM s r). lra.
Qed.

Lemma wavg_ext2 : forall f g f' g', (forall i, f i = f' i) -> (forall i, g i = g' i) ->
  wavg n wt f g = wavg n wt f' g'.
Proof. intros. unfold wavg. apply rsum_ext. intros. rewrite H, H0. auto. Qed.

Variable kSq : nat -> R.
Lemma stepThread_selfadj : forall kuhn ds w,
  Adj n wt (stepThread dims kSq kuhn ds w) (stepThread dims kSq kuhn ds w).
Proof.
  intros kuhn ds w.
  set (K := kOp dims (expKsq kSq Thread kuhn ds)). set (K2 := kOp dims (expKsq2 kSq Thread kuhn ds)).
  set (D := fun (f : field) i => f i * expW Thread ds w i). set (D2 := fun (f : field) i => f i * expW2 ds w i).
  assert (A1 : Adj n wt (fun f => D2 (K2 (D (K2 (D2 f))))) (fun f => D2 (K2 (D (K2 (D2 f)))))).
  { assert (X := kOp_selfadj (expKsq2 kSq Thread kuhn ds)). fold K2 in X.
    assert (Y2 : Adj n wt D2 D2) by apply Adj_diag. assert (Y : Adj n wt D D) by apply Adj_diag.
    apply (Adj_comp n wt (fun f => D2 (K2 (D (K2 f)))) (fun f => K2 (D (K2 (D2 f)))) D2 D2); auto.
    apply (Adj_comp n wt (fun f => D2 (K2 (D f))) (fun f => D (K2 (D2 f))) K2 K2); auto.
    apply (Adj_comp n wt (fun f => D2 (K2 f)) (fun f => K2 (D2 f)) D D); auto.
    apply (Adj_comp n wt D2 D2 K2 K2); auto. }
  assert (A2 : Adj n wt (fun f => D (K (D f))) (fun f => D (K (D f)))).
  { assert (X := kOp_selfadj (expKsq kSq Thread kuhn ds)). fold K in X.
    assert (Y : Adj n wt D D) by apply Adj_diag.
    apply (Adj_comp n wt (fun f => D (K f)) (fun f => K (D f)) D D); auto.
    apply (Adj_comp n wt D D K K); auto. }
  intros f g. assert (L := Adj_lin n wt (4/3) (-1/3) _ _ A1 A2 f g). cbv beta in L.
  assert (E : forall q i, stepThread dims kSq kuhn ds w q i =
     4/3 * D2 (K2 (D (K2 (D2 q)))) i + -1/3 * D (K (D q)) i).
  { intros q i. change (stepThread dims kSq kuhn ds w q i)
      with ((4 * D2 (K2 (D (K2 (D2 q)))) i - D (K (D q)) i) / 3). lra. }
  etransitivity; [|etransitivity; [exact L|]]; apply wavg_ext2; intros i; auto.
Qed.

(** Bead model. *)
Variables (kuhn : R) (w : field).
Notation W := (stepFieldB w).
Notation B := (stepBond dims kSq kuhn).
Notation H := (stepHalfBond dims kSq kuhn).
Notation WB := (stepBead dims kSq kuhn w).

Lemma W_adj : Adj n wt W W. Proof. apply Adj_diag. Qed.
Lemma B_adj : Adj n wt B B. Proof. apply kOp_selfadj. Qed.
Lemma H_adj : Adj n wt H H. Proof. apply kOp_selfadj. Qed.
Lemma WB_adj : Adj n wt WB (fun f => B (W f)).
Proof. apply (Adj_comp n wt W W B B); [apply W_adj|apply B_adj]. Qed.

Lemma WB_W : forall k f, Nat.iter k WB (W f) = W (Nat.iter k (fun f => B (W f)) f).
Proof.
  induction k; intros; [reflexivity|].
  change (Nat.iter (S k) WB (W f)) with (WB (Nat.iter k WB (W f))). rewrite IHk. reflexivity.
Qed.

Definition endOp (e : bool) (f : field) : field := if e then f else H f.
Lemma endOp_adj : forall e, Adj n wt (endOp e) (endOp e).
Proof. intros []; [apply Adj_id|apply H_adj]. Qed.

(** (WB)^k W is self-adjoint. *)
Lemma WBW_adj : forall k, Adj n wt (fun f => Nat.iter k WB (W f)) (fun f => Nat.iter k WB (W f)).
Proof.
  intros k f g. rewrite (WB_W k g).
  assert (A := Adj_comp n wt _ _ _ _ (Adj_iter n wt _ _ k WB_adj) W_adj). apply A.
Qed.

Lemma wavg_div : forall f g, wavg n wt f (fun i => W g i * expWInv w i) = wavg n wt f g.
Proof.
  intros. apply wavg_ext2; auto. intros i. unfold stepFieldB, expW, expWInv.
  field. assert (0 < exp (- w i)) by apply exp_pos. lra.
Qed.

(** Product of the two propagators at any bead. *)
Lemma bead_product : forall j k f g,
  wavg n wt (fun i => Nat.iter j WB (W f) i) (fun i => Nat.iter k WB (W g) i * expWInv w i) =
  wavg n wt f (Nat.iter (j + k) WB (W g)).
Proof.
  intros j k f g. rewrite (WB_W k g). rewrite wavg_div.
  assert (A := WBW_adj j f (Nat.iter k (fun f => B (W f)) g)). cbv beta in A.
  etransitivity; [exact A|]. apply wavg_ext2; auto. intros i.
  rewrite <- (WB_W k g). rewrite <- iter_add. reflexivity.
Qed.
End K.

(** Slices of the bead model by index. *)
Lemma nth_beadSlices : forall dims kSq nb kuhn w he te h j, (1 <= j <= nb)%nat ->
  nth j (beadSlices dims kSq nb kuhn w he te h) zero_field =
  Nat.iter (j - 1) (stepBead dims kSq kuhn w) (stepFieldB w (endOp dims kSq kuhn he h)).
Proof.
  intros. destruct nb as [|nb]; [lia|]. destruct j as [|j]; [lia|]. unfold beadSlices. cbn [nth].
  rewrite app_nth1 by (rewrite iterSlices_length; lia). rewrite nth_iterSlices by lia.
  rewrite Nat.sub_succ, Nat.sub_0_r. reflexivity.
Qed.
Lemma last_beadSlices : forall dims kSq nb kuhn w he te h, (1 <= nb)%nat ->
  last (beadSlices dims kSq nb kuhn w he te h) zero_field =
  endOp dims kSq kuhn te (Nat.iter (nb - 1) (stepBead dims kSq kuhn w) (stepFieldB w (endOp dims kSq kuhn he h))).
Proof.
  intros. destruct nb as [|nb]; [lia|]. unfold beadSlices. rewrite app_comm_cons, last_last.
  rewrite Nat.sub_succ, Nat.sub_0_r. unfold endOp. reflexivity.
Qed.
Lemma hd_beadSlices : forall dims kSq nb kuhn w he te h,
  hd zero_field (beadSlices dims kSq nb kuhn w he te h) = h.
Proof. intros. destruct nb; reflexivity. Qed.

(** Contour discretization of the thread model. *)
Lemma rpcNs_cases : forall len ds, 0 < len -> 0 < ds ->
  exists m, (1 <= m)%Z /\ rpcNs len ds = (2 * m + 1)%Z /\ IZR (2 * m) * rpcDs len ds = len /\ 0 < rpcDs len ds.
Proof.
  intros len ds Hl Hd. unfold rpcDs, rpcNs, floorZ.
  assert (B := Int_part_bounds (len / (2 * ds) + 1/2)).
  set (t := Int_part (len / (2 * ds) + 1/2)) in *.
  assert (P : 0 < len / (2 * ds)) by (apply Rdiv_lt_0_compat; lra).
  assert (T : (0 <= t)%Z).
  { assert (IZR (-1) < IZR t) by (simpl; lra). apply lt_IZR in H. lia. }
  set (m := if (t =? 0)%Z then 1%Z else t). exists m.
  assert (Hm : (1 <= m)%Z) by (unfold m; destruct (Z.eqb_spec t 0); lia).
  assert (0 < IZR (2 * m)) by (apply (IZR_lt 0); lia).
  split; auto. split; auto. replace (2 * m + 1 - 1)%Z with (2 * m)%Z by lia.
  split; [field; lra|]. apply Rdiv_lt_0_compat; lra.
Qed.

(** Weights of the Simpson rule add up to 3 (ns - 1). *)
Lemma simpson_weights : forall m,
  rsum (2 * m) (fun j => if Nat.odd j then 4 else 0) = INR (4 * m) /\
  rsum (2 * m + 1) (fun j => if Nat.even j && (2 <=? j)%nat then 2 else 0) = INR (2 * m).
Proof.
  induction m.
  - simpl. split; lra.
  - destruct IHm as [A B]. replace (2 * S m)%nat with (S (S (2 * m))) by lia.
    replace (S (S (2 * m)) + 1)%nat with (S (S (2 * m + 1))) by lia. cbn [rsum].
    assert (O1 : Nat.odd (2 * m) = false) by (rewrite <- Nat.negb_even; rewrite Nat.even_mul; auto).
    assert (O2 : Nat.odd (S (2 * m)) = true) by (rewrite Nat.odd_succ, Nat.even_mul; auto).
    assert (O3 : Nat.even (2 * m + 1) = false) by (rewrite Nat.add_1_r, Nat.even_succ; auto).
    assert (O4 : Nat.even (S (2 * m + 1)) = true) by (rewrite Nat.even_succ, Nat.add_1_r; auto).
    rewrite O1, O2, O3, O4, A, B. cbn [andb].
    destruct (Nat.leb_spec 2 (S (2 * m + 1))); [|lia].
    split.
    + replace (4 * S m)%nat with (4 * m + 4)%nat by lia. rewrite plus_INR. simpl (INR 4). lra.
    + rewrite !S_INR. lra.
Qed.
