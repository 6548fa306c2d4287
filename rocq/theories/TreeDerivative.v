(** Derivative of the partition function of a tree of blocks.  The propagators
    of all blocks depend on a parameter t; if changing block b alone changes the
    contraction of its two ends by c b, the partition function changes by the
    sum of the c b.  The proof counts the vertices and edges of the tree. *)
From Coq Require Import Reals List Bool Arith Lia Lra Permutation Relations.
From Coquelicot Require Import Coquelicot.
From Coq Require Import List.
From Verif Require Import Base RSum UnitCellProofs Polymer PolymerSpec PolymerProofs PropsPolymer Solve SolveProofs.
Import ListNotations.
Local Open Scope R_scope.

Lemma derive_value : forall (f : R -> R) t a b, is_derive f t a -> is_derive f t b -> a = b.
Proof. intros f t a b A B. rewrite <- (is_derive_unique _ _ _ A). now apply is_derive_unique. Qed.

(** Derivative of a product over a list. *)
Fixpoint dprod {A} (f df : A -> R) (l : list A) : R :=
  match l with [] => 0 | a :: l' => df a * lprod f l' + f a * dprod f df l' end.
Lemma lprod_derive : forall {A} (f : A -> R -> R) df t0 l,
  (forall a, In a l -> is_derive (f a) t0 (df a)) ->
  is_derive (fun t => lprod (fun a => f a t) l) t0 (dprod (fun a => f a t0) df l).
Proof.
  intros A f df t0. induction l as [|a l IH]; intros H; cbn [lprod dprod].
  - apply (is_derive_const 1).
  - apply (is_derive_Rmult (f a) (fun t => lprod (fun a => f a t) l)).
    + apply H. now left.
    + apply IH. intros. apply H. now right.
Qed.
Lemma dprod_rest : forall {A} (f df rest : A -> R) l K,
  (forall l1 y l2, l = l1 ++ y :: l2 -> K * (lprod f l1 * lprod f l2) = rest y) ->
  K * dprod f df l = lsum (fun y => df y * rest y) l.
Proof.
  intros A f df rest. induction l as [|a l IH]; intros K H; cbn [dprod lsum]; [ring|].
  rewrite <- (H [] a l eq_refl). rewrite <- (IH (K * f a)).
  - cbn [lprod]. ring.
  - intros l1 y l2 E. rewrite <- (H (a :: l1) y l2) by (rewrite E; reflexivity). cbn [lprod]. ring.
Qed.
Lemma lprod_app : forall {A} (f : A -> R) l1 l2, lprod f (l1 ++ l2) = lprod f l1 * lprod f l2.
Proof. intros A f. induction l1; intros; cbn [lprod app]; [ring|]. rewrite IHl1. ring. Qed.

Section T.
Variable es : list edge.
Variable vs : list vertex.
Hypothesis HT : tree es.
Hypothesis HV : graphVertices es vs.
Hypothesis Hne : es <> [].
Variables (nx : nat) (wt : nat -> R) (t0 : R).
(** Value at grid point i of the head and the tail of propagator x. *)
Variables (H T : dart -> R -> field).
Notation avg := (wavg nx wt).
Hypothesis Hhead : forall x t i, is_prop es x -> (i < nx)%nat -> H x t i = lprod (fun y => T y t i) (sources es vs x).
Variable c : nat -> R.
Hypothesis Hblock : forall x dH, is_prop es x ->
  (forall i, (i < nx)%nat -> is_derive (fun t => H x t i) t0 (dH i)) ->
  exists dT, (forall i, (i < nx)%nat -> is_derive (fun t => T x t i) t0 (dT i)) /\
    avg dT (H (partner x) t0) = avg dH (T (partner x) t0) + c (fst x).
Variable Q : R -> R.
Hypothesis HQ : forall x t, is_prop es x -> avg (H x t) (T (partner x) t) = Q t.

Lemma wavg_eq : forall f g f' g', (forall i, (i < nx)%nat -> f i = f' i) -> (forall i, (i < nx)%nat -> g i = g' i) ->
  avg f g = avg f' g'.
Proof. intros. unfold wavg. apply rsum_ext. intros. now rewrite H0, H1. Qed.

Definition dTail (x : dart) : field := fun i => Derive (fun t => T x t i) t0.

Lemma head_derive : forall x, is_prop es x ->
  (forall y i, feeds es y x -> (i < nx)%nat -> is_derive (fun t => T y t i) t0 (dTail y i)) ->
  forall i, (i < nx)%nat -> is_derive (fun t => H x t i) t0 (dprod (fun y => T y t0 i) (fun y => dTail y i) (sources es vs x)).
Proof.
  intros x Px D i I. destruct HT as [HW _].
  apply (is_derive_ext (fun t => lprod (fun y => T y t i) (sources es vs x))).
  { intros t. symmetry. now apply Hhead. }
  apply (lprod_derive (fun y t => T y t i) (fun y => dTail y i)). intros y Y. apply D; auto.
  apply (sources_iff (fun _ _ _ _ => []) true es vs HW HV x y Px); auto.
Qed.

Lemma tails_derive : forall fuel p, (2 * length es <= fuel)%nat -> readGraph fuel es = Ok p ->
  forall x i, is_prop es x -> (i < nx)%nat -> is_derive (fun t => T x t i) t0 (dTail x i).
Proof.
  intros fuel p Hf E.
  destruct (readGraph_tree es fuel HT ltac:(lia)) as [p' [E' [_ [_ [P1 [P2 _]]]]]].
  rewrite E in E'. inversion E'; subst p'.
  assert (G : forall l1 l2, p_plan p = l1 ++ l2 -> forall x i, In x l1 -> (i < nx)%nat -> is_derive (fun t => T x t i) t0 (dTail x i)).
  { induction l1 as [|a l1 IH] using rev_ind; intros l2 EP x i I IX; [destruct I|].
    rewrite <- app_assoc in EP. cbn [app] in EP.
    apply in_app_or in I. destruct I as [I|[<-|[]]]; [now apply (IH (a :: l2))|].
    assert (Px : is_prop es a).
    { apply in_allDarts. eapply Permutation_in; [exact P1|]. rewrite EP. apply in_or_app. right. now left. }
    destruct (Hblock a _ Px (head_derive a Px (fun y j F J => IH (a :: l2) EP y j (P2 l1 a l2 EP y F) J))) as [dT [D _]].
    unfold dTail. apply Derive_correct. exists (dT i). now apply D. }
  intros x i Px IX. apply (G (p_plan p) []); auto. { now rewrite app_nil_r. }
  eapply Permutation_in; [apply Permutation_sym; exact P1|]. now apply in_allDarts.
Qed.

(** Contribution of everything behind the tail of x to the derivative. *)
Definition flow (x : dart) : R := avg (dTail x) (H (partner x) t0).

Section D.
Hypothesis HD : forall x i, is_prop es x -> (i < nx)%nat -> is_derive (fun t => T x t i) t0 (dTail x i).

Definition dHead (x : dart) : field := fun i => dprod (fun y => T y t0 i) (fun y => dTail y i) (sources es vs x).
Lemma heads_derive : forall x i, is_prop es x -> (i < nx)%nat -> is_derive (fun t => H x t i) t0 (dHead x i).
Proof.
  intros x i Px I. apply head_derive; auto. intros y j F J. apply HD; auto. apply F.
Qed.

Lemma wavg_derive : forall (f g : R -> field) df dg,
  (forall i, (i < nx)%nat -> is_derive (fun t => f t i) t0 (df i)) ->
  (forall i, (i < nx)%nat -> is_derive (fun t => g t i) t0 (dg i)) ->
  is_derive (fun t => avg (f t) (g t)) t0 (avg df (g t0) + avg dg (f t0)).
Proof.
  intros f g df dg F G. unfold wavg.
  assert (E : rsum nx (fun i => wt i * (df i * g t0 i)) + rsum nx (fun i => wt i * (dg i * f t0 i))
     = rsum nx (fun i => wt i * (df i * g t0 i + f t0 i * dg i))).
  { rewrite <- rsum_plus. apply rsum_ext. intros. ring. }
  rewrite E. apply (is_derive_rsum nx (fun i t => wt i * (f t i * g t i))). intros i I.
  apply (is_derive_scal (fun t => f t i * g t i)).
  apply (is_derive_Rmult (fun t => f t i) (fun t => g t i)); auto.
Qed.

Definition dQ : R := Derive Q t0.
Lemma dQ_block : forall x, is_prop es x -> is_derive Q t0 (avg (dHead x) (T (partner x) t0) + flow (partner x)).
Proof.
  intros x Px. apply (is_derive_ext (fun t => avg (H x t) (T (partner x) t))). { intros; now apply HQ. }
  unfold flow. rewrite partner_partner.
  apply (wavg_derive (H x) (T (partner x))).
  - intros. now apply heads_derive.
  - intros. now apply HD.
Qed.
Lemma dQ_correct : forall x, is_prop es x -> is_derive Q t0 dQ.
Proof. intros x Px. apply Derive_correct. eexists. now apply (dQ_block x). Qed.

Lemma flow_block : forall x, is_prop es x -> flow x + flow (partner x) = dQ + c (fst x).
Proof.
  intros x Px. rewrite (derive_value _ _ _ _ (dQ_correct x Px) (dQ_block x Px)).
  destruct (Hblock x (dHead x) Px) as [dT [D E]]. { intros. now apply heads_derive. }
  assert (F : flow x = avg dT (H (partner x) t0)).
  { unfold flow. apply wavg_eq; auto. intros i I. apply (derive_value (fun t => T x t i) t0); auto. }
  rewrite F, E. ring.
Qed.

(** The flows into one vertex. *)
Lemma flow_vertex : forall x, is_prop es x -> lsum flow (inIds (headVertex es vs x)) = dQ.
Proof.
  intros x Px. destruct HT as [HW HC]. set (l := inIds (headVertex es vs x)).
  assert (PL : forall y, In y l -> is_prop es y /\ s_end es y = s_start es x).
  { intros y Y. apply (headVertex_in es vs HW HV x y Px). exact Y. }
  assert (ND : NoDup l).
  { unfold l, headVertex. apply (inIds_NoDup (fun _ _ _ _ => []) true es vs HV).
    change (vertexId (edgeAt es (fst x)) (snd x)) with (s_start es x). apply start_le; auto. }
  (* product of the tails at the vertex *)
  assert (DP : is_derive Q t0 (rsum nx (fun i => wt i * dprod (fun y => T y t0 i) (fun y => dTail y i) l))).
  { apply (is_derive_ext (fun t => rsum nx (fun i => wt i * lprod (fun y => T y t i) l))).
    - intros t. rewrite <- (HQ x t Px). unfold wavg. apply rsum_ext. intros i I. f_equal.
      rewrite Hhead by auto. unfold l.
      rewrite (lprod_perm _ _ _ (head_perm (fun _ _ _ _ => []) true es vs HW HV x Px)). cbn [lprod]. apply Rmult_comm.
    - apply (is_derive_rsum nx (fun i t => wt i * lprod (fun y => T y t i) l)). intros i I.
      apply (is_derive_scal (fun t => lprod (fun y => T y t i) l)).
      apply (lprod_derive (fun y t => T y t i)). intros y Y. apply HD; auto. now apply PL. }
  rewrite (derive_value _ _ _ _ (dQ_correct x Px) DP).
  assert (E : forall i, (i < nx)%nat -> dprod (fun y => T y t0 i) (fun y => dTail y i) l
      = lsum (fun y => dTail y i * H (partner y) t0 i) l).
  { intros i I. rewrite <- (Rmult_1_l (dprod _ _ _)).
    apply (dprod_rest (fun y => T y t0 i) (fun y => dTail y i) (fun y => H (partner y) t0 i)). intros l1 y l2 EL.
    assert (Y : In y l) by (rewrite EL; apply in_or_app; right; now left).
    destruct (PL y Y) as [Py Ey].
    rewrite Hhead by auto. rewrite Rmult_1_l, <- lprod_app. apply lprod_perm.
    assert (HP := head_perm (fun _ _ _ _ => []) true es vs HW HV (partner y) Py). rewrite partner_partner in HP.
    assert (EV : headVertex es vs (partner y) = headVertex es vs x).
    { unfold headVertex. change (vertexId (edgeAt es (fst (partner y))) (snd (partner y))) with (s_start es (partner y)).
      change (vertexId (edgeAt es (fst x)) (snd x)) with (s_start es x).
      now rewrite (s_start_partner es), Ey. }
    rewrite EV in HP. fold l in HP. rewrite EL in HP.
    apply (Permutation_cons_inv (a := y)). rewrite <- HP. apply Permutation_middle. }
  assert (S : forall l', (forall y, In y l' -> In y l) -> lsum flow l' = rsum nx (fun i => wt i * lsum (fun y => dTail y i * H (partner y) t0 i) l')).
  { induction l' as [|y l' IH]; intros IL; cbn [lsum].
    - rewrite (rsum_ext nx _ (fun _ => 0)) by (intros; ring). now rewrite rsum_zero.
    - rewrite IH by (intros; apply IL; now right). unfold flow, wavg. rewrite <- rsum_plus. apply rsum_ext. intros; ring. }
  rewrite S by auto. apply rsum_ext. intros i I. now rewrite E.
Qed.

(** Every vertex is the start of a propagator. *)
Lemma vertex_start : forall v, (v <= length es)%nat -> exists x, is_prop es x /\ s_start es x = v.
Proof.
  intros v Hv. destruct HT as [HW HC].
  assert (L : (1 <= length es)%nat) by (destruct es; [congruence|simpl; lia]).
  assert (X : exists u, (u <= length es)%nat /\ u <> v).
  { destruct v; [exists 1%nat|exists O]; lia. }
  destruct X as [u [Hu N]]. assert (C := HC v u Hv Hu). apply clos_rt_rt1n in C.
  inversion C as [|w z [b [Hb E]] _]; subst; [congruence|].
  destruct E as [E|E].
  - exists (b, false). split; [exact Hb|]. unfold s_start; cbn [fst snd]. now rewrite E.
  - exists (b, true). split; [exact Hb|]. unfold s_start; cbn [fst snd]. now rewrite E.
Qed.

Lemma lsum_flat_map : forall {A B} (f : B -> R) (g : A -> list B) l, lsum f (flat_map g l) = lsum (fun a => lsum f (g a)) l.
Proof. induction l; cbn [flat_map lsum]; auto. now rewrite lsum_app, IHl. Qed.
Lemma rsum_lsum_swap : forall {A} n (f : nat -> A -> R) l, rsum n (fun v => lsum (f v) l) = lsum (fun a => rsum n (fun v => f v a)) l.
Proof.
  induction l; cbn [lsum]; [apply rsum_zero|]. now rewrite rsum_plus, IHl.
Qed.

(** Every propagator ends at exactly one vertex. *)
Lemma sum_by_vertex : forall f : dart -> R,
  rsum (S (length es)) (fun v => lsum f (inIds (vertexAt vs v))) = rsum (length es) (fun b => f (b, false) + f (b, true)).
Proof.
  intros f. destruct HT as [HW _]. destruct HV as [_ HI].
  rewrite (rsum_ext _ _ (fun v => lsum (fun be => lsum f (inOf v be)) (combine (seq 0 (length es)) es))).
  2:{ intros v Hv. destruct (HI v ltac:(lia)) as [E _]. rewrite E. apply lsum_flat_map. }
  rewrite rsum_lsum_swap.
  assert (G : forall l b, (forall e, In e l -> In e es) ->
     lsum (fun be => rsum (S (length es)) (fun v => lsum f (inOf v be))) (combine (seq b (length l)) l)
     = rsum (length l) (fun k => f ((b + k)%nat, false) + f ((b + k)%nat, true))).
  { induction l as [|e l IH]; intros b IL; [reflexivity|].
    rewrite combine_seq_cons. cbn [lsum length]. rewrite (rsum_S_first (length l)). rewrite !Nat.add_0_r.
    rewrite IH by (intros; apply IL; now right).
    f_equal; [|apply rsum_ext; intros k _; now rewrite Nat.add_succ_comm].
    assert (IE := IL e (or_introl eq_refl)).
    destruct (In_nth es e (0,0)%nat IE) as [m [Hm Em]].
    destruct (wf_edge es m HW Hm) as [A1 [A2 A3]].
    change (s_edge es m = e) in Em. rewrite Em in A1, A2, A3.
    rewrite (rsum_ext _ _ (fun v => (if (fst e =? v)%nat then f (b, true) else 0) + (if (snd e =? v)%nat then f (b, false) else 0))).
    2:{ intros v _. unfold inOf; cbn [fst snd]. destruct (Nat.eqb_spec (fst e) v) as [F|F].
        - destruct (Nat.eqb_spec (snd e) v) as [F2|F2]; [exfalso; congruence|cbn [lsum]; ring].
        - destruct (Nat.eqb_spec (snd e) v) as [F2|F2]; cbn [lsum]; ring. }
    rewrite rsum_plus.
    rewrite (rsum_single _ (fst e) (fun v => if (fst e =? v)%nat then f (b, true) else 0)).
    2: lia. 2:{ intros v _ N. destruct (Nat.eqb_spec (fst e) v); congruence. }
    rewrite (rsum_single _ (snd e) (fun v => if (snd e =? v)%nat then f (b, false) else 0)).
    2: lia. 2:{ intros v _ N. destruct (Nat.eqb_spec (snd e) v); congruence. }
    rewrite !Nat.eqb_refl. ring. }
  rewrite G by auto. apply rsum_ext. intros. reflexivity.
Qed.

Lemma dQ_sum : dQ = rsum (length es) c.
Proof.
  assert (V : rsum (S (length es)) (fun v => lsum flow (inIds (vertexAt vs v))) = INR (S (length es)) * dQ).
  { rewrite (rsum_ext _ _ (fun _ => dQ)).
    - rewrite rsum_const. ring.
    - intros v Hv. destruct (vertex_start v ltac:(lia)) as [x [Px Sx]]. rewrite <- (flow_vertex x Px).
      unfold headVertex. change (vertexId (edgeAt es (fst x)) (snd x)) with (s_start es x). now rewrite Sx. }
  rewrite sum_by_vertex in V.
  rewrite (rsum_ext _ _ (fun b => dQ + c b)) in V.
  2:{ intros b Hb. apply (flow_block (b, false)). exact Hb. }
  rewrite rsum_plus, rsum_const, S_INR in V. lra.
Qed.
End D.

Lemma tree_derivative : forall fuel p, (2 * length es <= fuel)%nat -> readGraph fuel es = Ok p ->
  is_derive Q t0 (rsum (length es) c).
Proof.
  intros fuel p Hf E. assert (HD := tails_derive fuel p Hf E). rewrite <- (dQ_sum HD).
  apply (dQ_correct HD (O, false)). unfold is_prop. cbn [fst]. destruct es; [congruence|simpl; lia].
Qed.
End T.
