(** Proofs about expansions in the step size (Expand.v). *)
From Coq Require Import Reals QArith Qreals List Bool Arith Lia Lra.
From Verif Require Import Base RSum Solve R1d Expand.
Import ListNotations.
Local Open Scope R_scope.

Section B.
Variable n : nat.
Definition bnd (f : field) (M : R) : Prop := forall i, (i < n)%nat -> Rabs (f i) <= M.
Definition linop (T : field -> field) : Prop :=
  forall c d f g i, (i < n)%nat -> T (fun j => c * f j + d * g j) i = c * T f i + d * T g i.
Definition bop (T : field -> field) (K : R) : Prop :=
  0 <= K /\ linop T /\ forall f M, 0 <= M -> bnd f M -> bnd (T f) (K * M).

Lemma bnd_le : forall f M M', bnd f M -> M <= M' -> bnd f M'.
Proof. intros f M M' H L i Hi. assert (A := H i Hi). lra. Qed.
Lemma bnd_eq : forall f g M, bnd f M -> (forall i, (i < n)%nat -> g i = f i) -> bnd g M.
Proof. intros f g M H E i Hi. rewrite E by auto. auto. Qed.
Lemma bnd_plus : forall f g M M', bnd f M -> bnd g M' -> bnd (fun i => f i + g i) (M + M').
Proof. intros f g M M' A B i Hi. eapply Rle_trans; [apply Rabs_triang|]. apply Rplus_le_compat; auto. Qed.
Lemma bnd_scal : forall c f M, bnd f M -> bnd (fun i => c * f i) (Rabs c * M).
Proof. intros c f M A i Hi. rewrite Rabs_mult. apply Rmult_le_compat_l; auto. apply Rabs_pos. Qed.
Lemma bnd_rsum : forall m (F : nat -> field) (b : nat -> R), (forall k, (k < m)%nat -> bnd (F k) (b k)) -> bnd (fun i => rsum m (fun k => F k i)) (rsum m b).
Proof.
  induction m; intros F b H i Hi; cbn [rsum]. { rewrite Rabs_R0. lra. }
  eapply Rle_trans; [apply Rabs_triang|]. apply Rplus_le_compat; [apply (IHm F b); auto|apply H; auto].
Qed.
Lemma bnd_zero : forall f i, bnd f 0 -> (i < n)%nat -> f i = 0.
Proof. intros f i H Hi. assert (A := H i Hi). destruct (Req_dec (f i) 0); auto. apply Rabs_pos_lt in H0. lra. Qed.
Lemma bnd_exists : forall f, exists M, 0 <= M /\ bnd f M.
Proof.
  intros f. exists (rsum n (fun i => Rabs (f i))). split. { apply rsum_pos_le. intros. apply Rabs_pos. }
  unfold bnd. clear. induction n as [|m IH]; intros i Hi; [lia|]. cbn [rsum].
  destruct (Nat.eq_dec i m) as [->|NE].
  - assert (0 <= rsum m (fun j => Rabs (f j))) by (apply rsum_pos_le; intros; apply Rabs_pos). lra.
  - assert (A := IH i ltac:(lia)). assert (B := Rabs_pos (f m)). lra.
Qed.

Lemma bop_zero : forall T K f i, bop T K -> (forall j, (j < n)%nat -> f j = 0) -> (i < n)%nat -> T f i = 0.
Proof.
  intros T K f i [P [LI B]] E Hi. apply bnd_zero; auto.
  assert (A : bnd (T f) (K * 0)). { apply B; [lra|]. intros j Hj. rewrite E by auto. rewrite Rabs_R0. lra. }
  rewrite Rmult_0_r in A. exact A.
Qed.
Lemma bop_ext : forall T K f g i, bop T K -> (forall j, (j < n)%nat -> f j = g j) -> (i < n)%nat -> T f i = T g i.
Proof.
  intros T K f g i [P [LI B]] E Hi.
  assert (Z : T (fun j => 1 * f j + (-1) * g j) i = 0).
  { apply (bop_zero T K); [now repeat split| |auto]. intros j Hj. rewrite E by auto. ring. }
  rewrite LI in Z by auto. lra.
Qed.
Lemma bop_id : bop (fun f => f) 1.
Proof. split; [lra|split]. { intros c d f g i _. reflexivity. } intros f M _ H. rewrite Rmult_1_l. auto. Qed.
Lemma bop_comp : forall T U K K', bop T K -> bop U K' -> bop (fun f => T (U f)) (K * K').
Proof.
  intros T U K K' bT [P' [L' B']]. assert (bT' := bT). destruct bT' as [P [L B]]. split; [now apply Rmult_le_pos|split].
  - intros c d f g i Hi. rewrite (bop_ext T K _ (fun j => c * U f j + d * U g j) i bT) by auto.
    apply L; auto.
  - intros f M HM H. rewrite Rmult_assoc. apply B; [now apply Rmult_le_pos|]. now apply B'.
Qed.
Lemma bop_lin : forall c T K d U K', bop T K -> bop U K' -> bop (fun f i => c * T f i + d * U f i) (Rabs c * K + Rabs d * K').
Proof.
  intros c T K d U K' [P [L B]] [P' [L' B']].
  assert (Rc := Rabs_pos c). assert (Rd := Rabs_pos d). split; [|split].
  - assert (0 <= Rabs c * K) by now apply Rmult_le_pos. assert (0 <= Rabs d * K') by now apply Rmult_le_pos. lra.
  - intros a b f g i Hi. rewrite L, L' by auto. ring.
  - intros f M HM H. replace ((Rabs c * K + Rabs d * K') * M) with (Rabs c * (K * M) + Rabs d * (K' * M)) by ring.
    apply bnd_plus; apply bnd_scal; auto.
Qed.
Lemma bop_le : forall T K K', bop T K -> K <= K' -> bop T K'.
Proof.
  intros T K K' [P [L B]] H. split; [lra|split; auto]. intros f M HM HF. eapply bnd_le; [apply B; eauto|].
  now apply Rmult_le_compat_r.
Qed.
Lemma bop_eq : forall T U K, bop T K -> (forall f i, (i < n)%nat -> U f i = T f i) -> bop U K.
Proof.
  intros T U K [P [L B]] E. split; [auto|split].
  - intros c d f g i Hi. rewrite !E by auto. now apply L.
  - intros f M HM HF. eapply bnd_eq; [apply B; eauto|]. intros. now apply E.
Qed.
Lemma bop_iter : forall T K k, bop T K -> bop (Nat.iter k T) (K ^ k).
Proof. intros T K k H. induction k. { apply bop_id. } exact (bop_comp T (Nat.iter k T) K (K ^ k) H IHk). Qed.
Lemma bop_rsum : forall T K m (F : nat -> field) i, bop T K -> (i < n)%nat ->
  T (fun j => rsum m (fun k => F k j)) i = rsum m (fun k => T (F k) i).
Proof.
  intros T K m F i H Hi. induction m; cbn [rsum].
  - now apply (bop_zero T K).
  - rewrite (bop_ext T K _ (fun j => 1 * rsum m (fun k => F k j) + 1 * F m j)) by (auto; intros; ring).
    destruct H as [P [L B]]. rewrite L, IHm by auto. ring.
Qed.
Lemma bop_scal : forall T K c f i, bop T K -> (i < n)%nat -> T (fun j => c * f j) i = c * T f i.
Proof.
  intros T K c f i H Hi. rewrite (bop_ext T K _ (fun j => c * f j + 0 * f j)) by (auto; intros; ring).
  destruct H as [_ [L _]]. rewrite L by auto. ring.
Qed.
Lemma bop_minus : forall T K f g i, bop T K -> (i < n)%nat -> T (fun j => f j - g j) i = T f i - T g i.
Proof.
  intros T K f g i H Hi. rewrite (bop_ext T K _ (fun j => 1 * f j + (-1) * g j)) by (auto; intros; ring).
  destruct H as [_ [L _]]. rewrite L by auto. ring.
Qed.

Section H.
Variable H : R.
Hypothesis H0 : 0 <= H.

Definition oexp (T : R -> field -> field) (o : nat -> field -> field) : Prop :=
  exists C B, 0 <= C /\ (forall k, (k < 5)%nat -> bop (o k) B) /\
    forall h, 0 <= h <= H -> bop (T h) B /\
      forall f M, 0 <= M -> bnd f M -> bnd (fun i => T h f i - rsum 5 (fun k => h ^ k * o k f i)) (C * h ^ 5 * M).

Lemma oexp_eq : forall T T' o o', oexp T o -> (forall h f i, 0 <= h <= H -> (i < n)%nat -> T' h f i = T h f i) ->
  (forall k f i, (k < 5)%nat -> (i < n)%nat -> o' k f i = o k f i) -> oexp T' o'.
Proof.
  intros T T' o o' [C [B [PC [Bo BT]]]] ET EO. exists C, B. split; [auto|split].
  - intros k Hk. eapply bop_eq; [apply (Bo k Hk)|]. intros; auto.
  - intros h Hh. split. { eapply bop_eq; [apply (BT h Hh)|]. intros; auto. }
    intros f M HM HF. eapply bnd_eq; [apply (proj2 (BT h Hh) f M HM HF)|]. intros i Hi. cbv beta. f_equal; [auto|].
    apply rsum_ext. intros k Hk. f_equal. auto.
Qed.

Lemma oexp_trunc : forall T o, oexp T o -> forall m, (m <= 5)%nat -> exists C, 0 <= C /\ forall h, 0 <= h <= H ->
  forall f M, 0 <= M -> bnd f M -> bnd (fun i => T h f i - rsum m (fun k => h ^ k * o k f i)) (C * h ^ m * M).
Proof.
  intros T o [C [B [PC [Bo BT]]]] m Hm. remember (5 - m)%nat as d eqn:D. revert m Hm D.
  induction d; intros m Hm D.
  - assert (m = 5)%nat by lia. subst m. exists C. split; auto. intros h Hh. now apply BT.
  - destruct (IHd (S m) ltac:(lia) ltac:(lia)) as [C' [PC' IH]]. exists (C' * H + B).
    assert (PB := proj1 (Bo 0%nat ltac:(lia))).
    split. { assert (0 <= C' * H) by now apply Rmult_le_pos. lra. }
    intros h Hh f M HM HF.
    assert (Ph : 0 <= h ^ m) by (apply pow_le; lra).
    apply bnd_le with (C' * h ^ (S m) * M + Rabs (h ^ m) * (B * M)).
    + eapply bnd_eq; [apply bnd_plus; [apply (IH h Hh f M HM HF)|apply bnd_scal; apply (proj2 (proj2 (Bo m ltac:(lia))) f M HM HF)]|].
      intros i Hi. cbv beta. cbn [rsum]. ring.
    + rewrite Rabs_pos_eq by auto. replace ((C' * H + B) * h ^ m * M) with (C' * H * h ^ m * M + h ^ m * (B * M)) by ring.
      apply Rplus_le_compat_r. apply Rmult_le_compat_r; auto. rewrite <- tech_pow_Rmult, <- Rmult_assoc.
      apply Rmult_le_compat_r; auto. apply Rmult_le_compat_l; lra.
Qed.

Lemma oexp_comp : forall T U o v, oexp T o -> oexp U v ->
  oexp (fun h f => T h (U h f)) (fun k f i => rsum (S k) (fun a => o a (v (k - a)%nat f) i)).
Proof.
  intros T U o v HT HU.
  destruct (oexp_trunc U v HU 5 ltac:(lia)) as [C5 [P5 T5]]. destruct (oexp_trunc U v HU 4 ltac:(lia)) as [C4 [P4 T4]].
  destruct (oexp_trunc U v HU 3 ltac:(lia)) as [C3 [P3 T3]]. destruct (oexp_trunc U v HU 2 ltac:(lia)) as [C2 [P2 T2]].
  destruct (oexp_trunc U v HU 1 ltac:(lia)) as [C1 [P1 T1]].
  destruct HT as [C [B [PC [Bo BT]]]]. destruct HU as [C' [B' [PC' [Bv BU]]]].
  assert (PB := proj1 (Bo 0%nat ltac:(lia))). assert (PB' := proj1 (Bv 0%nat ltac:(lia))).
  assert (PBB : 0 <= B * B') by now apply Rmult_le_pos.
  exists (C * B' + B * (C5 + C4 + C3 + C2 + C1)), (5 * (B * B')).
  split; [|split].
  - assert (0 <= C * B') by now apply Rmult_le_pos. assert (0 <= B * (C5 + C4 + C3 + C2 + C1)) by (apply Rmult_le_pos; lra). lra.
  - intros k Hk. split; [lra|split].
    + intros c d f g i Hi. rewrite <- !rsum_scal, <- rsum_plus. apply rsum_ext. intros a Ha.
      destruct (bop_comp _ _ _ _ (Bo a ltac:(lia)) (Bv (k - a)%nat ltac:(lia))) as [_ [L _]]. now apply L.
    + intros f M HM HF. eapply bnd_le; [apply (bnd_rsum (S k) (fun a => o a (v (k - a)%nat f)) (fun _ => B * B' * M))|].
      * intros a Ha. apply (proj2 (proj2 (bop_comp _ _ _ _ (Bo a ltac:(lia)) (Bv (k - a)%nat ltac:(lia)))) f M HM HF).
      * rewrite rsum_const, <- Rmult_assoc. apply Rmult_le_compat_r; auto. apply Rmult_le_compat_r; auto.
        replace 5 with (INR 5) by (simpl; lra). apply le_INR. lia.
  - intros h Hh. destruct (BT h Hh) as [bT AT]. destruct (BU h Hh) as [bU AU]. split.
    { apply bop_le with (B * B'); [now apply bop_comp|lra]. }
    intros f M HM HF.
    assert (A1 : bnd (fun i => T h (U h f) i - rsum 5 (fun k => h ^ k * o k (U h f) i)) (C * h ^ 5 * (B' * M))).
    { apply AT. { now apply Rmult_le_pos. } now apply (proj2 (proj2 bU)). }
    assert (A2 : forall m Cm, (1 <= m <= 5)%nat -> 0 <= Cm ->
      (forall h, 0 <= h <= H -> forall f M, 0 <= M -> bnd f M -> bnd (fun i => U h f i - rsum m (fun k => h ^ k * v k f i)) (Cm * h ^ m * M)) ->
      bnd (fun i => h ^ (5 - m) * (o (5 - m)%nat (U h f) i - rsum m (fun k => h ^ k * o (5 - m)%nat (v k f) i))) (B * Cm * h ^ 5 * M)).
    { intros m Cm Hm PCm Tm. assert (Q := Tm h Hh f M HM HF).
      assert (bO := Bo (5 - m)%nat ltac:(lia)).
      assert (P : 0 <= Cm * h ^ m * M) by (apply Rmult_le_pos; auto; apply Rmult_le_pos; auto; apply pow_le; lra).
      apply bnd_le with (Rabs (h ^ (5 - m)) * (B * (Cm * h ^ m * M))).
      - eapply bnd_eq; [apply bnd_scal; apply (proj2 (proj2 bO) _ _ P Q)|]. intros i Hi. cbv beta. f_equal.
        rewrite (bop_minus _ _ _ _ _ bO Hi). f_equal.
        rewrite (bop_rsum _ _ m (fun k j => h ^ k * v k f j) i bO Hi). apply rsum_ext. intros k Hk.
        symmetry. apply (bop_scal _ _ _ _ _ bO Hi).
      - rewrite Rabs_pos_eq by (apply pow_le; lra). replace (h ^ 5) with (h ^ (5 - m) * h ^ m).
        + apply Req_le. ring.
        + rewrite <- pow_add. f_equal. lia. }
    assert (Z := bnd_plus _ _ _ _ A1 (bnd_plus _ _ _ _ (A2 5%nat C5 ltac:(lia) P5 T5) (bnd_plus _ _ _ _ (A2 4%nat C4 ltac:(lia) P4 T4)
       (bnd_plus _ _ _ _ (A2 3%nat C3 ltac:(lia) P3 T3) (bnd_plus _ _ _ _ (A2 2%nat C2 ltac:(lia) P2 T2) (A2 1%nat C1 ltac:(lia) P1 T1)))))).
    eapply bnd_le; [eapply bnd_eq; [apply Z|]|].
    + intros i Hi. cbv beta. cbn [rsum Nat.sub pow]. ring.
    + apply Req_le. ring.
Qed.

Lemma oexp_lin : forall c T o d U v, oexp T o -> oexp U v ->
  oexp (fun h f i => c * T h f i + d * U h f i) (fun k f i => c * o k f i + d * v k f i).
Proof.
  intros c T o d U v [C [B [PC [Bo BT]]]] [C' [B' [PC' [Bv BU]]]].
  assert (Rc := Rabs_pos c). assert (Rd := Rabs_pos d).
  exists (Rabs c * C + Rabs d * C'), (Rabs c * B + Rabs d * B'). split; [|split].
  - assert (0 <= Rabs c * C) by now apply Rmult_le_pos. assert (0 <= Rabs d * C') by now apply Rmult_le_pos. lra.
  - intros k Hk. apply bop_lin; auto.
  - intros h Hh. destruct (BT h Hh) as [bT AT]. destruct (BU h Hh) as [bU AU]. split; [now apply bop_lin|].
    intros f M HM HF. assert (Z := bnd_plus _ _ _ _ (bnd_scal c _ _ (AT f M HM HF)) (bnd_scal d _ _ (AU f M HM HF))).
    eapply bnd_le; [eapply bnd_eq; [apply Z|]|].
    + intros i Hi. cbv beta. cbn [rsum]. ring.
    + apply Req_le. ring.
Qed.
End H.

(** Evaluation of polynomials. *)
Section P.
Variables (X Y : field -> field) (K : R).
Hypothesis bX : bop X K.
Hypothesis bY : bop Y K.
Definition lett (x : bool) : field -> field := if x then X else Y.
Definition weval (w : list bool) (f : field) : field := fold_right lett f w.
Definition peval (p : npoly) (f : field) : field := fun i => lsum (fun a => Q2R (fst a) * weval (snd a) f i) p.

Lemma bop_lett : forall x, bop (lett x) K.
Proof. intros []; auto. Qed.
Lemma bop_weval : forall w, bop (weval w) (K ^ length w).
Proof.
  induction w as [|x w IH]; cbn [length pow].
  - apply bop_id.
  - apply (bop_comp (lett x) (weval w)); [apply bop_lett|auto].
Qed.
Lemma weval_app : forall v w f, weval (v ++ w) f = weval v (weval w f).
Proof. intros. unfold weval. apply fold_right_app. Qed.
Lemma bop_peval : forall p, exists B, bop (peval p) B.
Proof.
  induction p as [|[c w] p [B IH]].
  - exists 0. split; [lra|split]. { intros c d f g i _. unfold peval. cbn [lsum]. ring. }
    intros f M HM _ i Hi. unfold peval. cbn [lsum]. rewrite Rabs_R0. lra.
  - exists (Rabs (Q2R c) * K ^ length w + Rabs 1 * B).
    eapply bop_eq; [apply (bop_lin (Q2R c) (weval w) _ 1 (peval p) B); auto; apply bop_weval|].
    intros f i Hi. unfold peval. cbn [lsum fst snd]. ring.
Qed.
Lemma Q2R_red : forall q, Q2R (Qred q) = Q2R q.
Proof. intros. apply Qeq_eqR. apply Qred_correct. Qed.
Lemma peval_app : forall p q f i, peval (p ++ q) f i = peval p f i + peval q f i.
Proof. intros. apply lsum_app. Qed.
Lemma peval_scal : forall c p f i, peval (pscal c p) f i = Q2R c * peval p f i.
Proof.
  intros c p f i. unfold peval, pscal. induction p as [|[d w] p IH]; cbn [map lsum fst snd]; [ring|].
  rewrite IH, Q2R_red, Q2R_mult. ring.
Qed.
Lemma peval_mul : forall p q f i, (i < n)%nat -> peval (pmul p q) f i = peval p (peval q f) i.
Proof.
  intros p q f i Hi. unfold pmul. induction p as [|[c v] p IH]; cbn [flat_map]; [reflexivity|].
  rewrite peval_app, IH. change (peval ((c, v) :: p) (peval q f) i) with (Q2R c * weval v (peval q f) i + peval p (peval q f) i).
  f_equal. cbn [fst snd]. clear IH. induction q as [|[d w] q IH].
  - cbn [map]. unfold peval at 1. cbn [lsum]. rewrite (bop_zero _ _ (peval [] f) i (bop_weval v)); auto. ring.
  - cbn [map]. unfold peval at 1. cbn [lsum fst snd]. fold (peval (map (fun b => (Qred (c * fst b), v ++ snd b)) q) f i).
    rewrite IH, Q2R_red, Q2R_mult, weval_app.
    rewrite (bop_ext _ _ (peval ((d, w) :: q) f) (fun j => Q2R d * weval w f j + 1 * peval q f j) i (bop_weval v)); auto.
    + destruct (bop_weval v) as [_ [L _]]. rewrite L by auto. ring.
    + intros j _. unfold peval. cbn [lsum fst snd]. ring.
Qed.
Lemma peval_addm : forall c w p f i, peval (addm c w p) f i = Q2R c * weval w f i + peval p f i.
Proof.
  intros c w p f i. unfold peval. induction p as [|[d v] p IH]; cbn [addm lsum fst snd]; [reflexivity|].
  destruct (list_eq_dec bool_dec w v); cbn [lsum fst snd].
  - subst. rewrite Q2R_red, Q2R_plus. ring.
  - rewrite IH. ring.
Qed.
Lemma peval_norm : forall p f i, peval (pnorm p) f i = peval p f i.
Proof.
  intros p f i. induction p as [|[c w] p IH]; cbn [pnorm]; [reflexivity|]. rewrite peval_addm, IH. reflexivity.
Qed.
Lemma pzero_sound : forall p f i, pzero p = true -> peval p f i = 0.
Proof.
  intros p f i Hp. rewrite <- peval_norm. unfold pzero in Hp. unfold peval. induction (pnorm p) as [|[c w] r IH]; [reflexivity|].
  cbn [forallb fst] in Hp. apply andb_true_iff in Hp. destruct Hp as [A B]. cbn [lsum fst snd].
  rewrite IH by auto. apply Qeq_bool_eq in A. apply Qeq_eqR in A. rewrite A. unfold Q2R. cbn. lra.
Qed.
Lemma peqb_sound : forall p q f i, peqb p q = true -> peval p f i = peval q f i.
Proof.
  intros p q f i Hp. unfold peqb in Hp. apply pzero_sound with (f := f) (i := i) in Hp.
  rewrite peval_app, peval_scal in Hp. replace (Q2R (-1)) with (-1) in Hp by (unfold Q2R; cbn; lra). lra.
Qed.
Lemma seqb_sound : forall s u k f i, seqb s u = true -> (k < 5)%nat -> peval (s k) f i = peval (u k) f i.
Proof.
  intros s u k f i Hs Hk. unfold seqb in Hs. rewrite forallb_forall in Hs. apply peqb_sound. apply Hs. apply in_seq. lia.
Qed.
Lemma peval_smul : forall s u k f i, (i < n)%nat -> peval (smul s u k) f i = rsum (S k) (fun a => peval (s a) (peval (u (k - a)%nat) f) i).
Proof.
  intros s u k f i Hi. unfold smul. transitivity (lsum (fun a => peval (s a) (peval (u (k - a)%nat) f) i) (seq 0 (S k))); [|rewrite lsum_seq; reflexivity].
  induction (seq 0 (S k)) as [|a l IH]; cbn [flat_map lsum]; [reflexivity|]. rewrite peval_app, IH, peval_mul by auto. reflexivity.
Qed.
Lemma Q2R_qfact : forall k, Q2R (qfact k) = INR (fact k).
Proof.
  induction k; [unfold Q2R; cbn; lra|]. cbn [qfact]. rewrite Q2R_mult, IHk. change (fact (S k)) with (S k * fact k)%nat.
  rewrite mult_INR. f_equal. rewrite INR_IZR_INZ. unfold Q2R, inject_Z. cbn [Qnum Qden]. field.
Qed.
Lemma Q2R_qpow : forall c k, Q2R (qpow c k) = Q2R c ^ k.
Proof. intros. induction k; [unfold Q2R; cbn; lra|]. cbn [qpow pow]. rewrite Q2R_mult, IHk. reflexivity. Qed.
Lemma qfact_nz : forall k, ~ (qfact k == 0)%Q.
Proof.
  intros k E. apply Qeq_eqR in E. rewrite Q2R_qfact in E. replace (Q2R 0) with 0 in E by (unfold Q2R; cbn; lra).
  revert E. apply INR_fact_neq_0.
Qed.
Lemma weval_repeat : forall x k f, weval (repeat x k) f = Nat.iter k (lett x) f.
Proof. intros. induction k; cbn [repeat Nat.iter]; [reflexivity|]. unfold weval in *. cbn [fold_right]. now rewrite IHk. Qed.
Lemma peval_sexp : forall x c k f i, peval (sexp x c k) f i = Q2R c ^ k / INR (fact k) * Nat.iter k (lett x) f i.
Proof.
  intros. unfold peval, sexp. cbn [lsum fst snd]. rewrite Q2R_red, Q2R_div by apply qfact_nz.
  rewrite Q2R_qpow, Q2R_qfact, weval_repeat. ring.
Qed.
Definition opA (f : field) : field := fun i => X f i + Y f i.
Lemma bop_A : bop opA (K + K).
Proof.
  eapply bop_le; [eapply bop_eq; [apply (bop_lin 1 X K 1 Y K bX bY)|]|].
  - intros. unfold opA. ring.
  - rewrite Rabs_R1. lra.
Qed.
Lemma words_sum : forall k f i, (i < n)%nat -> lsum (fun w => weval w f i) (wordsOf k) = Nat.iter k opA f i.
Proof.
  induction k; intros f i Hi; cbn [wordsOf Nat.iter]; [cbn [lsum]; unfold weval; cbn; lra|].
  transitivity (lsum (fun w => X (weval w f) i + Y (weval w f) i) (wordsOf k)).
  { clear IHk. induction (wordsOf k) as [|w l IH]; cbn [flat_map lsum app]; [reflexivity|]. rewrite IH.
    unfold weval, lett. cbn [fold_right]. ring. }
  rewrite lsum_plus. unfold opA at 1.
  assert (G : forall T, bop T K -> lsum (fun w => T (weval w f) i) (wordsOf k) = T (Nat.iter k opA f) i).
  { intros T bT. rewrite (bop_ext T K (Nat.iter k opA f) (fun j => lsum (fun w => weval w f j) (wordsOf k)) i bT) by (auto; intros; symmetry; auto).
    clear IHk. induction (wordsOf k) as [|w l IH]; cbn [lsum].
    - symmetry. now apply (bop_zero T K).
    - rewrite IH. rewrite (bop_ext T K (fun j => weval w f j + lsum (fun w0 => weval w0 f j) l) (fun j => 1 * weval w f j + 1 * lsum (fun w0 => weval w0 f j) l) i bT) by (auto; intros; ring).
      destruct bT as [_ [L _]]. rewrite L by auto. rewrite !Rmult_1_l. reflexivity. }
  rewrite (G X bX), (G Y bY). reflexivity.
Qed.
Lemma peval_exact : forall k f i, (i < n)%nat -> peval (sexact k) f i = / INR (fact k) * Nat.iter k opA f i.
Proof.
  intros k f i Hi. rewrite <- words_sum by auto. unfold peval, sexact. induction (wordsOf k) as [|w l IH]; cbn [map lsum fst snd]; [ring|].
  rewrite IH, Q2R_red, Q2R_div by apply qfact_nz. rewrite Q2R_qfact. replace (Q2R 1) with 1 by (unfold Q2R; cbn; lra).
  field. apply INR_fact_neq_0.
Qed.

Section S.
Variable H : R.
Hypothesis H0 : 0 <= H.
Definition sexpand (T : R -> field -> field) (s : nseries) : Prop := oexp H T (fun k => peval (s k)).
Lemma sexpand_comp : forall T U s u, sexpand T s -> sexpand U u -> sexpand (fun h f => T h (U h f)) (smul s u).
Proof.
  intros T U s u A B. eapply oexp_eq; [apply (oexp_comp H H0 T U _ _ A B)|reflexivity|].
  intros k f i Hk Hi. now apply peval_smul.
Qed.
Lemma sexpand_lin : forall c d T U s u, sexpand T s -> sexpand U u -> sexpand (fun h f i => Q2R c * T h f i + Q2R d * U h f i) (slin c s d u).
Proof.
  intros c d T U s u A B. eapply oexp_eq; [apply (oexp_lin H (Q2R c) T _ (Q2R d) U _ A B)|reflexivity|].
  intros k f i Hk Hi. unfold slin. now rewrite peval_app, !peval_scal.
Qed.
Lemma sexpand_eq : forall T U s, sexpand T s -> (forall h f i, 0 <= h <= H -> (i < n)%nat -> U h f i = T h f i) -> sexpand U s.
Proof. intros T U s A E. eapply oexp_eq; [apply A|auto|reflexivity]. Qed.
End S.
End P.
End B.
