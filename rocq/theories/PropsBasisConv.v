(** Property C52: the change of basis of monomer fields is invertible. *)
From Coq Require Import Reals List Arith Bool Lra Lia.
From Verif Require Import Base RSum BasisConv.
Import ListNotations.
Local Open Scope R_scope.

(** Specification: rows are orthogonal with squared norm N. *)
Definition orthogonal (n : nat) (B : nat -> nat -> R) (N : R) : Prop :=
  forall i j, (i < n)%nat -> (j < n)%nat -> rsum n (fun k => B i k * B j k) = if (i =? j)%nat then N else 0.
(** n fields of m points *)
Definition shaped (n m : nat) (f : list (list R)) : Prop := length f = n /\ forall x, In x f -> length x = m.

Lemma max_le l : forall m0, m0 <= fold_left (fun m e => if Rlt_dec m e then e else m) l m0 /\
  forall e, In e l -> e <= fold_left (fun m e => if Rlt_dec m e then e else m) l m0.
Proof.
  induction l as [|x l IH]; intros m0; cbn [fold_left]; [split; [lra|contradiction]|].
  destruct (IH (if Rlt_dec m0 x then x else m0)) as [H1 H2]. destruct (Rlt_dec m0 x); (split; [lra|intros e [<-|He]; [lra|auto]]).
Qed.
Lemma max_in l : forall m0, fold_left (fun m e => if Rlt_dec m e then e else m) l m0 = m0 \/
  In (fold_left (fun m e => if Rlt_dec m e then e else m) l m0) l.
Proof.
  induction l as [|x l IH]; intros m0; cbn [fold_left]; [left; reflexivity|].
  destruct (Rlt_dec m0 x).
  - destruct (IH x) as [->|H]; right; [left; reflexivity|right; exact H].
  - destruct (IH m0) as [->|H]; [left; reflexivity|right; right; exact H].
Qed.
Lemma in_errors v N e : In e (concat (map (rowErrors v N) (seq 0 (cvN v)))) <->
  exists i j, (i < cvN v)%nat /\ (j <= i)%nat /\ e = rowError v N i j.
Proof.
  rewrite in_concat. split.
  - intros (l & Hl & He). apply in_map_iff in Hl. destruct Hl as (i & <- & Hi). apply in_map_iff in He. destruct He as (j & <- & Hj).
    apply in_seq in Hi. apply in_seq in Hj. exists i, j. repeat split; lia.
  - intros (i & j & Hi & Hj & ->). exists (rowErrors v N i). split; apply in_map; apply in_seq; lia.
Qed.
(** maxBasisError is the largest deviation of the scalar products of the rows from
    those of an orthogonal basis; it vanishes exactly for orthogonal bases. *)
Theorem C52_error : forall v N, (1 < cvN v)%nat -> 0 < N -> exists e, maxBasisError v N = Ok e /\
  (forall i j, (i < cvN v)%nat -> (j < cvN v)%nat ->
     Rabs (rsum (cvN v) (fun k => cvB v i k * cvB v j k) - if (i =? j)%nat then N else 0) <= e) /\
  (exists i j, (i < cvN v)%nat /\ (j < cvN v)%nat /\
     Rabs (rsum (cvN v) (fun k => cvB v i k * cvB v j k) - if (i =? j)%nat then N else 0) = e) /\
  (e = 0 <-> orthogonal (cvN v) (cvB v) N).
Proof.
  intros v N Hn HN. unfold maxBasisError. assert (E := Hn). apply Nat.ltb_lt in E. rewrite E. destruct (Rlt_dec 0 N); [|lra]. cbn [check bind].
  set (l := concat _). set (e := fold_left _ l 0). exists e. split; [reflexivity|].
  assert (RE : forall i j, rowError v N i j = Rabs (rsum (cvN v) (fun k => cvB v i k * cvB v j k) - if (i =? j)%nat then N else 0)).
  { intros i j. unfold rowError. destruct (i =? j)%nat; [reflexivity|]. rewrite Rminus_0_r. reflexivity. }
  assert (SY : forall i j, rowError v N i j = rowError v N j i).
  { intros i j. rewrite !RE, (Nat.eqb_sym i j). rewrite (rsum_ext _ (fun k => cvB v i k * cvB v j k) (fun k => cvB v j k * cvB v i k)) by (intros; ring). reflexivity. }
  assert (LE : forall i j, (i < cvN v)%nat -> (j < cvN v)%nat -> rowError v N i j <= e).
  { intros i j Hi Hj. apply (max_le l 0). apply in_errors. destruct (Nat.le_ge_cases j i); [exists i, j|exists j, i]; repeat split; auto. }
  assert (EX : exists i j, (i < cvN v)%nat /\ (j < cvN v)%nat /\ rowError v N i j = e).
  { destruct (max_in l 0) as [H0|H0].
    - exists 0%nat, 0%nat. repeat split; try lia. apply Rle_antisym; [apply LE; lia|]. unfold e. rewrite H0, RE. apply Rabs_pos.
    - apply in_errors in H0. destruct H0 as (i & j & Hi & Hj & H0). exists i, j. repeat split; [exact Hi|lia|symmetry; exact H0]. }
  split; [intros i j Hi Hj; rewrite <- RE; auto|]. split; [destruct EX as (i & j & Hi & Hj & H0); exists i, j; rewrite <- RE; auto|].
  split.
  - intros H0 i j Hi Hj. specialize (LE i j Hi Hj). rewrite RE, H0 in LE.
    match type of LE with Rabs ?x <= 0 => assert (x = 0) by (destruct (Req_dec x 0) as [|NE]; [assumption|apply Rabs_pos_lt in NE; lra]) end. lra.
  - intros H0. destruct EX as (i & j & Hi & Hj & <-). rewrite RE, H0, Rminus_diag_eq, Rabs_R0; auto.
Qed.
Print Assumptions C52_error.

(** An orthogonal basis has orthogonal columns. *)
Lemma rsum_square n f : rsum n (fun i => rsum n (fun j => f i * f j)) = rsum n f * rsum n f.
Proof. rewrite <- rsum_scal_r. apply rsum_ext. intros i _. rewrite rsum_scal. reflexivity. Qed.
Lemma rsum_nonneg_zero n f : (forall i, (i < n)%nat -> 0 <= f i) -> rsum n f = 0 -> forall i, (i < n)%nat -> f i = 0.
Proof.
  induction n; intros P H i Hi; [lia|]. cbn in H. assert (0 <= rsum n f) by (apply rsum_pos_le; auto). assert (0 <= f n) by auto.
  destruct (Nat.eq_dec i n) as [->|NE]; [lra|]. apply IHn; [auto|lra|lia].
Qed.
Definition delta (i j : nat) : R := if (i =? j)%nat then 1 else 0.
Lemma rsum_delta n f i : (i < n)%nat -> rsum n (fun j => delta i j * f j) = f i.
Proof.
  intros Hi. rewrite (rsum_single n i _ Hi). 2:{ intros j _ NE. unfold delta. destruct (Nat.eqb_spec i j); [congruence|ring]. }
  unfold delta. rewrite Nat.eqb_refl. ring.
Qed.
Lemma columns n B N : N <> 0 -> orthogonal n B N -> forall j l, (j < n)%nat -> (l < n)%nat ->
  rsum n (fun i => B i j * B i l) = if (j =? l)%nat then N else 0.
Proof.
  intros NZ H. set (G := fun j l => rsum n (fun i => B i j * B i l)).
  (* trace of G *)
  assert (T1 : rsum n (fun j => G j j) = INR n * N).
  { unfold G. rewrite rsum_swap. rewrite (rsum_ext n _ (fun _ => N)), rsum_const; [reflexivity|]. intros i Hi. rewrite (H i i Hi Hi), Nat.eqb_refl. reflexivity. }
  (* trace of G G *)
  assert (T2 : rsum n (fun j => rsum n (fun l => G j l * G j l)) = INR n * (N * N)).
  { transitivity (rsum n (fun a => rsum n (fun b => rsum n (fun j => B a j * B b j) * rsum n (fun l => B a l * B b l)))).
    - unfold G.
      rewrite (rsum_ext n _ (fun j => rsum n (fun l => rsum n (fun a => rsum n (fun b => (B a j * B b j) * (B a l * B b l)))))).
      2:{ intros j _. apply rsum_ext. intros l _. rewrite <- rsum_square. apply rsum_ext. intros a _. apply rsum_ext. intros b _. ring. }
      rewrite (rsum_ext n _ (fun j => rsum n (fun a => rsum n (fun l => rsum n (fun b => B a j * B b j * (B a l * B b l))))))
        by (intros j _; apply rsum_swap).
      rewrite rsum_swap. apply rsum_ext. intros a _.
      rewrite (rsum_ext n _ (fun j => rsum n (fun b => rsum n (fun l => B a j * B b j * (B a l * B b l))))) by (intros j _; apply rsum_swap).
      rewrite rsum_swap. apply rsum_ext. intros b _. rewrite <- rsum_scal_r. apply rsum_ext. intros j _. rewrite rsum_scal. reflexivity.
    - rewrite (rsum_ext n _ (fun _ => N * N)), rsum_const; [reflexivity|]. intros a Ha. rewrite (rsum_single n a); auto.
      + rewrite (H a a Ha Ha), Nat.eqb_refl. reflexivity.
      + intros b Hb NE. rewrite (H a b Ha Hb). destruct (Nat.eqb_spec a b); [congruence|ring]. }
  assert (S0 : rsum n (fun j => rsum n (fun l => (G j l - N * delta j l) * (G j l - N * delta j l))) = 0).
  { rewrite (rsum_ext n _ (fun j => rsum n (fun l => G j l * G j l) - (2 * N) * G j j + N * N)).
    - rewrite rsum_plus, rsum_minus, rsum_scal, T1, T2, rsum_const. ring.
    - intros j Hj. rewrite (rsum_ext n _ (fun l => G j l * G j l - (2 * N) * (delta j l * G j l) + (N * N) * (delta j l * delta j l))) by (intros; ring).
      rewrite rsum_plus, rsum_minus, !rsum_scal, rsum_delta by exact Hj. rewrite (rsum_delta n (fun l => delta j l) j Hj).
      unfold delta. rewrite Nat.eqb_refl. ring. }
  intros j l Hj Hl.
  assert (S1 := rsum_nonneg_zero _ _ (fun j _ => rsum_pos_le n _ (fun l _ => Rle_0_sqr (G j l - N * delta j l))) S0 j Hj).
  assert (S2 := rsum_nonneg_zero n (fun l => (G j l - N * delta j l) * (G j l - N * delta j l)) (fun l _ => Rle_0_sqr (G j l - N * delta j l)) S1 l Hl).
  apply Rsqr_0_uniq in S2. change (G j l = if (j =? l)%nat then N else 0). unfold delta in S2. destruct (j =? l)%nat; lra.
Qed.

Lemma convChecks_ok v inp sizes m : (1 < cvN v)%nat -> shaped (cvN v) m inp -> sizes = repeat m (cvN v) ->
  convChecks v inp sizes = Ok m.
Proof.
  intros Hn [L S] ->. unfold convChecks. rewrite repeat_length, L. assert (E := Hn). apply Nat.ltb_lt in E. rewrite E.
  replace (0 <? cvN v)%nat with true by (symmetry; apply Nat.ltb_lt; lia). rewrite Nat.eqb_refl. cbn [check bind].
  assert (EH : length (hd [] inp) = m). { destruct inp; [cbn in L; lia|]. apply S. left. reflexivity. }
  rewrite EH. replace (forallb _ inp) with true. 2:{ symmetry. apply forallb_forall. intros x Hx. apply Nat.eqb_eq. auto. }
  replace (forallb _ (repeat m _)) with true. 2:{ symmetry. apply forallb_forall. intros x Hx. apply repeat_spec in Hx. subst. apply Nat.eqb_refl. }
  reflexivity.
Qed.
Definition tab (n m : nat) (f : nat -> nat -> R) : list (list R) := map (fun i => map (f i) (seq 0 m)) (seq 0 n).
Lemma tab_shaped n m f : shaped n m (tab n m f).
Proof.
  split; [unfold tab; rewrite map_length; apply seq_length|]. intros x Hx. apply in_map_iff in Hx. destruct Hx as (i & <- & _).
  rewrite map_length. apply seq_length.
Qed.
Lemma nth_map_seq {X} (g : nat -> X) n i d : (i < n)%nat -> nth i (map g (seq 0 n)) d = g i.
Proof. intros Hi. rewrite (nth_indep _ d (g 0%nat)) by (rewrite map_length, seq_length; exact Hi). rewrite map_nth. rewrite seq_nth by exact Hi. reflexivity. Qed.
Lemma tab_at n m f i k : (i < n)%nat -> (k < m)%nat -> at2 (tab n m f) i k = f i k.
Proof. intros Hi Hk. unfold at2, tab. rewrite nth_map_seq by exact Hi. apply nth_map_seq. exact Hk. Qed.
Lemma tab_eq n m f inp : shaped n m inp -> (forall i k, (i < n)%nat -> (k < m)%nat -> f i k = at2 inp i k) -> tab n m f = inp.
Proof.
  intros [L S] H. apply (nth_ext _ _ [] []). { destruct (tab_shaped n m f). congruence. }
  intros i Hi. destruct (tab_shaped n m f) as [L' S']. rewrite L' in Hi.
  assert (Hin : In (nth i inp []) inp) by (apply nth_In; lia).
  assert (Hin' : In (nth i (tab n m f) []) (tab n m f)) by (apply nth_In; lia).
  apply (nth_ext _ _ 0 0). { rewrite (S _ Hin), (S' _ Hin'). reflexivity. }
  intros k Hk. rewrite (S' _ Hin') in Hk. change (at2 (tab n m f) i k = at2 inp i k). rewrite tab_at by assumption. apply H; assumption.
Qed.

(** C52: the two conversions undo each other. *)
Theorem C52_roundtrip : forall v N a b m inp, maxBasisError v N = Ok 0 -> a * b * N = 1 -> shaped (cvN v) m inp ->
  let sizes := repeat m (cvN v) in
  (exists mid, convertToBasis v inp sizes a = Ok mid /\ shaped (cvN v) m mid /\ convertFromBasis v mid sizes b = Ok inp) /\
  (exists mid, convertFromBasis v inp sizes a = Ok mid /\ shaped (cvN v) m mid /\ convertToBasis v mid sizes b = Ok inp).
Proof.
  intros v N a b m inp HE HN HS sizes.
  assert (Hn : (1 < cvN v)%nat). { apply Nat.ltb_lt. unfold maxBasisError in HE. destruct (1 <? cvN v)%nat; [reflexivity|discriminate]. }
  assert (HP : 0 < N). { unfold maxBasisError in HE. destruct (1 <? cvN v)%nat; [|discriminate]. cbn [check bind] in HE. destruct (Rlt_dec 0 N); [assumption|discriminate]. }
  assert (HO : orthogonal (cvN v) (cvB v) N).
  { destruct (C52_error v N Hn HP) as (e & E & _ & _ & F). rewrite HE in E. injection E as <-. apply F. reflexivity. }
  assert (HC := columns _ _ _ (Rgt_not_eq _ _ HP) HO). unfold orthogonal in HO.
  set (n := cvN v) in *. split.
  - unfold convertToBasis, convertFromBasis. rewrite (convChecks_ok v inp sizes m) by auto. cbn [bind]. fold n.
    set (f := fun i k => rsum n (fun j => cvB v i j * a * at2 inp j k)).
    exists (tab n m f). split; [reflexivity|]. split; [apply tab_shaped|].
    rewrite (convChecks_ok v (tab n m f) sizes m) by (auto; apply tab_shaped). cbn [bind]. f_equal. apply (tab_eq n m _ inp HS).
    intros i k Hi Hk. rewrite (rsum_ext n _ (fun j => rsum n (fun l => (a * b * at2 inp l k) * (cvB v j i * cvB v j l)))).
    2:{ intros j Hj. rewrite tab_at by assumption. unfold f. rewrite <- rsum_scal. apply rsum_ext. intros. ring. }
    rewrite rsum_swap. rewrite (rsum_ext n _ (fun l => delta i l * at2 inp l k)); [rewrite rsum_delta by exact Hi; reflexivity|].
    intros l Hl. rewrite rsum_scal, HC by assumption. unfold delta. destruct (i =? l)%nat; [|ring].
    transitivity (a * b * N * at2 inp l k); [ring|rewrite HN; ring].
  - unfold convertToBasis, convertFromBasis. rewrite (convChecks_ok v inp sizes m) by auto. cbn [bind]. fold n.
    set (f := fun i k => rsum n (fun j => cvB v j i * a * at2 inp j k)).
    exists (tab n m f). split; [reflexivity|]. split; [apply tab_shaped|].
    rewrite (convChecks_ok v (tab n m f) sizes m) by (auto; apply tab_shaped). cbn [bind]. f_equal. apply (tab_eq n m _ inp HS).
    intros i k Hi Hk. rewrite (rsum_ext n _ (fun j => rsum n (fun l => (a * b * at2 inp l k) * (cvB v i j * cvB v l j)))).
    2:{ intros j Hj. rewrite tab_at by assumption. unfold f. rewrite <- rsum_scal. apply rsum_ext. intros. ring. }
    rewrite rsum_swap. rewrite (rsum_ext n _ (fun l => delta i l * at2 inp l k)); [rewrite rsum_delta by exact Hi; reflexivity|].
    intros l Hl. rewrite rsum_scal, HO by assumption. unfold delta. destruct (i =? l)%nat; [|ring].
    transitivity (a * b * N * at2 inp l k); [ring|rewrite HN; ring].
Qed.
Print Assumptions C52_roundtrip.

(** The value of a component: the scalar product of the row with the fields, times the prefactor. *)
Theorem C52_component : forall v m inp a i k, (1 < cvN v)%nat -> shaped (cvN v) m inp -> (i < cvN v)%nat -> (k < m)%nat ->
  exists out, convertToBasis v inp (repeat m (cvN v)) a = Ok out /\
    at2 out i k = a * rsum (cvN v) (fun j => cvB v i j * at2 inp j k).
Proof.
  intros v m inp a i k Hn HS Hi Hk. unfold convertToBasis. rewrite (convChecks_ok v inp _ m) by auto. cbn [bind]. eexists. split; [reflexivity|].
  unfold at2 at 1. rewrite !nth_map_seq by assumption. rewrite <- rsum_scal. apply rsum_ext. intros. ring.
Qed.
Print Assumptions C52_component.

(** Wrong shapes are refused. *)
Theorem C52_shapes : forall v inp sizes a out,
  convertToBasis v inp sizes a = Ok out \/ convertFromBasis v inp sizes a = Ok out ->
  exists m, shaped (cvN v) m inp /\ sizes = repeat m (cvN v) /\ (1 < cvN v)%nat.
Proof.
  intros v inp sizes a out H. assert (exists m, convChecks v inp sizes = Ok m) as (m & E).
  { destruct H as [H|H]; [unfold convertToBasis in H|unfold convertFromBasis in H]; destruct (convChecks v inp sizes); try discriminate; eauto. }
  clear H. unfold convChecks in E. destruct (1 <? cvN v)%nat eqn:E1; [|discriminate]. destruct (0 <? length inp)%nat; [|discriminate].
  destruct (0 <? length sizes)%nat; [|discriminate]. destruct (length inp =? cvN v)%nat eqn:E2; [|discriminate].
  destruct (length sizes =? cvN v)%nat eqn:E3; [|discriminate]. cbn [check bind] in E.
  destruct (forallb _ inp) eqn:E4; [|discriminate]. destruct (forallb _ sizes) eqn:E5; [|discriminate].
  exists (length (hd [] inp)). apply Nat.ltb_lt in E1. apply Nat.eqb_eq in E2, E3. rewrite forallb_forall in E4, E5.
  split; [split; [exact E2|]|split; [|exact E1]].
  - intros x Hx. apply Nat.eqb_eq. apply (E4 x Hx).
  - rewrite <- E3. clear - E5. induction sizes as [|s r IH]; [reflexivity|]. cbn [length repeat]. f_equal.
    + apply Nat.eqb_eq. apply (E5 s). left. reflexivity.
    + apply IH. intros x Hx. apply E5. right. exact Hx.
Qed.
Print Assumptions C52_shapes.

(** A basis is accepted exactly if it is square and has at least two rows; it is then
    used as given. *)
Theorem C52_setBasis : forall n1 n2 B,
  ((2 <= n1)%nat /\ n1 = n2 -> exists v, setBasis n1 n2 B = Ok v /\ cvN v = n1 /\ cvB v = B) /\
  ((n1 < 2)%nat \/ n1 <> n2 -> setBasis n1 n2 B = Throw).
Proof.
  intros n1 n2 B. unfold setBasis. split.
  - intros [H ->]. destruct (Nat.ltb_spec 1 n2); [|lia]. rewrite Nat.eqb_refl. cbn [check bind]. eauto.
  - intros H. destruct (Nat.ltb_spec 1 n1); [|reflexivity]. cbn [check bind]. destruct (Nat.eqb_spec n1 n2); [lia|reflexivity].
Qed.
Print Assumptions C52_setBasis.

(** A case: the basis (1, 1), (1, -1) of two monomer types with normSq = 2. *)
Definition B2 (i j : nat) : R := match i, j with S _, S _ => -1 | _, _ => 1 end.
Example C52_case : exists v, setBasis 2 2 B2 = Ok v /\ maxBasisError v 2 = Ok 0 /\
  convertToBasis v [[3; 5]; [1; 1]] [2; 2]%nat (1/2) = Ok [[2; 3]; [1; 2]] /\
  convertFromBasis v [[2; 3]; [1; 2]] [2; 2]%nat 1 = Ok [[3; 5]; [1; 1]].
Proof.
  exists (mkConv 2 B2). split; [reflexivity|]. split.
  - destruct (C52_error (mkConv 2 B2) 2) as (e & -> & _ & _ & F); [cbn; lia|lra|]. f_equal. apply F.
    intros i j Hi Hj. cbn in Hi, Hj. destruct i as [|[|]], j as [|[|]]; try lia; cbn; lra.
  - split; unfold convertToBasis, convertFromBasis, at2; cbn; do 2 f_equal; repeat (try (f_equal; lra); f_equal).
Qed.
