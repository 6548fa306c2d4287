(** Proofs about the element-wise operations. *)
From Coq Require Import Reals ZArith Bool Arith Lia Lra.
From Coquelicot Require Import Complex.
From Coq Require Import List.
From Verif Require Import Base GpuThreads GpuGrid GpuKernel VecOp VecOpSpec.
Import ListNotations.
Local Open Scope nat_scope.

(** ** What the bodies access *)

Definition all_loads (o : vop) : list (nat * nat) := flat_map stmt_loads (body o).
Definition all_stores (o : vop) : list (nat * nat) := flat_map stmt_stores (body o).

(** Pairs of a store and a load that follows it *)
Fixpoint later (b : list stmt) : list ((nat * nat) * (nat * nat)) :=
  match b with
  | [] => []
  | s :: r => list_prod (stmt_stores s) (flat_map stmt_loads r) ++ later r
  end.

Definition ty_eqb (a b : ty) : bool := match a, b with Re, Re | Co, Co => true | _, _ => false end.
Definition access_ok (o : vop) : bool :=
  forallb (fun p => (fst p <? nout o) && (snd p <? width (nth (fst p) (types o) Re))) (all_stores o) &&
  forallb (fun p => (fst p <? length (types o)) && (snd p <? width (nth (fst p) (types o) Re)) &&
                    existsb (Nat.eqb (fst p)) (operands o)) (all_loads o) &&
  forallb (fun pq =>
     let '((k, c), (l, d)) := pq in
     if c =? d
     then negb (k =? l) &&
          (negb (ty_eqb (nth k (types o) Re) (nth l (types o) Re)) || (l <? nout o) || negb (may_share o k l))
     else true) (later (body o)).

Lemma nth_repeat_Re : forall n k, nth k (repeat Re n) Re = Re.
Proof. induction n; destruct k; cbn; auto. Qed.

Lemma many_loads : forall (f : expr -> expr -> expr) l,
  (forall a b, loads (f a b) = loads a ++ loads b) ->
  flat_map stmt_loads (map (fun j => Loc 0 (f (Lv 0) (Ld (1 + j) 0))) l) = map (fun j => (1 + j, 0)) l.
Proof.
  intros f l Hf. induction l; [reflexivity|]. cbn [map flat_map stmt_loads]. rewrite Hf, IHl. reflexivity.
Qed.
Lemma many_stores : forall (f : expr -> expr -> expr) l,
  flat_map stmt_stores (map (fun j => Loc 0 (f (Lv 0) (Ld (1 + j) 0))) l) = [].
Proof. intros f l. induction l; auto. Qed.
Lemma many_later : forall (f : expr -> expr -> expr) l,
  later (map (fun j => Loc 0 (f (Lv 0) (Ld (1 + j) 0))) l ++ [St 0 0 (Lv 0)]) = [].
Proof. intros f l. induction l; auto. Qed.

Lemma access_all : forall o, match o with addVMany n | mulVMany n => 0 < n | _ => True end ->
  access_ok o = true.
Proof.
  intros o Ho.
  destruct o as [t|t|p|p|p|p|p|p|t|t| |t|p|p|p|p|p|p|t|t| | | | | | | | | |n|n| | | | | | ];
    try (destruct t; reflexivity); try (destruct p; reflexivity); try reflexivity;
  (unfold access_ok; rewrite !andb_true_iff; split; [split|]);
  [unfold all_stores|unfold all_loads|idtac|unfold all_stores|unfold all_loads|idtac];
  cbn [body]; rewrite ?flat_map_app;
  try (cbn [flat_map stmt_stores app]; rewrite flat_map_app, many_stores; reflexivity);
  try (cbn [later stmt_stores]; cbn [list_prod app]; rewrite many_later; reflexivity);
  cbn [flat_map stmt_loads loads app];
  rewrite flat_map_app, many_loads by reflexivity; cbn [flat_map stmt_loads loads];
  rewrite !app_nil_r; apply forallb_forall; intros p Hp;
  (assert (Hq : 1 <= fst p < 1 + n /\ snd p = 0)
    by (destruct Hp as [<-|Hp]; [cbn [fst snd]; lia|];
        apply in_map_iff in Hp; destruct Hp as (j & <- & Hj); apply in_seq in Hj; cbn [fst snd]; lia));
  destruct Hq as [Hq1 Hq2]; rewrite Hq2; cbn [types operands nout length];
  rewrite repeat_length, !andb_true_iff; (split; [split|]);
  try (apply Nat.ltb_lt; lia);
  try (destruct (nth (fst p) (Re :: repeat Re n) Re); reflexivity);
  apply existsb_exists; exists (fst p); (split; [apply in_seq; lia|apply Nat.eqb_refl]).
Qed.

(** ** Elements of arrays *)

Lemma addr_word : forall A k c i, c < width (snd (arr A k)) -> word_of A k i (addr A k c i).
Proof. intros. exists c. auto. Qed.

(** Different elements, and different components, of one array *)
Lemma addr_inj : forall A k c d i j, c < width (snd (arr A k)) -> d < width (snd (arr A k)) ->
  addr A k c i = addr A k d j -> i = j /\ c = d.
Proof.
  intros A k c d i j Hc Hd H. unfold addr in H.
  destruct (snd (arr A k)); cbn [width] in *; lia.
Qed.

Section Op.

Variables (o : vop) (A : args) (n : nat) (m0 : memory).
Hypothesis Ho : match o with addVMany n | mulVMany n => 0 < n | _ => True end.
Hypothesis Hty : forall k, k < length (types o) -> snd (arr A k) = nth k (types o) Re.
Hypothesis Hsep : separate A o n.

Lemma nout_le : nout o <= length (types o).
Proof.
  clear. destruct o as [t|t|p|p|p|p|p|p|t|t| |t|p|p|p|p|p|p|t|t| | | | | | | | | |k|k| | | | | | ];
    try destruct t; try destruct p; cbn; lia.
Qed.

Lemma store_ok : forall p, In p (all_stores o) -> fst p < nout o /\ snd p < width (snd (arr A (fst p))).
Proof.
  intros p Hp. pose proof (access_all o Ho) as H. unfold access_ok in H.
  rewrite !andb_true_iff in H. destruct H as [[H _] _].
  rewrite forallb_forall in H. specialize (H p Hp). rewrite andb_true_iff, !Nat.ltb_lt in H.
  pose proof nout_le. rewrite Hty by lia. tauto.
Qed.
Lemma load_ok : forall p, In p (all_loads o) ->
  fst p < length (types o) /\ snd p < width (snd (arr A (fst p))) /\ In (fst p) (operands o).
Proof.
  intros p Hp. pose proof (access_all o Ho) as H. unfold access_ok in H.
  rewrite !andb_true_iff in H. destruct H as [[_ H] _].
  rewrite forallb_forall in H. specialize (H p Hp). rewrite !andb_true_iff, !Nat.ltb_lt in H.
  destruct H as [[H1 H2] H3]. rewrite Hty by lia. split; [exact H1|]. split; [exact H2|].
  apply existsb_exists in H3. destruct H3 as (x & Hx & E). apply Nat.eqb_eq in E. now rewrite E.
Qed.

Lemma in_wrs : forall i y, In y (wrs A (iter_code (body o) i)) <->
  exists p, In p (all_stores o) /\ y = addr A (fst p) (snd p) i.
Proof.
  intros i y. unfold wrs, iter_code, all_stores. induction (body o) as [|s b IH].
  - cbn. split; [intros []|intros (? & [] & _)].
  - cbn [map flat_map]. rewrite in_app_iff, IH. unfold wr, at_. cbn [fst snd]. rewrite in_map_iff. split.
    + intros [(p & <- & Hp)|(p & Hp & E)]; exists p; rewrite in_app_iff; auto.
    + intros (p & Hp & E). rewrite in_app_iff in Hp. destruct Hp; [left|right]; exists p; auto.
Qed.
Lemma in_rds : forall i y, In y (rds A (iter_code (body o) i)) <->
  exists p, In p (all_loads o) /\ y = addr A (fst p) (snd p) i.
Proof.
  intros i y. unfold rds, iter_code, all_loads. induction (body o) as [|s b IH].
  - cbn. split; [intros []|intros (? & [] & _)].
  - cbn [map flat_map]. rewrite in_app_iff, IH. unfold rd, at_. cbn [fst snd]. rewrite in_map_iff. split.
    + intros [(p & <- & Hp)|(p & Hp & E)]; exists p; rewrite in_app_iff; auto.
    + intros (p & Hp & E). rewrite in_app_iff in Hp. destruct Hp; [left|right]; exists p; auto.
Qed.

(** An output word and a word of another element differ *)
Lemma addr_apart : forall k c l d i j, k < nout o -> l < length (types o) ->
  c < width (snd (arr A k)) -> d < width (snd (arr A l)) -> i < n -> j < n -> i <> j ->
  addr A k c i <> addr A l d j.
Proof.
  intros k c l d i j Hk Hl Hc Hd Hi Hj Hij E.
  destruct (Nat.eq_dec k l) as [->|Hne]; [apply (addr_inj A l) in E; auto; lia|].
  destruct (Hsep k l Hk Hl Hne) as [H|(_ & H & _)].
  - apply (H (addr A k c i)); [exists i|exists j]; split; auto; [now exists c|now exists d].
  - assert (E' : addr A l d j = addr A k d j) by (unfold addr; now rewrite H).
    rewrite E' in E. rewrite <- H in Hd. apply (addr_inj A k) in E; auto. lia.
Qed.

Lemma no_meet : forall i j y, i < n -> j < n -> i <> j -> In y (wrs A (iter_code (body o) i)) ->
  ~ In y (wrs A (iter_code (body o) j)) /\ ~ In y (rds A (iter_code (body o) j)).
Proof.
  intros i j y Hi Hj Hij Hw. apply in_wrs in Hw. destruct Hw as (p & Hp & ->).
  destruct (store_ok p Hp) as [P1 P2]. pose proof nout_le. split; [rewrite in_wrs|rewrite in_rds].
  - intros (q & Hq & E). destruct (store_ok q Hq) as [Q1 Q2]. revert E. apply addr_apart; auto. lia.
  - intros (q & Hq & E). destruct (load_ok q Hq) as (Q1 & Q2 & _). revert E. apply addr_apart; auto.
Qed.

Lemma no_reread_ok : forall i, i < n -> no_reread A i (body o).
Proof.
  intros i Hi.
  assert (Hl : forall p q, In (p, q) (later (body o)) -> In p (all_stores o) -> In q (all_loads o) ->
    addr A (fst p) (snd p) i <> addr A (fst q) (snd q) i).
  { intros [k c] [l d] Hin Hp Hq. cbn [fst snd].
    destruct (store_ok _ Hp) as [P1 P2]. destruct (load_ok _ Hq) as (Q1 & Q2 & _). cbn [fst snd] in *.
    pose proof nout_le.
    pose proof (access_all o Ho) as H0. unfold access_ok in H0. rewrite !andb_true_iff in H0.
    destruct H0 as [_ H0]. rewrite forallb_forall in H0. specialize (H0 _ Hin). cbv beta iota in H0.
    intros E. destruct (Nat.eq_dec k l) as [->|Hne].
    - apply (addr_inj A l) in E; auto. destruct E as [_ ->]. rewrite !Nat.eqb_refl in H0. discriminate.
    - destruct (Hsep k l P1 Q1 Hne) as [H1|(H1 & H2 & H3)].
      + apply (H1 (addr A k c i)); exists i; (split; [auto|]); [now exists c|now exists d].
      + assert (E' : addr A l d i = addr A k d i) by (unfold addr; now rewrite H2).
        rewrite E' in E. rewrite <- H2 in Q2. apply (addr_inj A k) in E; auto. destruct E as [_ ->].
        rewrite Nat.eqb_refl in H0. rewrite !andb_true_iff, !orb_true_iff in H0.
        destruct H0 as [_ [[H0|H0]|H0]].
        * rewrite <- !Hty, H2 in H0 by lia. destruct (snd (arr A l)); discriminate.
        * apply Nat.ltb_lt in H0. lia.
        * rewrite H3 in H0. discriminate. }
  unfold all_stores, all_loads in Hl. revert Hl. generalize (body o) as b.
  induction b as [|s b IH]; intros Hl; cbn [no_reread]; [exact I|]. split.
  - intros p q Hp Hq. apply Hl; [cbn [later]|cbn [flat_map]|cbn [flat_map]]; apply in_or_app; auto.
    left. apply in_prod; auto.
  - apply IH. intros p q H1 H2 H3. apply Hl; [cbn [later]|cbn [flat_map]|cbn [flat_map]]; apply in_or_app; auto.
Qed.

End Op.
