(** Lemmas on the loops of OrderParam.v. *)
From Coq Require Import Reals ZArith List Arith Bool Lia Lra Classical.
From Verif Require Import Base RSum UnitCell ShiftMin Fft OrderParam.
Import ListNotations.
Local Open Scope R_scope.

(* ---------- the prefactor loop ---------- *)
Section Pre.
Variables (G : nat -> list Z) (n : nat).
Definition matched (i j : nat) : Prop := map Z.opp (G i) = G j.
Lemma matched_sym : forall i j, matched i j -> matched j i.
Proof. unfold matched. intros i j <-. rewrite map_map. rewrite <- (map_id (G i)) at 2. apply map_ext. intros; lia. Qed.

Lemma search_spec : forall i L p b,
  let st := fold_left (searchStep G i) L (p, b) in
  (snd st = true <-> b = true \/ exists j, In j L /\ matched i j) /\
  (forall x, ((In x L /\ matched i x) \/ (x = i /\ exists j, In j L /\ matched i j)) -> fst st x = 1 / 2) /\
  (forall x, ~ ((In x L /\ matched i x) \/ (x = i /\ exists j, In j L /\ matched i j)) -> fst st x = p x).
Proof.
  intros i L. induction L as [|y L IH]; intros p b; cbn [fold_left].
  - cbn zeta. cbn [fst snd]. split; [|split].
    + split; [auto|]. intros [H|[j [[] _]]]; auto.
    + intros x [[[] _]|[_ [j [[] _]]]].
    + auto.
  - unfold searchStep at 2 4 6. cbn [fst]. destruct (list_eq_dec Z.eq_dec (map Z.opp (G i)) (G y)) as [M|M].
    + destruct (IH (upd (upd p i (1 / 2)) y (1 / 2)) true) as [A [B C]]. cbn zeta in *. split; [|split].
      * split; intros _; [right; exists y; split; [left; auto|exact M]|apply A; auto].
      * intros x Hx. destruct (classic ((In x L /\ matched i x) \/ (x = i /\ exists j, In j L /\ matched i j))) as [Q|Q]; [apply B; auto|].
        rewrite (C x Q). unfold upd. destruct (Nat.eqb_spec x y); auto. destruct (Nat.eqb_spec x i); auto.
        exfalso. destruct Hx as [[[H|H] H']|[H _]]; try congruence. apply Q. auto.
      * intros x Hx. rewrite C.
        -- unfold upd. destruct (Nat.eqb_spec x y); [subst; exfalso; apply Hx; left; split; [left; auto|exact M]|].
           destruct (Nat.eqb_spec x i); auto. exfalso; apply Hx. right. split; auto. exists y. split; [left; auto|exact M].
        -- intros [[H H']|[H [j [H' H'']]]]; apply Hx; [left; split; [right; auto|auto]|right; split; auto; exists j; split; [right; auto|auto]].
    + destruct (IH p b) as [A [B C]]. cbn zeta in *. split; [|split].
      * rewrite A. split; intros [H|[j [H H']]]; auto; right; exists j; split; auto; [right; auto|].
        destruct H as [->|H]; auto. contradiction.
      * intros x Hx. apply B. destruct Hx as [[[->|H] H']|[H [j [[->|H'] H'']]]]; try contradiction; eauto.
      * intros x Hx. apply C. intros [[H H']|[H [j [H' H'']]]]; apply Hx; [left; split; [right; auto|auto]|right; split; auto; exists j; split; [right; auto|auto]].
Qed.

Hypothesis inj : forall i j, (i < n)%nat -> (j < n)%nat -> G i = G j -> i = j.
Definition hasInv (a : nat) : Prop := exists j, (j < n)%nat /\ matched a j.
Definition inv (m : nat) (p : nat -> R) : Prop := forall a, (a < n)%nat ->
  ((a < m)%nat -> hasInv a -> p a = 1 / 2) /\ ((a < m)%nat -> ~ hasInv a -> p a = 1) /\
  ((m <= a)%nat -> (exists j, (j < m)%nat /\ matched a j) -> p a = 1 / 2) /\
  ((m <= a)%nat -> ~ (exists j, (j < m)%nat /\ matched a j) -> p a = 0).

Lemma inv_step : forall m p, (m < n)%nat -> inv m p -> inv (S m) (prefactorStep G n p m).
Proof.
  intros m p Hm I. unfold prefactorStep.
  destruct (classic (exists j, (j < m)%nat /\ matched m j)) as [E|E].
  - assert (P : p m = 1 / 2) by (apply (I m Hm); auto; lia).
    destruct (Req_EM_T (p m) 0) as [Z|_]; [rewrite P in Z; lra|].
    intros a Ha. destruct (I a Ha) as [I1 [I2 [I3 I4]]].
    destruct (lt_eq_lt_dec a m) as [[L|L]|L].
    + split; [intros; apply I1; auto|]. split; [intros; apply I2; auto|]. split; intros; lia.
    + subst a. split; [auto|]. split; [|split; intros; lia].
      intros _ N. exfalso. apply N. destruct E as [j [J1 J2]]. exists j. split; auto; lia.
    + split; [intros; lia|]. split; [intros; lia|].
      assert (X : (exists j, (j < S m)%nat /\ matched a j) <-> exists j, (j < m)%nat /\ matched a j).
      { split; intros [j [J1 J2]]; [|exists j; split; auto; lia].
        destruct (Nat.eq_dec j m) as [->|]; [|exists j; split; auto; lia].
        exfalso. destruct E as [j0 [K1 K2]]. apply matched_sym in J2. unfold matched in J2, K2.
        assert (a = j0) by (apply inj; auto; try lia; congruence). lia. }
      split; intros _ H; rewrite X in H; [apply I3|apply I4]; auto; lia.
  - assert (P : p m = 0) by (apply (I m Hm); auto; lia).
    destruct (Req_EM_T (p m) 0) as [_|Z]; [|contradiction].
    destruct (search_spec m (seq m (n - m)) p false) as [A [B C]]. cbn zeta in *.
    set (st := fold_left (searchStep G m) (seq m (n - m)) (p, false)) in *.
    assert (HI : hasInv m <-> exists j, In j (seq m (n - m)) /\ matched m j).
    { split; intros [j [J1 J2]].
      - exists j. split; auto. apply in_seq. destruct (lt_dec j m); [exfalso; apply E; eauto|lia].
      - exists j. split; auto. apply in_seq in J1. lia. }
    assert (SND : snd st = true <-> hasInv m).
    { rewrite A, HI. split; [intros [H|H]; [discriminate|auto]|auto]. }
    assert (VAL : forall a, (a < n)%nat -> a <> m ->
       (if snd st then fst st else upd (fst st) m 1) a = fst st a).
    { intros a _ N. destruct (snd st); auto. unfold upd. destruct (Nat.eqb_spec a m); [contradiction|auto]. }
    intros a Ha. destruct (I a Ha) as [I1 [I2 [I3 I4]]].
    destruct (lt_eq_lt_dec a m) as [[L|L]|L].
    + rewrite VAL by lia. rewrite C.
      2:{ intros [[H _]|[H _]]; [apply in_seq in H; lia|lia]. }
      split; [intros; apply I1; auto|]. split; [intros; apply I2; auto|]. split; intros; lia.
    + subst a. split; [|split; [|split; intros; lia]].
      * intros _ H. rewrite (proj2 SND H). apply B. right. split; auto. apply HI; auto.
      * intros _ H. destruct (snd st) eqn:Es; [exfalso; apply H, SND; auto|]. unfold upd. rewrite Nat.eqb_refl. auto.
    + rewrite VAL by lia. split; [intros; lia|]. split; [intros; lia|].
      destruct (classic (matched m a)) as [M|M].
      * rewrite B by (left; split; auto; apply in_seq; lia).
        split; auto. intros _ H. exfalso. apply H. exists m. split; [lia|]. apply matched_sym; auto.
      * rewrite C by (intros [[_ H]|[H _]]; [contradiction|lia]).
        assert (X : (exists j, (j < S m)%nat /\ matched a j) <-> exists j, (j < m)%nat /\ matched a j).
        { split; intros [j [J1 J2]]; [|exists j; split; auto; lia].
          destruct (Nat.eq_dec j m) as [->|]; [exfalso; apply M, matched_sym; auto|]. exists j; split; auto; lia. }
        split; intros _ H; rewrite X in H; [apply I3|apply I4]; auto; lia.
Qed.

Lemma inv_loop : forall k m p, (m + k <= n)%nat -> inv m p -> inv (m + k) (fold_left (prefactorStep G n) (seq m k) p).
Proof.
  induction k; intros m p H I; cbn [seq fold_left].
  - rewrite Nat.add_0_r. auto.
  - replace (m + S k)%nat with (S m + k)%nat by lia. apply IHk; [lia|]. apply inv_step; auto. lia.
Qed.

Lemma prefactor_value : forall p a, (forall j, (j < n)%nat -> p j = 0) -> (a < n)%nat ->
  (hasInv a -> computePrefactor G n p a = 1 / 2) /\ (~ hasInv a -> computePrefactor G n p a = 1).
Proof.
  intros p a Z Ha. assert (I0 : inv 0 p).
  { intros b Hb. split; [intros; lia|]. split; [intros; lia|]. split; [intros _ [j [J _]]; lia|]. intros; auto. }
  assert (I := inv_loop n 0 p ltac:(lia) I0 a Ha). cbn [Nat.add] in I. destruct I as [I1 [I2 _]]. split; intros; [apply I1|apply I2]; auto.
Qed.

Lemma prefactor_again : forall p, (forall j, (j < n)%nat -> p j <> 0) -> computePrefactor G n p = p.
Proof.
  intros p H. unfold computePrefactor.
  assert (X : forall L, (forall j, In j L -> (j < n)%nat) -> fold_left (prefactorStep G n) L p = p).
  { induction L as [|j L IH]; intros HL; cbn [fold_left]; auto.
    unfold prefactorStep at 2. destruct (Req_EM_T (p j) 0) as [Z|_].
    - exfalso. apply (H j); auto. apply HL. left; auto.
    - apply IH. intros; apply HL; right; auto. }
  apply X. intros j Hj. apply in_seq in Hj. lia.
Qed.
End Pre.

(* ---------- the search for the maximum ---------- *)
Lemma max_loop : forall psi L M r, psi r = M ->
  let st := fold_left (maxStep psi) L (M, r) in
  psi (snd st) = fst st /\ In (snd st) (r :: L) /\ (forall j, In j (r :: L) -> psi j <= fst st) /\
  (snd st = r \/ M < fst st).
Proof.
  intros psi L. induction L as [|y L IH]; intros M r E; cbn [fold_left].
  - cbn zeta. cbn [fst snd]. split; auto. split; [left; auto|]. split; [|auto]. intros j [->|[]]. rewrite E. lra.
  - unfold maxStep at 2 4 6 8 10 12. cbn [fst]. destruct (Rlt_dec M (psi y)) as [H|H].
    + destruct (IH (psi y) y eq_refl) as [A [B [C D]]]. cbn zeta in *. split; auto.
      assert (M < fst (fold_left (maxStep psi) L (psi y, y))).
      { assert (X := C y (or_introl eq_refl)). lra. }
      split; [right; auto|]. split; [|auto]. intros j [->|J]; [rewrite E; lra|auto].
    + destruct (IH M r E) as [A [B [C D]]]. cbn zeta in *. split; auto. split; [destruct B; [left; auto|right; right; auto]|].
      split; auto. intros j [->|[->|J]]; [apply C; left; auto| |apply C; right; auto].
      assert (X := C r (or_introl eq_refl)). rewrite E in X. lra.
Qed.

(** The index found is the first one at which the maximum is attained. *)
Lemma max_loop_first : forall psi k s M r, psi r = M -> (r < s)%nat -> (forall j, (0 < j < s)%nat -> j <> r -> (j < r)%nat -> psi j < M) ->
  (forall j, (r < j < s)%nat -> psi j <= M) ->
  let st := fold_left (maxStep psi) (seq s k) (M, r) in
  forall j, (0 < j < snd st)%nat -> psi j < fst st.
Proof.
  intros psi. induction k; intros s M r E Hr H1 H2; cbn [seq fold_left].
  - cbn zeta. cbn [fst snd]. intros j Hj. apply H1; lia.
  - unfold maxStep at 2 4. cbn [fst]. destruct (Rlt_dec M (psi s)) as [H|H].
    + apply IHk; auto; try lia. intros j Hj N _. destruct (lt_eq_lt_dec j r) as [[L|L]|L].
      * assert (X := H1 j ltac:(lia) ltac:(lia) L). lra.
      * subst j. lra.
      * assert (X := H2 j ltac:(lia)). lra.
    + apply IHk; auto; try lia. 
      * intros j Hj N L. apply H1; lia.
      * intros j Hj. destruct (Nat.eq_dec j s); [subst; lra|]. apply H2; lia.
Qed.

(* ---------- sorted maps ---------- *)
Fixpoint sorted (m : list (R * R)) : Prop :=
  match m with
  | [] => True
  | e :: m' => (forall e', In e' m' -> fst e < fst e') /\ sorted m'
  end.

Lemma mapAdd_spec : forall q s m, sorted m ->
  sorted (mapAdd q s m) /\
  forall k v, In (k, v) (mapAdd q s m) <->
    (k <> q /\ In (k, v) m) \/
    (k = q /\ ((exists v0, In (q, v0) m /\ v = v0 + s) \/ ((forall v0, ~ In (q, v0) m) /\ v = 0 + s))).
Proof.
  intros q s m. induction m as [|[k0 v0] m IH]; intros S; cbn [mapAdd].
  - split; [split; [intros e []|exact I]|]. intros k v. split.
    + intros [H|[]]. injection H as <- <-. right. split; auto. 
    + intros [[_ []]|[-> [[v0 [[] _]]|[_ ->]]]]. left; auto.
  - destruct S as [S1 S2]. destruct (Rlt_dec q k0) as [L|L]; [|destruct (Req_EM_T q k0) as [E|E]].
    + assert (NI : forall v1, ~ In (q, v1) ((k0, v0) :: m)).
      { intros v1 [H|H]; [injection H as H _; lra|]. apply S1 in H. cbn [fst] in H. lra. }
      split.
      * split; [|split; auto]. intros e' [<-|H]; cbn [fst]; [auto|]. apply S1 in H. cbn [fst] in H. lra.
      * intros k v. split.
        -- intros [H|H]; [injection H as <- <-; right; split; auto|]. left. split; auto. intros ->. apply (NI v); auto.
        -- intros [[_ H]|[-> [[v1 [H _]]|[_ ->]]]]; [right; auto|exfalso; apply (NI v1); auto|left; auto].
    + subst k0. split; [split; auto|]. intros k v. split.
      * intros [H|H].
        -- injection H as <- <-. right. split; auto. left. exists v0. split; [left; auto|auto].
        -- left. split; [|right; auto]. intros ->. apply S1 in H. cbn [fst] in H. lra.
      * intros [[N [H|H]]|[-> [[v1 [[H|H] ->]]|[N _]]]].
        -- injection H as <- _. contradiction.
        -- right; auto.
        -- injection H as <-. left; auto.
        -- apply S1 in H. cbn [fst] in H. lra.
        -- exfalso. apply (N v0). left; auto.
    + destruct (IH S2) as [A B]. split.
      * split; auto. intros [k v] H. apply B in H. cbn [fst]. destruct H as [[_ H]|[-> _]]; [apply S1 in H; auto|].
        destruct (Rtotal_order q k0) as [|[|]]; [lra|contradiction|lra].
      * intros k v. cbn [In]. rewrite B. split.
        -- intros [H|[[N H]|[-> [[v1 [H ->]]|[N ->]]]]].
           ++ injection H as <- <-. left. split; auto.
           ++ left; auto.
           ++ right. split; auto. left. exists v1. auto.
           ++ right. split; auto. right. split; auto. intros v1 [H|H]; [injection H as H _; congruence|apply (N v1); auto].
        -- intros [[N [H|H]]|[-> [[v1 [[H|H] ->]]|[N ->]]]]; auto.
           ++ injection H as H _. congruence.
           ++ right. right. split; auto. left. exists v1; auto.
           ++ right. right. split; auto. right. split; auto. intros v1 H. apply (N v1). right; auto.
Qed.

Lemma mapSet_last : forall q s m, (forall e, In e m -> fst e < q) -> mapSet q s m = m ++ [(q, s)].
Proof.
  induction m as [|[k v] m IH]; intros H; cbn [mapSet app]; auto.
  assert (X := H (k, v) (or_introl eq_refl)). cbn [fst] in X.
  destruct (Rlt_dec q k); [lra|]. destruct (Req_EM_T q k); [lra|]. f_equal. apply IH. intros; apply H; right; auto.
Qed.

(** Keys that differ by more than the tolerance: every batch is one entry. *)
Lemma batches_separated : forall m out q s, (forall e, In e out -> fst e < q) ->
  sorted ((q, s) :: m) ->
  (forall e e', In e ((q, s) :: m) -> In e' ((q, s) :: m) -> fst e = fst e' \/ Rabs (fst e' - fst e) > tolerance) ->
  batches out q s 1 m = out ++ (q, s) :: m.
Proof.
  induction m as [|[k v] m IH]; intros out q s HO S HT; cbn [batches].
  - rewrite mapSet_last by auto. do 3 f_equal. cbn [INR]. field.
  - destruct S as [S1 S2]. assert (QK : q < k) by (apply (S1 (k, v)); left; auto).
    destruct (Rle_dec (Rabs (k - q)) tolerance) as [L|L].
    + exfalso. destruct (HT (q, s) (k, v) (or_introl eq_refl) (or_intror (or_introl eq_refl))) as [E|E]; cbn [fst] in E; lra.
    + rewrite IH.
      * rewrite mapSet_last by auto. rewrite <- app_assoc. cbn [app]. do 3 f_equal. cbn [INR]. field.
      * rewrite mapSet_last by auto. intros e He. apply in_app_iff in He. destruct He as [He|[<-|[]]]; [apply HO in He; lra|auto].
      * auto.
      * intros e e' H H'. apply HT; right; auto.
Qed.

Lemma sorted_pair : forall a b pre mid post, sorted (pre ++ a :: mid ++ b :: post) -> fst a < fst b.
Proof.
  induction pre as [|x pre IH]; intros mid post H; cbn [app sorted] in H.
  - destruct H as [H _]. apply H. apply in_app_iff. right. left. auto.
  - destruct H as [_ H]. eapply IH; eauto.
Qed.
(** The batches, for a batch cur in progress. *)
Lemma batches_parts : forall m out q sumS cur, (forall e, In e out -> fst e < q) -> sorted (cur ++ m) ->
  fst (hd (0, 0) cur) = q -> cur <> [] -> (forall e, In e cur -> Rabs (fst e - q) <= tolerance) -> sumS = lsum snd cur ->
  exists parts, concat parts = cur ++ m /\
  batches out q sumS (length cur) m = out ++ map (fun p => (fst (hd (0, 0) p), lsum snd p / INR (length p))) parts /\
  (forall p, In p parts -> p <> [] /\ forall e, In e p -> Rabs (fst e - fst (hd (0, 0) p)) <= tolerance) /\
  (forall p p' pre post, parts = pre ++ p :: p' :: post -> Rabs (fst (hd (0, 0) p') - fst (hd (0, 0) p)) > tolerance) /\
  (forall d, fst (hd (0, 0) (hd d parts)) = q).
Proof.
  induction m as [|[k v] m IH]; intros out q sumS cur HO S HQ HN HC HS; cbn [batches].
  - exists [cur]. split; [cbn; auto|]. split; [|split; [|split]].
    + rewrite mapSet_last by auto. cbn [map]. rewrite HQ, HS. reflexivity.
    + intros p [<-|[]]. rewrite HQ. auto.
    + intros p p' [|x [|y pre]] post H; discriminate.
    + intros; auto.
  - destruct (Rle_dec (Rabs (k - q)) tolerance) as [L|L].
    + destruct (IH out q (sumS + v) (cur ++ [(k, v)])) as [parts [A [B [C [D E]]]]]; auto.
      * rewrite <- app_assoc. exact S.
      * destruct cur; [contradiction|]. exact HQ.
      * destruct cur; discriminate.
      * intros e He. apply in_app_iff in He. destruct He as [He|[<-|[]]]; auto.
      * rewrite lsum_app. cbn [lsum snd]. rewrite HS. ring.
      * rewrite app_length in B. cbn [length] in B. rewrite Nat.add_1_r in B.
        exists parts. rewrite A, <- app_assoc. auto.
    + assert (QK : q < k).
      { destruct cur as [|c cur]; [contradiction|]. cbn [hd] in HQ. subst q. apply (sorted_pair c (k, v) [] cur m). exact S. }
      destruct (IH (mapSet q (sumS / INR (length cur)) out) k v [(k, v)]) as [parts [A [B [C [D E]]]]]; auto.
      * rewrite mapSet_last by auto. intros e He. apply in_app_iff in He. destruct He as [He|[<-|[]]]; [apply HO in He; lra|auto].
      * clear - S. induction cur as [|c cur IHc]; [exact S|]. apply IHc. destruct S; auto.
      * discriminate.
      * intros e [<-|[]]. cbn [fst]. rewrite Rminus_diag_eq, Rabs_R0 by auto. unfold tolerance. lra.
      * cbn. ring.
      * exists (cur :: parts). split; [cbn [concat]; rewrite A; reflexivity|]. split; [|split; [|split]].
        -- cbn [length] in B. rewrite B, mapSet_last by auto. rewrite <- app_assoc. cbn [map app]. rewrite HQ, HS. reflexivity.
        -- intros p [<-|Hp]; auto. rewrite HQ. auto.
        -- intros p p' [|x pre] post H; cbn [app] in H.
           ++ injection H as <- H. specialize (E []). rewrite H in E. cbn [hd] in E. rewrite E, HQ. lra.
           ++ injection H as <- H. eapply D; eauto.
        -- intros d. exact HQ.
Qed.

(** The sums and the counts of the shells. *)
Lemma sMap0_spec : forall qL s n,
  sorted (sMap0 n qL s) /\
  forall k v, In (k, v) (sMap0 n qL s) <->
    (exists i, (i < n)%nat /\ qL i = k) /\ v = rsum n (fun i => if Req_EM_T (qL i) k then s i else 0).
Proof.
  intros qL s n. unfold sMap0. induction n.
  - cbn. split; auto. intros k v. split; [intros []|]. intros [[i [H _]] _]. lia.
  - rewrite seq_S, fold_left_app. cbn [fold_left Nat.add]. destruct IHn as [A B].
    destruct (mapAdd_spec (qL n) (s n) _ A) as [A' B']. split; auto. intros k v. rewrite B'. cbn [rsum]. split.
    + intros [[N H]|[-> [[v0 [H ->]]|[N ->]]]].
      * apply B in H. destruct H as [[i [Hi Ei]] ->]. split; [exists i; split; auto; lia|].
        destruct (Req_EM_T (qL n) k); [congruence|lra].
      * apply B in H. destruct H as [[i [Hi Ei]] ->]. split; [exists n; split; auto; lia|].
        destruct (Req_EM_T (qL n) (qL n)); [lra|congruence].
      * split; [exists n; split; auto; lia|]. destruct (Req_EM_T (qL n) (qL n)); [|congruence].
        rewrite (rsum_ext n _ (fun _ => 0)); [rewrite rsum_zero; auto|].
        intros i Hi. destruct (Req_EM_T (qL i) (qL n)) as [E|]; auto. exfalso.
        apply (N (rsum n (fun i => if Req_EM_T (qL i) (qL n) then s i else 0))). apply B. split; auto. exists i; auto.
    + intros [[i [Hi Ei]] ->]. destruct (Req_EM_T (qL n) k) as [E|E].
      * right. split; auto. subst k. destruct (classic (exists j, (j < n)%nat /\ qL j = qL n)) as [J|J].
        -- left. eexists. split; [apply B; split; [exact J|reflexivity]|]. rewrite E. reflexivity.
        -- right. split.
           ++ intros v0 H. apply B in H. apply J. apply H.
           ++ f_equal. rewrite (rsum_ext n _ (fun _ => 0)); [apply rsum_zero|]. intros j Hj. destruct (Req_EM_T (qL j) (qL i)) as [X|]; auto.
              exfalso. apply J. exists j. split; auto. congruence.
      * left. split; [congruence|]. apply B. split; [|lra]. exists i. split; auto. destruct (Nat.eq_dec i n); [subst; contradiction|lia].
Qed.

Lemma countq_rsum : forall n qL q, INR (countq n qL q) = rsum n (fun i => if Req_EM_T (qL i) q then 1 else 0).
Proof.
  intros n qL q. unfold countq. induction n; [reflexivity|].
  rewrite seq_S, filter_app, app_length, plus_INR, IHn. cbn [Nat.add filter rsum].
  destruct (Req_EM_T (qL n) q); cbn; lra.
Qed.
