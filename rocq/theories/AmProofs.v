(** Lemmas about the Anderson-mixing model. *)
From Coq Require Import Reals List Arith Bool ZArith Lia Lra.
From Verif Require Import Base RSum Am.
Import ListNotations.

Lemma length_append X cap (x : X) h : length (append cap x h) = Nat.min cap (S (length h)).
Proof. unfold append. rewrite firstn_length. reflexivity. Qed.

Lemma nth_append_0 X cap (x : X) h d : 1 <= cap -> nth 0 (append cap x h) d = x.
Proof. intros H. unfold append. destruct cap; [lia|]. reflexivity. Qed.
Lemma nth_append_S X cap (x : X) h d k :
  S k < length (append cap x h) -> nth (S k) (append cap x h) d = nth k h d.
Proof.
  intros H. rewrite length_append in H. unfold append. destruct cap; [lia|]. cbn [firstn nth].
  assert (k < cap) by lia. clear H.
  revert h k H0. induction cap as [|c IH]; intros h k Hk; [lia|].
  destruct h as [|y h]; cbn [firstn]; [reflexivity|].
  destruct k; [reflexivity|]. cbn [nth]. apply IH. lia.
Qed.
Lemma Forall_append X (P : X -> Prop) cap x h : P x -> Forall P h -> Forall P (append cap x h).
Proof.
  intros Hx Hh. apply Forall_forall. intros y Hy. unfold append in Hy.
  assert (In y (x :: h)).
  { rewrite <- (firstn_skipn cap (x :: h)). apply in_or_app. left. exact Hy. }
  destruct H as [<-|H]; [assumption|]. rewrite Forall_forall in Hh. auto.
Qed.

(* ---------- the shift ---------- *)
Lemma shiftRow_spec X (m n : nat) (U : nat -> nat -> X) a b : 1 <= m ->
  shiftRow m n U a b = if (a =? m) && ((1 <=? b) && (b <=? n)) then U (m - 1) (b - 1) else U a b.
Proof.
  revert U. induction n as [|n IH]; intros U Hm; cbn [shiftRow].
  - destruct (a =? m); cbn; [|reflexivity]. destruct b; cbn; reflexivity.
  - rewrite IH by assumption. unfold put.
    destruct (Nat.eqb_spec a m) as [->|Ha]; cbn [andb].
    + destruct (Nat.leb_spec 1 b), (Nat.leb_spec b n), (Nat.leb_spec b (S n)); cbn [andb]; try lia.
      * rewrite (proj2 (Nat.eqb_neq (m - 1) m)) by lia. reflexivity.
      * assert (b = S n) by lia. subst b. rewrite Nat.eqb_refl. f_equal. lia.
      * rewrite (proj2 (Nat.eqb_neq b (S n))) by lia. reflexivity.
      * rewrite (proj2 (Nat.eqb_neq b (S n))) by lia. reflexivity.
    + reflexivity.
Qed.

Lemma shiftFrom_spec X (m last : nat) (U : nat -> nat -> X) a b :
  shiftFrom m last U a b =
  if ((1 <=? a) && (a <=? m)) && ((1 <=? b) && (b <=? last)) then U (a - 1) (b - 1) else U a b.
Proof.
  revert U. induction m as [|m IH]; intros U; cbn [shiftFrom].
  - destruct a; cbn; reflexivity.
  - rewrite IH. rewrite !shiftRow_spec by lia.
    destruct (Nat.leb_spec 1 a), (Nat.leb_spec a m), (Nat.leb_spec a (S m)); cbn [andb]; try lia.
    + destruct ((1 <=? b) && (b <=? last)) eqn:E.
      * rewrite (proj2 (Nat.eqb_neq (a - 1) (S m))) by lia. reflexivity.
      * rewrite andb_false_r. reflexivity.
    + assert (a = S m) by lia. subst a. rewrite Nat.eqb_refl. cbn [andb].
      destruct ((1 <=? b) && (b <=? last)); [|reflexivity]. f_equal.
    + rewrite (proj2 (Nat.eqb_neq a (S m))) by lia. reflexivity.
    + rewrite (proj2 (Nat.eqb_neq a (S m))) by lia. reflexivity.
Qed.

Lemma shiftU_spec X mh (U : nat -> nat -> X) a b : 1 <= a < mh -> 1 <= b < mh ->
  shiftU mh U a b = U (a - 1) (b - 1).
Proof.
  intros Ha Hb. unfold shiftU. rewrite shiftFrom_spec.
  rewrite !(proj2 (Nat.leb_le _ _)) by lia. reflexivity.
Qed.

(* ---------- the new row ---------- *)
Lemma newRow_spec N n (b0 : nat -> nT N) bs : forall m0 U U', newRow n b0 bs m0 U = Some U' ->
  (forall m, m0 <= m < m0 + length bs ->
     dot n b0 (nth (m - m0) bs (fun _ => nzero)) = Some (U' m 0) /\ U' 0 m = U' m 0) /\
  (forall m k, m <> 0 -> k <> 0 -> U' m k = U m k) /\
  (forall m, m < m0 -> U' m 0 = U m 0 /\ U' 0 m = U 0 m).
Proof.
  induction bs as [|b bs IH]; intros m0 U U' H; cbn [newRow] in H.
  - injection H as <-. repeat split; intros; cbn [length] in *; lia.
  - destruct (dot n b0 b) as [d|] eqn:Ed; [|discriminate].
    set (U1 := if m0 =? 0 then put U 0 0 d else put (put U m0 0 d) 0 m0 d) in *.
    destruct (IH _ _ _ H) as (H1 & H2 & H3). clear IH.
    assert (E1 : U1 m0 0 = d).
    { unfold U1, put. destruct (Nat.eqb_spec m0 0) as [->|Hm]; cbn [Nat.eqb andb]; [reflexivity|].
      rewrite (proj2 (Nat.eqb_neq m0 0)) by lia. cbn [andb]. rewrite Nat.eqb_refl. reflexivity. }
    assert (E2 : U1 0 m0 = d).
    { unfold U1, put. destruct (Nat.eqb_spec m0 0) as [->|Hm]; cbn [Nat.eqb andb]; [reflexivity|].
      rewrite Nat.eqb_refl. reflexivity. }
    split; [|split].
    + intros m Hm. cbn [length] in Hm. destruct (Nat.eq_dec m m0) as [->|Hne].
      * rewrite Nat.sub_diag. cbn [nth]. destruct (H3 m0 ltac:(lia)) as [-> ->]. rewrite E1, E2. auto.
      * replace (m - m0) with (S (m - S m0)) by lia. cbn [nth]. apply H1. lia.
    + intros m k Hm Hk. rewrite H2 by assumption. unfold U1, put.
      destruct (m0 =? 0).
      * rewrite (proj2 (Nat.eqb_neq m 0)) by lia. reflexivity.
      * rewrite (proj2 (Nat.eqb_neq m 0)), (proj2 (Nat.eqb_neq k 0)) by lia. cbn [andb]. rewrite andb_false_r. reflexivity.
    + intros m Hm. destruct (H3 m ltac:(lia)) as [-> ->]. unfold U1, put.
      destruct (Nat.eqb_spec m0 0); [lia|].
      rewrite (proj2 (Nat.eqb_neq m m0)) by lia. rewrite (proj2 (Nat.eqb_neq 0 m0)) by lia.
      cbn [andb]. rewrite !andb_false_r. auto.
Qed.

Lemma newRow_some N n (b0 : nat -> nT N) bs : (forall b, In b bs -> dot n b0 b <> None) ->
  forall m0 U, newRow n b0 bs m0 U <> None.
Proof.
  induction bs as [|b bs IH]; intros H m0 U; cbn [newRow]; [discriminate|].
  destruct (dot n b0 b) eqn:E; [|exact (False_ind _ (H b (or_introl eq_refl) E))].
  apply IH. intros x Hx. apply H. right. exact Hx.
Qed.

Lemma computeV_spec N n (r : nat -> nT N) bs : forall m0 v v', computeV n v r bs m0 = Some v' ->
  (forall m, m0 <= m < m0 + length bs -> dot n r (nth (m - m0) bs (fun _ => nzero)) = Some (v' m)) /\
  (forall m, m < m0 -> v' m = v m).
Proof.
  induction bs as [|b bs IH]; intros m0 v v' H; cbn [computeV] in H.
  - injection H as <-. split; intros; cbn [length] in *; [lia|reflexivity].
  - destruct (dot n r b) as [d|] eqn:Ed; [|discriminate].
    destruct (IH _ _ _ H) as (H1 & H2). split.
    + intros m Hm. cbn [length] in Hm. destruct (Nat.eq_dec m m0) as [->|Hne].
      * rewrite Nat.sub_diag. cbn [nth]. rewrite H2 by lia. cbn beta. rewrite Nat.eqb_refl. exact Ed.
      * replace (m - m0) with (S (m - S m0)) by lia. cbn [nth]. apply H1. lia.
    + intros m Hm. rewrite H2 by lia. cbn beta. rewrite (proj2 (Nat.eqb_neq m m0)) by lia. reflexivity.
Qed.
Lemma computeV_some N n (r : nat -> nT N) bs : (forall b, In b bs -> dot n r b <> None) ->
  forall m0 v, computeV n v r bs m0 <> None.
Proof.
  induction bs as [|b bs IH]; intros H m0 U; cbn [computeV]; [discriminate|].
  destruct (dot n r b) eqn:E; [|exact (False_ind _ (H b (or_introl eq_refl) E))].
  apply IH. intros x Hx. apply H. right. exact Hx.
Qed.

(* ---------- the matrix of inner products ---------- *)
Definition gram {N : num} (n : nat) (basis : list (nat -> nT N)) (U : nat -> nat -> nT N) : Prop :=
  forall m k, m < length basis -> k < length basis ->
    dot n (nth m basis (fun _ => nzero)) (nth k basis (fun _ => nzero)) = Some (U m k).

Definition mulComm (N : num) : Prop := forall x y : nT N, nmul x y = nmul y x.
Lemma dot_comm (N : num) : mulComm N -> forall n (a b : nat -> nT N), dot n a b = dot n b a.
Proof.
  intros HC n a b. induction n as [|n IH]; cbn [dot]; [reflexivity|].
  rewrite IH. destruct (dot n b a); [|reflexivity]. rewrite orb_comm, HC. reflexivity.
Qed.

Lemma updateU_gram (N : num) : mulComm N -> forall n mh (U U' : nat -> nat -> nT N) d basis,
  1 <= mh -> length basis <= mh ->
  gram n basis U -> updateU n mh U (append mh d basis) = Some U' -> gram n (append mh d basis) U'.
Proof.
  intros HC n mh U U' d basis Hmh Hlen HG HU m k Hm Hk. unfold updateU in HU.
  destruct (newRow_spec _ _ _ _ _ _ _ HU) as (H1 & H2 & _).
  assert (Hhd : hd (fun _ => nzero) (append mh d basis) = d) by (unfold append; destruct mh; [lia|reflexivity]).
  rewrite Hhd in *.
  assert (H0 : forall m, nth 0 (append mh d basis) m = d) by (intro; apply nth_append_0; lia).
  destruct m as [|m].
  - rewrite H0. destruct (H1 k ltac:(lia)) as [E1 E2]. rewrite Nat.sub_0_r in E1. rewrite E2. exact E1.
  - destruct k as [|k].
    + rewrite H0. destruct (H1 (S m) ltac:(lia)) as [E1 E2]. rewrite Nat.sub_0_r in E1.
      rewrite dot_comm by assumption. exact E1.
    + rewrite H2 by discriminate. rewrite length_append in Hm, Hk.
      rewrite shiftU_spec by lia. cbn [Nat.sub]. rewrite !Nat.sub_0_r.
      rewrite !nth_append_S by (rewrite length_append; lia). apply HG; lia.
Qed.

(** Element j of the basis is the difference of elements j and j+1 of the history. *)
Definition diffs {N : num} (basis history : list (nat -> nT N)) : Prop :=
  forall j, S j < length history -> j < length basis ->
    nth j basis (fun _ => nzero) = subVV (nth j history (fun _ => nzero)) (nth (S j) history (fun _ => nzero)).
Lemma diffs_push {N : num} cap (x : nat -> nT N) h basis : 1 <= cap -> h <> [] -> diffs basis h ->
  updateBasis cap basis (append (cap + 1) x h) = append cap (subVV x (hd (fun _ => nzero) h)) basis /\
  diffs (append cap (subVV x (hd (fun _ => nzero) h)) basis) (append (cap + 1) x h).
Proof.
  intros Hc Hh HD. split.
  - unfold append at 1. rewrite Nat.add_1_r. destruct h as [|y h]; [congruence|].
    destruct cap; [lia|]. reflexivity.
  - intros j Hj Hjb. destruct j as [|j].
    + rewrite nth_append_0 by lia. rewrite nth_append_0 by lia. rewrite nth_append_S by exact Hj.
      destruct h; [congruence|]. reflexivity.
    + rewrite !nth_append_S by (try exact Hj; try exact Hjb; lia).
      rewrite length_append in Hj, Hjb. apply HD; lia.
Qed.
Lemma diffs_short {N : num} (basis history : list (nat -> nT N)) : length history <= 1 -> diffs basis history.
Proof. intros H j Hj. lia. Qed.

(* ---------- loop invariant ---------- *)
(** Members at the beginning of iteration [itr]. *)
Record inv {N : num} (p : params N) (itr : nat) (a : am N) : Prop := mkInv {
  iGram : gram (pElem p) (aRB a) (aU a);
  iLen : length (aSB a) = length (aRB a);
  iCap : length (aRB a) <= pMaxHist p;
  iNB : aNB a = length (aRB a);
  iSH : length (aSH a) = Nat.min itr (pMaxHist p + 1);
  iRH : length (aRH a) = Nat.min itr (pMaxHist p + 1);
  iDS : diffs (aSB a) (aSH a); iDR : diffs (aRB a) (aRH a) }.

Definition push {N : num} (p : params N) (st rs : nat -> nT N) (a : am N) : am N :=
  mkAm (append (pMaxHist p + 1) st (aSH a)) (append (pMaxHist p + 1) rs (aRH a)) (aSB a) (aRB a)
       (aU a) (aV a) (aC a) (aST a) (aRT a) (aNB a).

(** What one iteration establishes. *)
Record mixed {N : num} (lu : nat -> (nat -> nat -> nT N) -> (nat -> nT N) -> nat -> nT N)
    (p : params N) (a : am N) : Prop := mkMixed {
  mV : forall m, m < length (aRB a) ->
       dot (pElem p) (hd (fun _ => nzero) (aRH a)) (nth m (aRB a) (fun _ => nzero)) = Some (aV a m);
  mC : forall i, i < length (aRB a) ->
       aC a i = nopp (if length (aRB a) =? 1 then ndiv (aV a 0) (aU a 0 0) else lu (length (aRB a)) (aU a) (aV a) i) }.

Lemma trialCoeff_inv (N : num) : mulComm N -> forall lu (p : params N) itr st rs a a2,
  1 <= pMaxHist p -> inv p itr a -> computeTrialCoeff lu p itr (push p st rs a) = Ok a2 ->
  inv p (S itr) a2 /\ aSH a2 = aSH (push p st rs a) /\ aRH a2 = aRH (push p st rs a) /\
  (itr <> 0 -> mixed lu p a2 /\ 0 < length (aRB a2)) /\ (itr = 0 -> aRB a2 = aRB a /\ aSB a2 = aSB a) /\
  (itr <> 0 -> length (aRB a2) = Nat.min (S (length (aRB a))) (pMaxHist p)).
Proof.
  intros HC lu p itr st rs a a2 Hmh I H. destruct I as [HG HL HCap HNB HSH HRH HDS HDR].
  unfold computeTrialCoeff in H. cbn [push aNB aSH aRH aSB aRB aU aV aC aST aRT] in H.
  destruct ((itr =? 0) && (aNB a =? 0)) eqn:E0.
  - apply andb_prop in E0. destruct E0 as [E1 E2]. apply Nat.eqb_eq in E1, E2. subst itr.
    injection H as <-. rewrite E2 in HNB. cbn [aRB aSB aU aNB aSH aRH aV aC].
    repeat split; cbn [aRB aSB aU aNB aSH aRH aV aC push]; try lia; try reflexivity.
    + intros m k Hm. cbn [aRB] in Hm. lia.
    + rewrite length_append, HSH. lia.
    + rewrite length_append, HRH. lia.
    + apply diffs_short. cbn [aSH]. rewrite length_append, HSH. lia.
    + apply diffs_short. cbn [aRH]. rewrite length_append, HRH. lia.
  - destruct (Nat.eqb_spec itr 0) as [->|Hitr].
    + injection H as <-. cbn [push aRB aSB aU aNB aSH aRH aV aC].
      repeat split; cbn [aRB aSB aU aNB aSH aRH aV aC push]; try assumption; try lia; try reflexivity.
      * rewrite length_append, HSH. lia.
      * rewrite length_append, HRH. lia.
      * apply diffs_short. cbn [aSH]. rewrite length_append, HSH. lia.
      * apply diffs_short. cbn [aRH]. rewrite length_append, HRH. lia.
    + assert (E1 : 1 <? length (append (pMaxHist p + 1) st (aSH a)) = true)
        by (apply Nat.ltb_lt; rewrite length_append, HSH; lia).
      rewrite E1 in H.
      assert (NS : aSH a <> []) by (intro E; rewrite E in HSH; cbn [length] in HSH; lia).
      assert (NR : aRH a <> []) by (intro E; rewrite E in HRH; cbn [length] in HRH; lia).
      destruct (diffs_push (pMaxHist p) st (aSH a) (aSB a) Hmh NS HDS) as [Es HDS'].
      destruct (diffs_push (pMaxHist p) rs (aRH a) (aRB a) Hmh NR HDR) as [Er HDR'].
      rewrite Es, Er in H.
      set (ds := subVV st _) in *. set (dr := subVV rs _) in *. clearbody ds dr.
      destruct (updateU (pElem p) (pMaxHist p) (aU a) (append (pMaxHist p) dr (aRB a))) as [U|] eqn:EU; [|discriminate].
      unfold check in H.
      destruct (0 <? length (append (pMaxHist p) dr (aRB a))) eqn:E2; cbn [bind] in H; [|discriminate].
      destruct (length (append (pMaxHist p) ds (aSB a)) =? length (append (pMaxHist p) dr (aRB a))) eqn:E3;
        cbn [bind] in H; [|discriminate].
      destruct (computeV _ _ _ _ _) as [v|] eqn:EV; [|discriminate]. injection H as <-.
      apply Nat.eqb_eq in E3. apply Nat.ltb_lt in E2.
      destruct (computeV_spec _ _ _ _ _ _ _ EV) as [HV _].
      split; [|split; [reflexivity|split; [reflexivity|split; [intros _; split; [|exact E2]|split; [intros; lia|]]]]].
      * constructor; cbn [aRB aSB aU aNB aSH aRH aV aC].
        -- apply (updateU_gram N HC _ _ _ _ _ _ Hmh HCap HG EU).
        -- exact E3.
        -- rewrite length_append. lia.
        -- reflexivity.
        -- rewrite length_append, HSH. lia.
        -- rewrite length_append, HRH. lia.
        -- exact HDS'.
        -- exact HDR'.
      * constructor; cbn [aRB aSB aU aNB aSH aRH aV aC].
        -- intros m Hm. specialize (HV m ltac:(lia)). rewrite Nat.sub_0_r in HV. exact HV.
        -- intros i Hi.
           replace (i <? length (append (pMaxHist p) dr (aRB a))) with true by (symmetry; apply Nat.ltb_lt; exact Hi).
           destruct (Nat.eqb_spec (length (append (pMaxHist p) dr (aRB a))) 1) as [E|E].
           ++ assert (i = 0) by lia. subst i. reflexivity.
           ++ replace (i <? length (append (pMaxHist p) dr (aRB a))) with true by (symmetry; apply Nat.ltb_lt; exact Hi).
              reflexivity.
      * intros _. cbn [aRB]. rewrite length_append. lia.
Qed.

Lemma inv_ext {N : num} (p : params N) itr (a b : am N) :
  aRB b = aRB a -> aSB b = aSB a -> aU b = aU a -> aNB b = aNB a -> aSH b = aSH a -> aRH b = aRH a ->
  inv p itr a -> inv p itr b.
Proof. intros H1 H2 H3 H4 H5 H6 [A B C D E F G H]. constructor; rewrite ?H1, ?H2, ?H3, ?H4, ?H5, ?H6; assumption. Qed.

(** Every element of the trace. *)
Definition traced {N : num} (y : system N) lu (p : params N) (first : nat) (past : list (sS y)) (tr : list (sS y * am N)) : Prop :=
  forall j s a, nth_error tr j = Some (s, a) ->
    aRH a = firstn (pMaxHist p + 1) (map (getResidual y) (rev (map fst (firstn (S j) tr)) ++ past)) /\
    aSH a = firstn (pMaxHist p + 1) (map (getCurrent y) (rev (map fst (firstn (S j) tr)) ++ past)) /\
    gram (pElem p) (aRB a) (aU a) /\ length (aSB a) = length (aRB a) /\ length (aRB a) <= pMaxHist p /\
    aRH a <> [] /\ aSH a <> [] /\ diffs (aSB a) (aSH a) /\ diffs (aRB a) (aRH a) /\
    aRT a = addEqVectors (hd (fun _ => nzero) (aRH a)) (aRB a) (aC a) 0 /\
    aST a = addEqVc (addEqVectors (hd (fun _ => nzero) (aSH a)) (aSB a) (aC a) 0) (aRT a)
                    (computeLambda p (length (aRB a))) /\
    (first + j <> 0 -> mixed lu p a /\ 0 < length (aRB a)).

Lemma append_firstn X cap (x : X) l : append cap x (firstn cap l) = firstn cap (x :: l).
Proof.
  unfold append. destruct cap; [reflexivity|]. rewrite !firstn_cons. f_equal.
  rewrite firstn_firstn. replace (Nat.min cap (S cap)) with cap by lia. reflexivity.
Qed.

Lemma loop_inv (N : num) : mulComm N -> forall lu (p : params N) y left itr s a past r,
  1 <= pMaxHist p -> inv p itr a ->
  aRH a = firstn (pMaxHist p + 1) (map (getResidual y) past) ->
  aSH a = firstn (pMaxHist p + 1) (map (getCurrent y) past) ->
  loop lu p y left itr s a = Ok r ->
  traced y lu p itr past (rTrace r) /\ gram (pElem p) (aRB (rAm r)) (aU (rAm r)) /\
  length (aSB (rAm r)) = length (aRB (rAm r)) /\ length (aRB (rAm r)) <= pMaxHist p /\
  (forall j t b, nth_error (rTrace r) j = Some (t, b) ->
     length (aRB b) = Nat.min (length (aRB a) + (if itr =? 0 then j else S j)) (pMaxHist p)).
Proof.
  intros HC lu p y left. induction left as [|left IH]; intros itr s a past r Hmh I HPR HPS H; cbn [loop] in H.
  - injection H as <-. cbn [rTrace rAm]. split; [intros j t b Hj; destruct j; discriminate|].
    destruct I; repeat (split; [assumption|]). intros j t b Hj; destruct j; discriminate.
  - set (rs := getResidual y s) in *. set (st := getCurrent y s) in *.
    fold (push p st rs a) in H.
    assert (Hdone : forall c, Ok (mkRes c s (push p st rs a) []) = Ok r ->
       traced y lu p itr past (rTrace r) /\ gram (pElem p) (aRB (rAm r)) (aU (rAm r)) /\
       length (aSB (rAm r)) = length (aRB (rAm r)) /\ length (aRB (rAm r)) <= pMaxHist p /\
       (forall j t b, nth_error (rTrace r) j = Some (t, b) ->
          length (aRB b) = Nat.min (length (aRB a) + (if itr =? 0 then j else S j)) (pMaxHist p))).
    { intros c Hc. injection Hc as <-. cbn [rTrace rAm push aRB aSB aU].
      split; [intros j t b Hj; destruct j; discriminate|]. destruct I; repeat (split; [assumption|]).
      intros j t b Hj; destruct j; discriminate. }
    destruct (computeError p rs st) as [o|]; [|apply (Hdone _ H)].
    destruct o as [e| | |]; cbn [bind] in H; try discriminate.
    destruct (nlt e (pEps p)); [apply (Hdone _ H)|]. clear Hdone.
    destruct (computeTrialCoeff lu p itr (push p st rs a)) as [a2| | |] eqn:E2; cbn [bind] in H; try discriminate.
    destruct (trialCoeff_inv N HC lu p itr st rs a a2 Hmh I E2) as (I2 & HS & HR & HM & H0 & HN).
    set (a4 := addCorrection p (updateTrial a2)) in *.
    destruct (loop lu p y left (S itr) (evaluate y (sUpdate y (aST a4) s)) a4) as [r1| | |] eqn:E3; cbn [bind] in H; try discriminate.
    injection H as <-. cbn [rTrace rAm].
    assert (I4 : inv p (S itr) a4) by (apply (inv_ext p (S itr) a2); try reflexivity; exact I2).
    assert (HPR4 : aRH a4 = firstn (pMaxHist p + 1) (map (getResidual y) (s :: past))).
    { cbn [a4 addCorrection updateTrial aRH]. rewrite HR. cbn [push aRH map]. rewrite HPR. apply append_firstn. }
    assert (HPS4 : aSH a4 = firstn (pMaxHist p + 1) (map (getCurrent y) (s :: past))).
    { cbn [a4 addCorrection updateTrial aSH]. rewrite HS. cbn [push aSH map]. rewrite HPS. apply append_firstn. }
    destruct (IH _ _ _ (s :: past) _ Hmh I4 HPR4 HPS4 E3) as (HT & HF1 & HF2 & HF3 & HF4).
    split; [|split; [exact HF1|split; [exact HF2|split; [exact HF3|]]]].
    + intros j t b Hj. destruct j as [|j]; cbn [nth_error] in Hj.
      * injection Hj as <- <-. destruct I2 as [HG HL HCap HNB HSH HRH HDS HDR].
        rewrite Nat.add_0_r.
        split; [exact HPR4|]. split; [exact HPS4|].
        split; [exact HG|]. split; [exact HL|]. split; [exact HCap|].
        cbn [a4 addCorrection updateTrial aRB aSB aU aNB aSH aRH aV aC aRT aST].
        split; [intro E; rewrite E in HRH; cbn [length] in HRH; lia|].
        split; [intro E; rewrite E in HSH; cbn [length] in HSH; lia|].
        split; [exact HDS|]. split; [exact HDR|].
        rewrite HNB.
        assert (Hz : forall v basis (c : nat -> nT N), length basis = length (aRB a2) ->
          (if 0 <? length (aRB a2) then addEqVectors v basis c 0 else v) = addEqVectors v basis c 0).
        { intros v basis c Hl. destruct (Nat.ltb_spec 0 (length (aRB a2))); [reflexivity|].
          destruct basis; [reflexivity|cbn [length] in Hl; lia]. }
        rewrite !Hz by auto.
        split; [reflexivity|]. split; [reflexivity|].
        intros Hi. destruct (HM Hi) as [[M1 M2] M3]. split; [constructor; assumption|exact M3].
      * destruct (HT j t b Hj) as (TA & TB & T1 & T2 & T3 & T4 & T5 & T6 & T7 & T8 & T9 & T10).
        split; [|split]; [| |repeat (split; [assumption|]); intros _; apply T10; lia].
        -- rewrite TA. cbn [firstn map rev fst]. rewrite <- app_assoc. reflexivity.
        -- rewrite TB. cbn [firstn map rev fst]. rewrite <- app_assoc. reflexivity.
    + assert (HL4 : length (aRB a4) = Nat.min (length (aRB a) + (if itr =? 0 then 0 else 1)) (pMaxHist p)).
      { cbn [a4 addCorrection updateTrial aRB]. destruct I as [_ _ HCap _ _ _ _ _].
        destruct (Nat.eqb_spec itr 0) as [E|E].
        - destruct (H0 E) as [-> _]. lia.
        - rewrite (HN E). lia. }
      intros j t b Hj. destruct j as [|j]; cbn [nth_error] in Hj.
      * injection Hj as <- <-. exact HL4.
      * rewrite (HF4 j t b Hj), HL4. cbn [Nat.eqb]. destruct (itr =? 0); lia.
Qed.

(* ---------- arithmetic over the reals with a non-finite value ---------- *)
Local Open Scope R_scope.
Definition val (x : option R) : R := match x with Some r => r | None => 0 end.
Definition fin (n : nat) (a : nat -> option R) : Prop := forall i, (i < n)%nat -> a i <> None.
Lemma fin_val n a i : fin n a -> (i < n)%nat -> a i = Some (val (a i)).
Proof. intros H Hi. specialize (H i Hi). destruct (a i); [reflexivity|congruence]. Qed.

Lemma mulComm_R : mulComm RNum.
Proof. intros [x|] [y|]; cbn [nmul RNum lift2]; try reflexivity. f_equal. ring. Qed.

Lemma dot_R n (a b : nat -> nT RNum) : fin n a -> fin n b ->
  dot n a b = Some (Some (rsum n (fun i => val (a i) * val (b i)))).
Proof.
  intros Ha Hb. induction n as [|n IH]; [reflexivity|]. cbn [dot rsum].
  rewrite IH by (intros i Hi; first [apply Ha|apply Hb]; lia).
  rewrite (fin_val (S n) a n Ha), (fin_val (S n) b n Hb) by lia. cbn [RNum nisnan orb val nadd nmul lift2]. reflexivity.
Qed.
Lemma dot_R_fin n (a b : nat -> nT RNum) x : dot n a b = Some x -> fin n a /\ fin n b.
Proof.
  revert x. induction n as [|n IH]; intros x H; [split; intros i Hi; lia|]. cbn [dot] in H.
  destruct (dot n a b) as [p|]; [|discriminate]. destruct (IH p eq_refl) as [H1 H2].
  destruct (nisnan (a n) || nisnan (b n)) eqn:E; [discriminate|]. apply orb_false_elim in E. destruct E as [Ea Eb].
  split; intros i Hi; (destruct (Nat.eq_dec i n) as [->|]; [|first [apply H1|apply H2]; lia]).
  - destruct (a n); [discriminate|cbn in Ea; discriminate].
  - destruct (b n); [discriminate|cbn in Eb; discriminate].
Qed.
Lemma maxAbs_R n (a : nat -> nT RNum) : fin n a ->
  exists m, maxAbs n a = Some (Some m) /\ 0 <= m /\ (forall i, (i < n)%nat -> Rabs (val (a i)) <= m) /\
            (m = 0 \/ exists i, (i < n)%nat /\ m = Rabs (val (a i))).
Proof.
  intros Ha. induction n as [|n IH].
  - exists 0. split; [reflexivity|]. split; [lra|]. split; [intros; lia|auto].
  - destruct IH as (m & E & Hm & Hle & Hor); [intros i Hi; apply Ha; lia|]. cbn [maxAbs]. rewrite E.
    rewrite (fin_val (S n) a n Ha) by lia. cbn [RNum nisnan nlt nabs option_map ltR val].
    destruct (Rlt_dec m (Rabs (val (a n)))) as [L|L].
    + exists (Rabs (val (a n))). split; [reflexivity|]. split; [lra|]. split.
      * intros i Hi. destruct (Nat.eq_dec i n) as [->|]; [lra|]. specialize (Hle i ltac:(lia)). lra.
      * right. exists n. auto.
    + exists m. split; [reflexivity|]. split; [lra|]. split.
      * intros i Hi. destruct (Nat.eq_dec i n) as [->|]; [lra|]. apply Hle. lia.
      * destruct Hor as [?|(i & Hi & ->)]; [auto|]. right. exists i. split; [lia|reflexivity].
Qed.
Lemma maxAbs_R_none n (a : nat -> nT RNum) : ~ fin n a -> maxAbs n a = None.
Proof.
  induction n as [|n IH]; intros H; [exfalso; apply H; intros i Hi; lia|]. cbn [maxAbs].
  destruct (maxAbs n a) eqn:E; [|reflexivity].
  destruct (a n) eqn:Ea; cbn [RNum nisnan]; [|reflexivity].
  assert (Some n0 = None); [|congruence]. apply IH. intros Hf. apply H. intros i Hi.
  destruct (Nat.eq_dec i n) as [->|]; [congruence|apply Hf; lia].
Qed.

Definition nrm (n : nat) (a : nat -> option R) : R := sqrt (rsum n (fun i => val (a i) * val (a i))).
Lemma sumsq_pos n (f : nat -> R) : 0 <= rsum n (fun i => f i * f i).
Proof. apply rsum_pos_le. intros i Hi. nra. Qed.
Lemma norm_R n (a : nat -> nT RNum) : fin n a -> norm n a = Some (Some (nrm n a)).
Proof.
  intros H. unfold norm. rewrite dot_R by assumption. cbn [option_map RNum nsqrt sqrtR].
  pose proof (sumsq_pos n (fun i => val (a i))). destruct (Rlt_dec _ 0); [lra|reflexivity].
Qed.
Lemma norm_R_fin n (a : nat -> nT RNum) x : norm n a = Some x -> fin n a.
Proof. unfold norm. destruct (dot n a a) eqn:E; [|discriminate]. intros _. apply (dot_R_fin _ _ _ _ E). Qed.

Lemma computeError_R (p : params RNum) (rs st : nat -> nT RNum) : fin (pElem p) rs -> fin (pElem p) st ->
  exists m, (0 <= m /\ (forall i, (i < pElem p)%nat -> Rabs (val (rs i)) <= m)) /\
  computeError p rs st = Some (Ok (match pErr p with
    | MaxResid => Some m
    | NormResid => Some (nrm (pElem p) rs)
    | RmsResid => divR (Some (nrm (pElem p) rs)) (sqrtR (Some (INR (pElem p))))
    | RelNormResid => divR (Some (nrm (pElem p) rs)) (Some (nrm (pElem p) st))
    end)).
Proof.
  intros Hr Hs. destruct (maxAbs_R _ rs Hr) as (m & E & Hm & Hle & _). exists m. split; [auto|].
  unfold computeError. rewrite E, (norm_R _ rs Hr), (norm_R _ st Hs). cbn [RNum nisnan].
  destruct (pErr p); reflexivity.
Qed.
Lemma computeError_R_nan (p : params RNum) (rs st : nat -> nT RNum) : ~ (fin (pElem p) rs /\ fin (pElem p) st) -> computeError p rs st = None.
Proof.
  intros H. unfold computeError.
  destruct (maxAbs (pElem p) rs) eqn:E1; [|reflexivity].
  destruct (norm (pElem p) rs) eqn:E2; [|reflexivity].
  destruct (nisnan n0) eqn:E3; cycle 1.
  { destruct (norm (pElem p) st) eqn:E4; [|reflexivity].
    exfalso. apply H. split; [apply (norm_R_fin _ _ _ E2)|apply (norm_R_fin _ _ _ E4)]. }
  pose proof (norm_R_fin _ _ _ E2) as Hf. rewrite (norm_R _ _ Hf) in E2. injection E2 as <-. discriminate.
Qed.
Lemma fin_dec n (a : nat -> option R) : fin n a \/ ~ fin n a.
Proof.
  induction n as [|n [H|H]].
  - left. intros i Hi. lia.
  - destruct (a n) eqn:E.
    + left. intros i Hi. destruct (Nat.eq_dec i n) as [->|]; [congruence|apply H; lia].
    + right. intros Hf. apply (Hf n); [lia|assumption].
  - right. intros Hf. apply H. intros i Hi. apply Hf. lia.
Qed.

(* ---------- no exception over the reals ---------- *)
Lemma fin_subVV n (a b : nat -> nT RNum) : fin n a -> fin n b -> fin n (subVV a b).
Proof.
  intros Ha Hb i Hi. unfold subVV. rewrite (fin_val n a i), (fin_val n b i) by assumption. discriminate.
Qed.
Definition finAll (n : nat) (l : list (nat -> option R)) : Prop := Forall (fin n) l.
Definition allFin (p : params RNum) (a : am RNum) : Prop :=
  finAll (pElem p) (aSH a) /\ finAll (pElem p) (aRH a) /\ finAll (pElem p) (aSB a) /\ finAll (pElem p) (aRB a).

Lemma finAll_hd n l : finAll n l -> fin n (hd (fun _ => nzero (n := RNum)) l).
Proof. intros H. destruct l; cbn [hd]; [intros i Hi; discriminate|]. inversion H. assumption. Qed.

Lemma trialCoeff_total lu (p : params RNum) itr (st rs : nat -> nT RNum) (a : am RNum) :
  (1 <= pMaxHist p)%nat -> inv p itr a -> allFin p a -> fin (pElem p) st -> fin (pElem p) rs ->
  exists a2, computeTrialCoeff lu p itr (push p st rs a) = Ok a2 /\ allFin p a2.
Proof.
  intros Hmh [HG HL HCap HNB HSH HRH HDS HDR] (F1 & F2 & F3 & F4) Hst Hrs.
  assert (P1 : finAll (pElem p) (append (pMaxHist p + 1) st (aSH a))) by (apply Forall_append; assumption).
  assert (P2 : finAll (pElem p) (append (pMaxHist p + 1) rs (aRH a))) by (apply Forall_append; assumption).
  unfold computeTrialCoeff. cbn [push aNB aSH aRH aSB aRB aU aV aC aST aRT].
  destruct ((itr =? 0) && (aNB a =? 0))%nat.
  { eexists. split; [reflexivity|]. repeat split; cbn [aSH aRH aSB aRB]; assumption. }
  destruct (Nat.eqb_spec itr 0) as [->|Hitr].
  { eexists. split; [reflexivity|]. repeat split; cbn [aSH aRH aSB aRB push]; assumption. }
  assert (E1 : (1 <? length (append (pMaxHist p + 1) st (aSH a)))%nat = true)
    by (apply Nat.ltb_lt; rewrite length_append, HSH; lia).
  rewrite E1.
  assert (NS : aSH a <> []) by (intro E; rewrite E in HSH; cbn [length] in HSH; lia).
  assert (NR : aRH a <> []) by (intro E; rewrite E in HRH; cbn [length] in HRH; lia).
  destruct (diffs_push (N := RNum) (pMaxHist p) st (aSH a) (aSB a) Hmh NS HDS) as [Es _].
  destruct (diffs_push (N := RNum) (pMaxHist p) rs (aRH a) (aRB a) Hmh NR HDR) as [Er _].
  rewrite Es, Er.
  set (ds := subVV st _) in *. set (dr := subVV rs _) in *.
  assert (Q1 : finAll (pElem p) (append (pMaxHist p) ds (aSB a))).
  { apply Forall_append; [|assumption]. apply fin_subVV; [assumption|apply finAll_hd; assumption]. }
  assert (Q2 : finAll (pElem p) (append (pMaxHist p) dr (aRB a))).
  { apply Forall_append; [|assumption]. apply fin_subVV; [assumption|apply finAll_hd; assumption]. }
  assert (HdU : forall (r : nat -> nT RNum), fin (pElem p) r ->
     forall b, In b (append (pMaxHist p) dr (aRB a)) -> dot (pElem p) r b <> None).
  { intros r Hr b Hb. unfold finAll in Q2. rewrite Forall_forall in Q2. rewrite dot_R by auto. discriminate. }
  destruct (updateU (pElem p) (pMaxHist p) (aU a) (append (pMaxHist p) dr (aRB a))) as [U|] eqn:EU.
  2: { exfalso. unfold updateU in EU. revert EU. apply newRow_some. apply HdU. apply (finAll_hd _ _ Q2). }
  unfold check.
  replace (0 <? length (append (pMaxHist p) dr (aRB a)))%nat with true
    by (symmetry; apply Nat.ltb_lt; rewrite length_append; lia).
  cbn [bind].
  replace (length (append (pMaxHist p) ds (aSB a)) =? length (append (pMaxHist p) dr (aRB a)))%nat with true
    by (symmetry; apply Nat.eqb_eq; rewrite !length_append, HL; reflexivity).
  cbn [bind].
  destruct (computeV _ _ _ _ _) as [v|] eqn:EV.
  2: { exfalso. revert EV. apply computeV_some. apply HdU. apply (finAll_hd _ _ P2). }
  eexists. split; [reflexivity|]. repeat split; cbn [aSH aRH aSB aRB]; assumption.
Qed.

Lemma loop_total lu (p : params RNum) y left : forall itr s a,
  (1 <= pMaxHist p)%nat -> inv p itr a -> allFin p a ->
  exists r, loop lu p y left itr s a = Ok r /\ (rCode r = 0%nat \/ rCode r = 1%nat) /\
            (finAll (pElem p) (aSB (rAm r)) /\ finAll (pElem p) (aRB (rAm r))) /\
            (forall t b, In (t, b) (rTrace r) -> allFin p b).
Proof.
  induction left as [|left IH]; intros itr s a Hmh I HF; cbn [loop].
  - eexists. split; [reflexivity|]. cbn [rCode rAm rTrace]. destruct HF as (_ & _ & ? & ?).
    split; [auto|]. split; [auto|]. intros t b [].
  - set (rs := getResidual y s) in *. set (st := getCurrent y s) in *. fold (push p st rs a).
    assert (Hd : finAll (pElem p) (aSB (push p st rs a)) /\ finAll (pElem p) (aRB (push p st rs a)))
      by (destruct HF as (_ & _ & ? & ?); cbn [push aSB aRB]; auto).
    assert (Hdone : forall c, c = 0%nat \/ c = 1%nat ->
      exists r, Ok (mkRes c s (push p st rs a) []) = Ok r /\ (rCode r = 0%nat \/ rCode r = 1%nat) /\
            (finAll (pElem p) (aSB (rAm r)) /\ finAll (pElem p) (aRB (rAm r))) /\
            (forall t b, In (t, b) (rTrace r) -> allFin p b)).
    { intros c Hc. eexists. split; [reflexivity|]. cbn [rCode rAm rTrace]. split; [exact Hc|]. split; [exact Hd|].
      intros t b []. }
    destruct (fin_dec (pElem p) rs) as [Hr|Hr]; [|rewrite computeError_R_nan by tauto; auto].
    destruct (fin_dec (pElem p) st) as [Hs|Hs]; [|rewrite computeError_R_nan by tauto; auto].
    destruct (computeError_R p rs st Hr Hs) as (m & _ & ->). cbn [bind].
    destruct (nlt _ (pEps p)); [auto|]. clear Hdone.
    destruct (trialCoeff_total lu p itr st rs a Hmh I HF Hs Hr) as (a2 & E2 & HF2). rewrite E2. cbn [bind].
    destruct (trialCoeff_inv RNum mulComm_R lu p itr st rs a a2 Hmh I E2) as (I2 & _).
    set (a4 := addCorrection p (updateTrial a2)).
    destruct (IH (S itr) (evaluate y (sUpdate y (aST a4) s)) a4 Hmh) as (r & E & Hc & Hf & Ht).
    + apply (inv_ext p (S itr) a2); try reflexivity; exact I2.
    + exact HF2.
    + rewrite E. cbn [bind]. eexists. split; [reflexivity|]. cbn [rCode rAm rTrace].
      split; [exact Hc|]. split; [exact Hf|]. intros t b [Hb|Hb]; [|apply (Ht t b Hb)].
      injection Hb as _ <-. exact HF2.
Qed.

(* ---------- the trial vector ---------- *)
Lemma addEqVectors_R n (basis : list (nat -> option R)) : forall (v c : nat -> option R) k,
  fin n v -> finAll n basis -> (forall m, (m < length basis)%nat -> c (k + m)%nat <> None) ->
  fin n (addEqVectors (N := RNum) v basis c k) /\
  (forall i, (i < n)%nat -> val (addEqVectors (N := RNum) v basis c k i) =
     val (v i) + rsum (length basis) (fun m => val (c (k + m)%nat) * val (nth m basis (fun _ => Some 0) i))).
Proof.
  induction basis as [|b basis IH]; intros v c k Hv Hb Hc; cbn [addEqVectors length].
  - split; [assumption|]. intros i Hi. cbn [rsum]. ring.
  - inversion Hb as [|? ? Hb1 Hb2]; subst.
    assert (Hck : c k <> None) by (specialize (Hc 0%nat); rewrite Nat.add_0_r in Hc; apply Hc; cbn [length]; lia).
    destruct (c k) as [ck|] eqn:Ek; [|congruence].
    assert (Hv1 : forall i, (i < n)%nat -> addEqVc (N := RNum) v b (Some ck) i = Some (val (v i) + ck * val (b i))).
    { intros i Hi. unfold addEqVc. rewrite (fin_val n v i), (fin_val n b i) by assumption. reflexivity. }
    destruct (IH (addEqVc (N := RNum) v b (Some ck)) c (S k)) as [F V].
    + intros i Hi. rewrite Hv1 by assumption. discriminate.
    + assumption.
    + intros m Hm. replace (S k + m)%nat with (k + S m)%nat by lia. apply Hc. cbn [length]. lia.
    + split; [exact F|]. intros i Hi. rewrite V by assumption. rewrite Hv1 by assumption. cbn [val].
      rewrite rsum_S_first. rewrite Nat.add_0_r, Ek. cbn [nth val].
      rewrite (rsum_ext _ (fun m => val (c (S k + m)%nat) * val (nth m basis (fun _ => Some 0) i))
                          (fun m => val (c (k + S m)%nat) * val (nth m basis (fun _ => Some 0) i))).
      * lra.
      * intros m Hm. replace (S k + m)%nat with (k + S m)%nat by lia. reflexivity.
Qed.
