(** Properties of sweeps (C40 to C43). *)
From Coq Require Import Reals List Arith Bool ZArith Lia Lra SpecFloat Sorting.Sorted.
From Verif Require Import Base RSum Sweep.
Import ListNotations.
Local Open Scope R_scope.

Notation entry := (R * R * bool)%type (only parsing).

(* ================= specification ================= *)
(** Contour values of the accepted states, in order, from a list of attempts in
    order (contour value, step, error). *)
Definition accepted (log : list entry) : list R := map (fun e => fst (fst e)) (filter (fun e => negb (snd e)) log).
Definition tolerance : R := 1 / 10000000.
Definition increasing (l : list R) : Prop := StronglySorted Rlt l.

(** What C40 requires of the attempts of a sweep of ns steps, in order. *)
Record goodSweep (ns : Z) (log : list entry) : Prop := mkGood {
  g_first : exists e l, log = (0, 1 / IZR ns, e) :: l;
  g_from_zero : accepted log = [] \/ exists l, accepted log = 0 :: l;
  g_increasing : increasing (accepted log);
  g_bounded : forall s, In s (accepted log) -> s <= 1 + tolerance;
  g_step : forall e, In e log -> 1 / IZR ns / 10 <= snd (fst e);
  g_halving : forall j s1 d1 e1 s2 d2 e2, nth_error log j = Some (s1, d1, e1) -> nth_error log (S j) = Some (s2, d2, e2) ->
    (d2 = d1 /\ (e1 = false)) \/ (d2 = d1 / 2 /\ e1 = true);
  g_position : forall j s d e, nth_error log (S j) = Some (s, d, e) -> s = last (accepted (firstn (S j) log)) 0 + d }.

(** Ends at 1: the last attempt was accepted with contour value 1. *)
Definition endsAt (x : R) (log : list entry) : Prop := exists l d, log = l ++ [(x, d, false)].

(* ================= proofs ================= *)
(** Newest first: attempts, last accepted value, current step. *)
Inductive legal (ds0 : R) : list entry -> R -> R -> Prop :=
| lg_start : legal ds0 [(0, ds0, false)] 0 ds0
| lg_ok : forall l s ds, legal ds0 l s ds -> legal ds0 ((s + ds, ds, false) :: l) (s + ds) ds
| lg_fail : forall l s ds, legal ds0 l s ds -> legal ds0 ((s + ds, ds, true) :: l) s (ds / 2).

Lemma accepted_app l1 l2 : accepted (l1 ++ l2) = accepted l1 ++ accepted l2.
Proof. unfold accepted. rewrite filter_app, map_app. reflexivity. Qed.

Lemma last_app_single (l : list R) x d : last (l ++ [x]) d = x.
Proof. apply last_last. Qed.

Lemma legal_last ds0 l s ds : legal ds0 l s ds -> accepted (rev l) <> [] /\ last (accepted (rev l)) 0 = s.
Proof.
  induction 1 as [|l s ds H [IH1 IH2]|l s ds H [IH1 IH2]].
  - cbn. split; [discriminate|reflexivity].
  - cbn [rev]. rewrite accepted_app. cbn. rewrite last_app_single. split; [|reflexivity].
    intros E. apply app_eq_nil in E. destruct E; discriminate.
  - cbn [rev]. rewrite accepted_app. cbn. rewrite app_nil_r. auto.
Qed.
Lemma legal_nonempty ds0 l s ds : legal ds0 l s ds -> l <> [].
Proof. destruct 1; discriminate. Qed.

Lemma legal_first ds0 l s ds : legal ds0 l s ds -> exists l', rev l = (0, ds0, false) :: l'.
Proof.
  induction 1 as [|l s ds H [l' IH]|l s ds H [l' IH]].
  - exists []. reflexivity.
  - cbn [rev]. rewrite IH. eexists. reflexivity.
  - cbn [rev]. rewrite IH. eexists. reflexivity.
Qed.

Lemma sorted_snoc l x : increasing l -> (forall y, In y l -> y < x) -> increasing (l ++ [x]).
Proof.
  induction l as [|a l IH]; intros H1 H2; [cbn; repeat constructor|].
  inversion H1 as [|? ? H3 H4]; subst. cbn [app]. constructor.
  - apply IH; [assumption|]. intros y Hy. apply H2. right. exact Hy.
  - apply Forall_forall. intros y Hy. apply in_app_or in Hy. destruct Hy as [Hy|[<-|[]]].
    + rewrite Forall_forall in H4. apply H4. exact Hy.
    + apply H2. left. reflexivity.
Qed.

Lemma legal_pos ds0 l s ds : 0 < ds0 -> legal ds0 l s ds -> 0 < ds.
Proof. intros H. induction 1; lra. Qed.

Lemma legal_sorted ds0 l s ds : 0 < ds0 -> legal ds0 l s ds ->
  increasing (accepted (rev l)) /\ (forall y, In y (accepted (rev l)) -> y <= s).
Proof.
  intros H0. induction 1 as [|l s ds H [IH1 IH2]|l s ds H [IH1 IH2]].
  - cbn. split; [repeat constructor|]. intros y [<-|[]]. lra.
  - pose proof (legal_pos _ _ _ _ H0 H). cbn [rev]. rewrite accepted_app. cbn [accepted filter map fst snd negb].
    change (accepted [(s + ds, ds, false)]) with [s + ds]. split.
    + apply sorted_snoc; [assumption|]. intros y Hy. specialize (IH2 y Hy). lra.
    + intros y Hy. apply in_app_or in Hy. destruct Hy as [Hy|[<-|[]]]; [specialize (IH2 y Hy); lra|lra].
  - cbn [rev]. rewrite accepted_app. change (accepted [(s + ds, ds, true)]) with (@nil R). rewrite app_nil_r. auto.
Qed.

Lemma legal_halving ds0 l s ds : legal ds0 l s ds ->
  (forall j s1 d1 e1 s2 d2 e2, nth_error (rev l) j = Some (s1, d1, e1) -> nth_error (rev l) (S j) = Some (s2, d2, e2) ->
    (d2 = d1 /\ e1 = false) \/ (d2 = d1 / 2 /\ e1 = true)) /\
  (exists s1 d1 e1, nth_error (rev l) (length l - 1) = Some (s1, d1, e1) /\ ((ds = d1 /\ e1 = false) \/ (ds = d1 / 2 /\ e1 = true))).
Proof.
  assert (Hgen : forall (l : list entry) (ds : R) (e : entry),
    l <> [] -> (forall j s1 d1 e1 s2 d2 e2, nth_error (rev l) j = Some (s1, d1, e1) -> nth_error (rev l) (S j) = Some (s2, d2, e2) ->
      (d2 = d1 /\ e1 = false) \/ (d2 = d1 / 2 /\ e1 = true)) ->
    (exists s1 d1 e1, nth_error (rev l) (length l - 1) = Some (s1, d1, e1) /\ ((ds = d1 /\ e1 = false) \/ (ds = d1 / 2 /\ e1 = true))) ->
    snd (fst e) = ds ->
    (forall j s1 d1 e1 s2 d2 e2, nth_error (rev (e :: l)) j = Some (s1, d1, e1) -> nth_error (rev (e :: l)) (S j) = Some (s2, d2, e2) ->
      (d2 = d1 /\ e1 = false) \/ (d2 = d1 / 2 /\ e1 = true)) /\
    nth_error (rev (e :: l)) (length (e :: l) - 1) = Some e).
  { intros l0 d0 e Hne H1 (s1 & d1 & e1 & H2 & H3) He. cbn [rev].
    assert (Hl : (0 < length l0)%nat) by (destruct l0; [congruence|cbn [length]; lia]).
    split.
    - intros j a1 b1 c1 a2 b2 c2 Ha Hb.
      destruct (Nat.lt_ge_cases (S j) (length l0)) as [L|L].
      + rewrite nth_error_app1 in Ha, Hb by (rewrite rev_length; lia). apply (H1 j _ _ _ _ _ _ Ha Hb).
      + assert (Hj : S j = length l0).
        { assert (S j < length (rev l0 ++ [e]))%nat by (apply nth_error_Some; congruence).
          rewrite app_length, rev_length in H. cbn [length] in H. lia. }
        rewrite nth_error_app1 in Ha by (rewrite rev_length; lia).
        rewrite nth_error_app2 in Hb by (rewrite rev_length; lia). rewrite rev_length, Hj, Nat.sub_diag in Hb.
        cbn [nth_error] in Hb. injection Hb as ->. cbn [fst snd] in He. subst b2.
        replace (length l0 - 1)%nat with j in H2 by lia. rewrite H2 in Ha. injection Ha as -> -> ->. exact H3.
    - cbn [length]. rewrite nth_error_app2 by (rewrite rev_length; lia). rewrite rev_length.
      replace (S (length l0) - 1 - length l0)%nat with 0%nat by lia. reflexivity. }
  induction 1 as [|l s ds H [IH1 IH2]|l s ds H [IH1 IH2]].
  - split.
    + intros j s1 d1 e1 s2 d2 e2 _ H2. cbn [rev app] in H2. destruct j as [|[|j]]; discriminate.
    + exists 0, ds0, false. cbn. auto.
  - destruct (Hgen l ds (s + ds, ds, false) (legal_nonempty _ _ _ _ H) IH1 IH2 eq_refl) as [A B].
    split; [exact A|]. exists (s + ds), ds, false. split; [exact B|]. auto.
  - destruct (Hgen l ds (s + ds, ds, true) (legal_nonempty _ _ _ _ H) IH1 IH2 eq_refl) as [A B].
    split; [exact A|]. exists (s + ds), ds, true. split; [exact B|]. auto.
Qed.

Lemma legal_position ds0 l s ds : legal ds0 l s ds ->
  forall j x d e, nth_error (rev l) (S j) = Some (x, d, e) -> x = last (accepted (firstn (S j) (rev l))) 0 + d.
Proof.
  assert (Hgen : forall l s ds b, legal ds0 l s ds ->
    (forall j x d e, nth_error (rev l) (S j) = Some (x, d, e) -> x = last (accepted (firstn (S j) (rev l))) 0 + d) ->
    forall j x d e, nth_error (rev ((s + ds, ds, b) :: l)) (S j) = Some (x, d, e) ->
      x = last (accepted (firstn (S j) (rev ((s + ds, ds, b) :: l)))) 0 + d).
  { intros l0 s0 d0 b H IH j x d e Hj. cbn [rev] in *.
    destruct (Nat.lt_ge_cases (S j) (length (rev l0))) as [L|L].
    - rewrite nth_error_app1 in Hj by assumption. rewrite firstn_app.
      replace (S j - length (rev l0))%nat with 0%nat by lia. rewrite app_nil_r. apply (IH j x d e Hj).
    - assert (Hl : S j = length (rev l0)).
      { assert (H0 : lt (S j) (length (rev l0 ++ [(s0 + d0, d0, b)]))) by (apply nth_error_Some; congruence).
        rewrite app_length in H0. cbn [length] in H0. lia. }
      rewrite nth_error_app2 in Hj by lia. rewrite Hl, Nat.sub_diag in Hj. cbn [nth_error] in Hj. injection Hj as <- <- <-.
      rewrite firstn_app, Hl, Nat.sub_diag, firstn_all, app_nil_r.
      destruct (legal_last _ _ _ _ H) as [_ ->]. reflexivity. }
  induction 1 as [|l s ds H IH|l s ds H IH].
  - intros j x d e H. cbn in H. destruct j; discriminate.
  - apply Hgen; assumption.
  - apply Hgen; assumption.
Qed.

(* ---------- invariant of the running sweep ---------- *)
(** k halvings, the last accepted value is m steps from zero, and the next one is
    allowed by the final test. *)
Record running (ns : Z) {St : Type} (w : sweep SR St) (k m : nat) : Prop := mkRunning {
  r_k : (k <= 3)%nat;
  r_legal : legal (1 / IZR ns) (wLog w) (hs (wHist w) 0) (wDs w);
  r_ds : wDs w = 1 / (IZR ns * 2 ^ k);
  r_m : hs (wHist w) 0 = INR m * wDs w;
  r_steps : forall e, In e (wLog w) -> 1 / IZR ns / 8 <= snd (fst e);
  r_bound : forall s, In s (accepted (rev (wLog w))) -> s <= 1 + tolerance }.

Lemma hs_accept_0 {N : snum} {St : Type} cap (x : sT N) (sol : St) h : (1 <= cap)%nat -> hs (accept cap x sol h) 0 = x.
Proof. intros H. unfold hs, accept. cbn [hS]. destruct cap; [lia|]. reflexivity. Qed.

Ltac toR := match goal with |- ?a = ?b => change (@eq R a b) end.
Lemma pow2_pos k : 0 < 2 ^ k.
Proof. apply pow_lt. lra. Qed.

Lemma attempt_inv ns cap St (res : bool * St) (w : sweep SR St) k m : (1 <= ns)%Z -> (1 <= cap)%nat ->
  running ns w k m -> hs (wHist w) 0 + wDs w <= 1 + tolerance ->
  match attempt (N := SR) cap (1 / IZR ns) res w with
  | More w' => exists k' m', running ns w' k' m' /\ hs (wHist w') 0 + wDs w' <= 1 + tolerance /\
      ((fst res = true /\ k' = S k /\ m' = (2 * m)%nat) \/ (fst res = false /\ k' = k /\ m' = S m))
  | Done w' => fst res = false /\ running ns w' k (S m) /\ 1 + tolerance < hs (wHist w') 0 + wDs w' /\
      hs (wHist w') 0 <= 1 + tolerance
  | Failed w' => fst res = true /\ k = 3%nat /\ wDs w' < 1 / IZR ns / 10 /\
      legal (1 / IZR ns) (wLog w') (hs (wHist w') 0) (wDs w') /\ wHist w' = wHist w /\
      (forall e, In e (wLog w') -> 1 / IZR ns / 8 <= snd (fst e)) /\
      (forall s, In s (accepted (rev (wLog w'))) -> s <= 1 + tolerance)
  end.
Proof.
  intros Hns Hcap [Hk HL Hds Hm Hst Hbd] Hnext.
  assert (Hn : 1 <= IZR ns) by (apply (IZR_le 1); assumption).
  assert (Hp := pow2_pos k).
  assert (Hd8 : 1 / IZR ns / 8 <= wDs w).
  { rewrite Hds. unfold Rdiv. rewrite !Rmult_1_l, <- Rinv_mult. apply Rinv_le_contravar.
    - apply Rmult_lt_0_compat; lra.
    - apply Rmult_le_compat_l; [lra|]. replace 8 with (2 ^ 3) by ring. apply Rle_pow; [lra|lia]. }
  unfold attempt. cbn [SR sadd smul shalf stenth send slt].
  set (sNew := hs (wHist w) 0 + wDs w) in *.
  destruct res as [err sol]. cbn [fst snd].
  destruct err.
  - assert (Hfail : legal (1 / IZR ns) ((sNew, wDs w, true) :: wLog w) (hs (wHist w) 0) (wDs w / 2)) by (apply lg_fail; exact HL).
    assert (Hst' : forall e, In e ((sNew, wDs w, true) :: wLog w) -> 1 / IZR ns / 8 <= snd (fst e)).
    { intros e [<-|He]; [exact Hd8|apply Hst; exact He]. }
    assert (Hbd' : forall s, In s (accepted (rev ((sNew, wDs w, true) :: wLog w))) -> s <= 1 + tolerance).
    { cbn [rev]. rewrite accepted_app. change (accepted [(sNew, wDs w, true)]) with (@nil R). rewrite app_nil_r. exact Hbd. }
    replace (wDs w * (1 / 2)) with (wDs w / 2) by field.
    destruct (Rlt_dec (wDs w / 2) (1 / 10 * (1 / IZR ns))) as [L|L].
    + cbn [wDs wHist wLog]. split; [reflexivity|].
      split; [|split; [lra|split; [exact Hfail|split; [reflexivity|split; [exact Hst'|exact Hbd']]]]].
      destruct (Nat.eq_dec k 3) as [|Hk3]; [assumption|exfalso].
      assert (2 ^ k <= 4). { replace 4 with (2 ^ 2) by ring. apply Rle_pow; [lra|lia]. }
      assert (E : 1 / IZR ns = wDs w * 2 ^ k) by (rewrite Hds; field; split; lra).
      assert (0 < 1 / IZR ns) by (apply Rdiv_lt_0_compat; lra).
      assert (wDs w * 2 ^ k <= wDs w * 4) by (apply Rmult_le_compat_l; lra). lra.
    + exists (S k), (2 * m)%nat. split; [|split; [|left; auto]].
      * constructor; cbn [wDs wHist wLog]; try assumption.
        -- destruct (Nat.eq_dec k 3) as [->|]; [exfalso|lia]. apply L. rewrite Hds. 
           replace (1 / (IZR ns * 2 ^ 3) / 2) with (1 / 16 * (1 / IZR ns)) by (field; lra).
           assert (0 < 1 / IZR ns) by (apply Rdiv_lt_0_compat; lra). nra.
        -- toR. rewrite Hds. cbn [pow]. field. split; lra.
        -- toR. rewrite mult_INR. rewrite Hm at 1. change (INR 2) with 2. field.
      * cbn [wDs wHist]. assert (0 < wDs w) by (assert (0 < 1 / IZR ns) by (apply Rdiv_lt_0_compat; lra); lra).
        unfold sNew in Hnext. lra.
  - assert (Hok : legal (1 / IZR ns) ((sNew, wDs w, false) :: wLog w) sNew (wDs w)) by (apply lg_ok; exact HL).
    assert (Hr : running ns (mkSweep (N := SR) (wDs w) (accept (N := SR) cap sNew sol (wHist w)) ((sNew, wDs w, false) :: wLog w)) k (S m)).
    { constructor; cbn [wDs wHist wLog]; rewrite ?(hs_accept_0 (N := SR)) by assumption; try assumption.
      - toR. unfold sNew. rewrite S_INR. rewrite Hm at 1. ring.
      - intros e [<-|He]; [exact Hd8|apply Hst; exact He].
      - cbn [rev]. rewrite accepted_app. intros s Hs. apply in_app_or in Hs. destruct Hs as [Hs|[<-|[]]]; [apply Hbd; exact Hs|exact Hnext]. }
    destruct (Rlt_dec (10000001 / 10000000) (sNew + wDs w)) as [L|L].
    + split; [reflexivity|]. split; [exact Hr|]. cbn [wDs wHist]. rewrite (hs_accept_0 (N := SR)) by assumption. unfold tolerance in *. split; [lra|exact Hnext].
    + exists k, (S m). split; [exact Hr|]. cbn [wDs wHist]. rewrite (hs_accept_0 (N := SR)) by assumption. unfold tolerance. split; [lra|]. right. auto.
Qed.

(* ---------- histories ---------- *)
(** The stored history agrees with the list of accepted states, newest first. *)
Record histOk {N : snum} {St : Type} (cap : nat) (h : history N St) (l : list (sT N * St)) : Prop := mkHistOk {
  ho_S : length (hS h) = cap; ho_P : length (hPtr h) = cap; ho_nd : NoDup (hPtr h);
  ho_size : hSize h = Nat.min cap (length l); ho_acc : hAccept h = length l;
  ho_nth : forall k, (k < hSize h)%nat -> nth_error l k = Some (hs h k, hstate h k) }.

Lemma firstn_cons_removelast X cap (x : X) l : (1 <= cap)%nat -> length l = cap -> firstn cap (x :: l) = x :: removelast l.
Proof.
  intros Hc Hl. destruct cap; [lia|]. rewrite firstn_cons. f_equal. rewrite removelast_firstn_len. f_equal. lia.
Qed.
Lemma nth_removelast X k (l : list X) d : (S k < length l)%nat -> nth k (removelast l) d = nth k l d.
Proof.
  intros H. rewrite removelast_firstn_len.
  assert (Hk : (k < pred (length l))%nat) by lia. revert Hk. generalize (pred (length l)). clear H. revert k.
  induction l as [|x l IH]; intros k q Hk; [destruct q; destruct k; reflexivity|].
  destruct q; [lia|]. destruct k; [reflexivity|]. cbn [firstn nth]. apply IH. lia.
Qed.
Lemma last_nth X (l : list X) d : l <> [] -> last l d = nth (length l - 1) l d.
Proof.
  induction l as [|x l IH]; intros H; [congruence|]. destruct l as [|y l]; [reflexivity|].
  change (last (x :: y :: l) d) with (last (y :: l) d). rewrite IH by discriminate.
  change (nth (length (x :: y :: l) - 1) (x :: y :: l) d) with (nth (length (y :: l) - 0) (x :: y :: l) d).
  cbn [length]. rewrite Nat.sub_0_r. replace (S (length l) - 1)%nat with (length l) by lia. reflexivity.
Qed.

Lemma accept_ok {N : snum} {St : Type} cap (s : sT N) (sol : St) h l : (1 <= cap)%nat ->
  histOk cap h l -> histOk cap (accept cap s sol h) ((s, sol) :: l).
Proof.
  intros Hc [H1 H2 H3 H4 H5 H6].
  assert (Hne : hPtr h <> []) by (intros E; rewrite E in H2; cbn [length] in H2; lia).
  set (temp := last (hPtr h) 0%nat).
  assert (Hsplit : hPtr h = removelast (hPtr h) ++ [temp]) by (apply app_removelast_last; exact Hne).
  assert (Hptr : hPtr (accept cap s sol h) = temp :: removelast (hPtr h)) by (apply firstn_cons_removelast; assumption).
  assert (HS : hS (accept cap s sol h) = s :: removelast (hS h)) by (apply firstn_cons_removelast; assumption).
  assert (Hlr : forall X (q : list X), length q = cap -> length (removelast q) = (cap - 1)%nat).
  { intros X q Hq. rewrite removelast_firstn_len, firstn_length. lia. }
  constructor.
  - rewrite HS. cbn [length]. rewrite Hlr by assumption. lia.
  - rewrite Hptr. cbn [length]. rewrite Hlr by assumption. lia.
  - rewrite Hptr. rewrite Hsplit in H3. apply NoDup_remove in H3. rewrite app_nil_r in H3. destruct H3. constructor; assumption.
  - cbn [accept hSize length]. rewrite H4. destruct (Nat.ltb_spec (Nat.min cap (length l)) cap); lia.
  - cbn [accept hAccept length]. lia.
  - intros k Hk. cbn [accept hSize] in Hk. unfold hs, hstate. rewrite HS, Hptr.
    destruct k as [|k].
    + cbn [nth nth_error accept hStates]. fold temp. rewrite Nat.eqb_refl. reflexivity.
    + cbn [nth_error nth].
      assert (Hk1 : (k < hSize h)%nat /\ (S k < cap)%nat).
      { destruct (Nat.ltb_spec (hSize h) cap); lia. }
      destruct Hk1 as [Hk1 Hk2]. rewrite (H6 k Hk1). unfold hs, hstate.
      rewrite !nth_removelast by lia. cbn [accept hStates]. fold temp.
      replace (nth k (hPtr h) 0 =? temp)%nat with false; [reflexivity|].
      symmetry. apply Nat.eqb_neq. unfold temp. rewrite last_nth by assumption. intros E.
      pose proof (proj1 (NoDup_nth (hPtr h) 0%nat) H3 k (length (hPtr h) - 1)%nat ltac:(lia) ltac:(lia) E). lia.
Qed.
Lemma initialize_ok {N : snum} {St : Type} cap (states : nat -> St) : histOk cap (initialize cap states : history N St) [].
Proof.
  constructor; cbn [initialize hS hPtr hSize hAccept length].
  - apply repeat_length.
  - apply seq_length.
  - apply seq_NoDup.
  - lia.
  - reflexivity.
  - intros k Hk. lia.
Qed.

(** Accepted states, newest first, of a list of attempts, newest first. *)
Fixpoint acceptedStates {St : Type} (solver : nat -> bool * St) (log : list entry) : list (R * St) :=
  match log with
  | [] => []
  | e :: l => if snd e then acceptedStates solver l
              else (fst (fst e), snd (solver (length l))) :: acceptedStates solver l
  end.
Lemma acceptedStates_fst {St : Type} (solver : nat -> bool * St) log :
  rev (map fst (acceptedStates solver log)) = accepted (rev log).
Proof.
  induction log as [|e l IH]; [reflexivity|]. cbn [acceptedStates rev]. rewrite accepted_app, <- IH.
  destruct e as [[s d] b]. unfold accepted. destruct b; cbn [snd negb filter map fst rev].
  - rewrite app_nil_r. reflexivity.
  - reflexivity.
Qed.

(** Attempts agree with the calls of the solver. *)
Definition agrees {St : Type} (solver : nat -> bool * St) (log : list entry) : Prop :=
  forall j e, nth_error (rev log) j = Some e -> snd e = fst (solver j).
Lemma agrees_cons {St : Type} (solver : nat -> bool * St) log e : agrees solver log -> snd e = fst (solver (length log)) ->
  agrees solver (e :: log).
Proof.
  intros H He j x Hj. cbn [rev] in Hj. destruct (Nat.lt_ge_cases j (length log)) as [L|L].
  - rewrite nth_error_app1 in Hj by (rewrite rev_length; assumption). apply (H j x Hj).
  - assert (j = length log).
    { assert (j < length (rev log ++ [e]))%nat by (apply nth_error_Some; congruence).
      rewrite app_length, rev_length in H0. cbn [length] in H0. lia. }
    subst j. rewrite nth_error_app2, rev_length, Nat.sub_diag in Hj by (rewrite rev_length; lia). injection Hj as <-. exact He.
Qed.

Definition logOk {St : Type} cap (solver : nat -> bool * St) (w : sweep SR St) : Prop :=
  agrees solver (wLog w) /\ histOk (N := SR) cap (wHist w) (acceptedStates solver (wLog w)).

Definition state_of {X : Type} (r : status X) : X := match r with Done x | Failed x | More x => x end.

Lemma attempt_log cap St ds0 (solver : nat -> bool * St) (w : sweep SR St) : (1 <= cap)%nat -> logOk cap solver w ->
  let r := attempt (N := SR) cap ds0 (solver (length (wLog w))) w in
  logOk cap solver (state_of r) /\ length (wLog (state_of r)) = S (length (wLog w)).
Proof.
  intros Hc [HA HH] r. unfold r, attempt. clear r.
  destruct (solver (length (wLog w))) as [err sol] eqn:Es. cbn [fst snd].
  destruct err.
  - match goal with |- context [if ?c then Failed ?x else More ?x] =>
      replace (state_of (if c then Failed x else More x)) with x by (destruct c; reflexivity) end.
    cbn [wLog]. split; [|reflexivity]. split; cbn [wLog wHist].
    + apply agrees_cons; [exact HA|]. symmetry. exact (f_equal fst Es).
    + cbn [acceptedStates snd]. exact HH.
  - match goal with |- context [if ?c then Done ?x else More ?x] =>
      replace (state_of (if c then Done x else More x)) with x by (destruct c; reflexivity) end.
    cbn [wLog]. split; [|reflexivity]. split; cbn [wLog wHist].
    + apply agrees_cons; [exact HA|]. symmetry. exact (f_equal fst Es).
    + cbn [acceptedStates fst snd].
      assert (E2 : sol = snd (solver (@length entry (wLog w)))) by (symmetry; exact (f_equal snd Es)).
      rewrite <- E2. apply (accept_ok (N := SR)); assumption.
Qed.

(* ---------- the whole sweep ---------- *)
Definition attemptsPost (ns : Z) cap {St : Type} (solver : nat -> bool * St) (r : status (sweep SR St)) : Prop :=
  logOk cap solver (state_of r) /\
  match r with
  | More w => exists k m, running ns w k m /\ hs (wHist w) 0 + wDs w <= 1 + tolerance
  | Done w => exists k m, running ns w k (S m) /\ 1 + tolerance < hs (wHist w) 0 + wDs w /\ hs (wHist w) 0 <= 1 + tolerance /\
                exists d l, wLog w = (hs (wHist w) 0, d, false) :: l
  | Failed w => wDs w < 1 / IZR ns / 10 /\ legal (1 / IZR ns) (wLog w) (hs (wHist w) 0) (wDs w) /\
      (forall e, In e (wLog w) -> 1 / IZR ns / 8 <= snd (fst e)) /\
      (forall s, In s (accepted (rev (wLog w))) -> s <= 1 + tolerance) /\ exists s d l, wLog w = (s, d, true) :: l
  end.

Lemma attempts_inv ns cap St (solver : nat -> bool * St) fuel : forall (w : sweep SR St) k m, (1 <= ns)%Z -> (1 <= cap)%nat ->
  running ns w k m -> hs (wHist w) 0 + wDs w <= 1 + tolerance -> logOk cap solver w ->
  attemptsPost ns cap solver (attempts (N := SR) cap (1 / IZR ns) solver fuel (length (wLog w)) w).
Proof.
  induction fuel as [|fuel IH]; intros w k m Hns Hcap HR HN HL; cbn [attempts].
  - split; [exact HL|]. exists k, m. auto.
  - pose proof (attempt_inv ns cap St (solver (length (wLog w))) w k m Hns Hcap HR HN) as HA.
    destruct (attempt_log cap St (1 / IZR ns) solver w Hcap HL) as [HL1 HL2]. cbv zeta in HL1, HL2.
    destruct (attempt (N := SR) cap (1 / IZR ns) (solver (length (wLog w))) w) as [w'|w'|w'] eqn:EA; cbn [state_of] in *.
    + split; [exact HL1|]. destruct HA as (HE & A1 & A2 & A3). exists k, m. split; [exact A1|]. split; [exact A2|]. split; [exact A3|].
      unfold attempt in EA. rewrite HE in EA.
      match type of EA with (if ?c then _ else _) = _ => destruct c end; [|discriminate].
      injection EA as <-. cbn [wLog wHist]. rewrite (hs_accept_0 (N := SR)) by assumption. eexists. eexists. reflexivity.
    + split; [exact HL1|]. destruct HA as (HE & _ & A2 & A3 & _ & A4 & A5). split; [exact A2|]. split; [exact A3|]. split; [exact A4|]. split; [exact A5|].
      unfold attempt in EA. rewrite HE in EA.
      match type of EA with (if ?c then _ else _) = _ => destruct c end; [|discriminate].
      injection EA as <-. cbn [wLog]. eexists. eexists. eexists. reflexivity.
    + destruct HA as (k' & m' & A1 & A2 & _). rewrite <- HL2. apply (IH w' k' m'); assumption.
Qed.

Lemma legal_good ns log s ds : (1 <= ns)%Z -> legal (1 / IZR ns) log s ds ->
  (forall e, In e log -> 1 / IZR ns / 8 <= snd (fst e)) ->
  (forall s, In s (accepted (rev log)) -> s <= 1 + tolerance) -> goodSweep ns (rev log).
Proof.
  intros Hns HL Hst Hb.
  assert (Hn : 1 <= IZR ns) by (apply (IZR_le 1); assumption).
  assert (H0 : 0 < 1 / IZR ns) by (apply Rdiv_lt_0_compat; lra).
  destruct (legal_first _ _ _ _ HL) as [l' El]. constructor.
  - exists false, l'. exact El.
  - right. rewrite El. exists (accepted l'). reflexivity.
  - apply (legal_sorted _ _ _ _ H0 HL).
  - exact Hb.
  - intros e He. apply in_rev in He. specialize (Hst e He). lra.
  - apply (legal_halving _ _ _ _ HL).
  - apply (legal_position _ _ _ _ HL).
Qed.

Lemma runSweep_inv ns cap St states (solver : nat -> bool * St) fuel : (1 <= ns)%Z -> (1 <= cap)%nat ->
  fst (solver 0%nat) = false -> attemptsPost ns cap solver (runSweep (N := SR) cap ns states solver fuel).
Proof.
  intros Hns Hcap H0. unfold runSweep. destruct (solver 0%nat) as [err sol] eqn:Es. cbn [fst] in H0. subst err.
  cbn [SR sdiv sofZ wHist].
  assert (Hn : 1 <= IZR ns) by (apply (IZR_le 1); assumption).
  set (w0 := mkSweep (N := SR) (1 / IZR ns) (accept (N := SR) cap 0 sol (initialize cap states)) [(0, 1 / IZR ns, false)]).
  change 1%nat with (length (wLog w0)).
  assert (E0 : hs (wHist w0) 0 = 0) by (unfold w0; cbn [wHist]; rewrite (hs_accept_0 (N := SR)) by assumption; reflexivity).
  assert (H1 : 1 / IZR ns <= 1).
  { unfold Rdiv. rewrite Rmult_1_l. rewrite <- Rinv_1. apply Rinv_le_contravar; lra. }
  assert (Hp : 0 < 1 / IZR ns) by (apply Rdiv_lt_0_compat; lra).
  apply (attempts_inv ns cap St solver fuel w0 0%nat 0%nat Hns Hcap).
  - constructor; cbn [w0 wLog wDs].
    + lia.
    + rewrite E0. apply lg_start.
    + toR. cbn [pow]. rewrite Rmult_1_r. reflexivity.
    + rewrite E0. toR. cbn [INR]. ring.
    + intros e [<-|[]]. cbn [fst snd]. lra.
    + intros s [<-|[]]. cbn [fst snd]. unfold tolerance. apply Rlt_le. lra.
  - rewrite E0. unfold w0, tolerance. cbn [wDs]. lra.
  - split.
    + intros j e Hj. cbn in Hj. destruct j as [|j]; [injection Hj as <-; rewrite Es; reflexivity|destruct j; discriminate].
    + cbn [w0 wLog wHist acceptedStates snd fst length]. rewrite Es. cbn [snd]. apply (accept_ok (N := SR)); [assumption|].
      exact (initialize_ok (N := SR) cap states).
Qed.

(** C40: every sweep of a positive number of steps, for every sequence of solver
    outcomes and at every moment, has taken steps as required; an exception comes
    only from a failed solve, of the initial state or with a next step below one
    tenth of the first; a sweep of fewer than 1250000 steps that ends without
    exception ends at 1. *)
Theorem C40_sweep_steps : forall ns cap St states (solver : nat -> bool * St) fuel, (1 <= ns)%Z -> (1 <= cap)%nat ->
  let r := runSweep (N := SR) cap ns states solver fuel in
  let log := rev (wLog (state_of r)) in
  goodSweep ns log /\
  (forall j e, nth_error log j = Some e -> snd e = fst (solver j)) /\
  (forall w, r = Done w -> exists s, endsAt s log /\ s <= 1 + tolerance /\ ((ns < 1250000)%Z -> s = 1)) /\
  (forall w, r = Failed w -> exists l s d, log = l ++ [(s, d, true)] /\ (l = [] \/ d / 2 < 1 / IZR ns / 10)).
Proof.
  intros ns cap St states solver fuel Hns Hcap r log.
  assert (Hn : 1 <= IZR ns) by (apply (IZR_le 1); assumption).
  assert (Hp : 0 < 1 / IZR ns) by (apply Rdiv_lt_0_compat; lra).
  destruct (fst (solver 0%nat)) eqn:E0.
  - assert (Hr : exists w, r = Failed w /\ wLog w = [(0, 1 / IZR ns, true)]).
    { unfold r, runSweep. destruct (solver 0%nat) as [err sol] eqn:Es. cbn [fst] in E0. subst err. cbn. eexists. split; reflexivity. }
    destruct Hr as (w & Hr & Hw). unfold log. rewrite Hr. cbn [state_of]. rewrite Hw. cbn [rev app].
    split; [|split; [|split]].
    + constructor.
      * exists true, []. reflexivity.
      * left. reflexivity.
      * constructor.
      * intros s [].
      * intros e [<-|[]]. cbn [fst snd]. lra.
      * intros j s1 d1 e1 s2 d2 e2 _ H. destruct j as [|[|j]]; discriminate.
      * intros j s d e H. destruct j; discriminate.
    + intros j e Hj. destruct j as [|j]; [injection Hj as <-; cbn [snd]; congruence|destruct j; discriminate].
    + intros w' H. discriminate.
    + intros w' _. exists [], 0, (1 / IZR ns). auto.
  - pose proof (runSweep_inv ns cap St states solver fuel Hns Hcap E0) as [HL HP]. fold r in HL, HP.
    assert (HG : goodSweep ns log).
    { unfold log. destruct r as [w|w|w]; cbn [state_of].
      - destruct HP as (k & m & [A B C D E F] & _). apply (legal_good _ _ _ _ Hns B E F).
      - destruct HP as (_ & B & E & F & _). apply (legal_good _ _ _ _ Hns B E F).
      - destruct HP as (k & m & [A B C D E F] & _). apply (legal_good _ _ _ _ Hns B E F). }
    split; [exact HG|]. split; [exact (proj1 HL)|]. split.
    + intros w Hr. unfold log. rewrite Hr in *. cbn [state_of]. destruct HP as (k & m & [A B C D E F] & H1 & H2 & d & l & H3).
      exists (hs (wHist w) 0). split; [|split; [exact H2|]].
      * exists (rev l), d. rewrite H3. reflexivity.
      * intros Hlt. set (M := (IZR ns * 2 ^ k)) in *.
        assert (HM1 : 1 <= M). { unfold M. assert (1 <= 2 ^ k) by (apply pow_R1_Rle; lra). nra. }
        assert (HM : M < 10000000).
        { unfold M. assert (IZR ns < 1250000) by (apply (IZR_lt ns 1250000); assumption).
          assert (2 ^ k <= 8) by (replace 8 with (2 ^ 3) by ring; apply Rle_pow; [lra|lia]).
          assert (IZR ns * 2 ^ k <= IZR ns * 8) by (apply Rmult_le_compat_l; lra). lra. }
        unfold tolerance in *.
        set (x := (hs (wHist w) 0 : R)) in *. set (y := (wDs w : R)) in *. set (q := INR (S m)) in *.
        change (x = q * y) in D. change (y = 1 / M) in C. change (1 + 1 / 10000000 < x + y) in H1.
        assert (E2 : y * M = 1) by (rewrite C; field; lra).
        assert (E1 : x * M = q) by (rewrite D, Rmult_assoc, E2; ring).
        assert (L1 : q <= M + 1 / 10000000 * M).
        { apply (Rmult_le_compat_r M) in H2; [|lra]. rewrite E1 in H2. lra. }
        assert (L2 : M < q + 1).
        { apply (Rmult_lt_compat_r M) in H1; [|lra]. rewrite (Rmult_plus_distr_r x), E1, E2 in H1. nra. }
        assert (L3 : q < M + 1) by lra.
        assert (Hq : q = M).
        { assert (HMz : exists z, M = IZR z). { exists (ns * 2 ^ Z.of_nat k)%Z. unfold M. rewrite mult_IZR, <- pow_IZR. reflexivity. }
          destruct HMz as [z Hz]. unfold q in *. rewrite INR_IZR_INZ in *. rewrite Hz in *.
          rewrite <- plus_IZR in L2, L3. apply lt_IZR in L2, L3. f_equal. lia. }
        rewrite D, C, Hq. field. lra.
    + intros w Hr. unfold log. rewrite Hr in *. cbn [state_of]. destruct HP as (H1 & H2 & _ & _ & s & d & l & H3).
      exists (rev l), s, d. rewrite H3. split; [reflexivity|]. right.
      rewrite H3 in H2. inversion H2; subst. lra.
Qed.

(* ---------- termination ---------- *)
Lemma units_bound ns St (w : sweep SR St) k m : (1 <= ns)%Z -> running ns w k m -> hs (wHist w) 0 + wDs w <= 1 + tolerance ->
  (S m * 2 ^ (3 - k) <= 9 * Z.to_nat ns)%nat.
Proof.
  intros Hns [Hk HL Hds Hm _ _] Hnext.
  assert (Hn : 1 <= IZR ns) by (apply (IZR_le 1); assumption).
  apply INR_le. rewrite !mult_INR, pow_INR, S_INR. change (INR 2) with 2.
  replace (INR 9) with 9 by (cbn [INR]; ring). rewrite INR_IZR_INZ with (n := Z.to_nat ns), Z2Nat.id by lia.
  set (x := (hs (wHist w) 0 : R)) in *. set (y := (wDs w : R)) in *.
  change (x = INR m * y) in Hm. change (y = 1 / (IZR ns * 2 ^ k)) in Hds. unfold tolerance in Hnext.
  assert (Hp := pow2_pos k). assert (Hq := pow2_pos (3 - k)).
  assert (E8 : 2 ^ k * 2 ^ (3 - k) = 8).
  { rewrite <- pow_add. replace (k + (3 - k))%nat with 3%nat by lia. ring. }
  assert (Ey : y * (IZR ns * 8) = 2 ^ (3 - k)).
  { rewrite Hds, <- E8. field. split; lra. }
  assert (Ex : (x + y) * (IZR ns * 8) = (INR m + 1) * 2 ^ (3 - k)).
  { rewrite Hm. replace ((INR m * y + y) * (IZR ns * 8)) with ((INR m + 1) * (y * (IZR ns * 8))) by ring. rewrite Ey. ring. }
  rewrite <- Ex. nra.
Qed.

Lemma attempts_end ns cap St (solver : nat -> bool * St) fuel : forall (w : sweep SR St) k m call, (1 <= ns)%Z -> (1 <= cap)%nat ->
  running ns w k m -> hs (wHist w) 0 + wDs w <= 1 + tolerance ->
  (9 * Z.to_nat ns - m * 2 ^ (3 - k) + (3 - k) <= fuel)%nat ->
  forall w', attempts (N := SR) cap (1 / IZR ns) solver fuel call w <> More w'.
Proof.
  induction fuel as [|fuel IH]; intros w k m call Hns Hcap HR HN HF w'; pose proof (units_bound _ _ _ _ _ Hns HR HN) as HU.
  - assert (0 < 2 ^ (3 - k))%nat by (apply Nat.neq_0_lt_0, Nat.pow_nonzero; lia). rewrite Nat.mul_succ_l in HU. lia.
  - cbn [attempts].
    pose proof (attempt_inv ns cap St (solver call) w k m Hns Hcap HR HN) as HA.
    destruct (attempt (N := SR) cap (1 / IZR ns) (solver call) w) as [w1|w1|w1]; [discriminate|discriminate|].
    destruct HA as (k' & m' & A1 & A2 & A3). apply (IH w1 k' m'); try assumption.
    assert (Hk := r_k _ _ _ _ HR). assert (Hk' := r_k _ _ _ _ A1).
    assert (0 < 2 ^ (3 - k))%nat by (apply Nat.neq_0_lt_0, Nat.pow_nonzero; lia). rewrite Nat.mul_succ_l in HU.
    destruct A3 as [(_ & -> & ->)|(_ & -> & ->)].
    + replace (3 - k)%nat with (S (3 - S k)) in HF by lia. rewrite Nat.pow_succ_r' in HF. nia.
    + rewrite Nat.mul_succ_l. lia.
Qed.

Lemma first_running ns cap St states (sol : St) : (1 <= ns)%Z -> (1 <= cap)%nat ->
  let w0 := mkSweep (N := SR) (1 / IZR ns) (accept (N := SR) cap 0 sol (initialize cap states)) [(0, 1 / IZR ns, false)] in
  running ns w0 0 0 /\ hs (wHist w0) 0 + wDs w0 <= 1 + tolerance.
Proof.
  intros Hns Hcap w0.
  assert (Hn : 1 <= IZR ns) by (apply (IZR_le 1); assumption).
  assert (E0 : hs (wHist w0) 0 = 0) by (unfold w0; cbn [wHist]; rewrite (hs_accept_0 (N := SR)) by assumption; reflexivity).
  assert (H1 : 1 / IZR ns <= 1).
  { unfold Rdiv. rewrite Rmult_1_l. rewrite <- Rinv_1. apply Rinv_le_contravar; lra. }
  assert (Hp : 0 < 1 / IZR ns) by (apply Rdiv_lt_0_compat; lra).
  split.
  - constructor; cbn [w0 wLog wDs].
    + lia.
    + rewrite E0. apply lg_start.
    + toR. cbn [pow]. rewrite Rmult_1_r. reflexivity.
    + rewrite E0. toR. cbn [INR]. ring.
    + intros e [<-|[]]. cbn [fst snd]. lra.
    + intros s [<-|[]]. cbn [fst snd]. unfold tolerance. apply Rlt_le. lra.
  - rewrite E0. unfold w0, tolerance. cbn [wDs]. lra.
Qed.

(** C41 for positive numbers of steps: after 9 ns + 3 further attempts, at most,
    the sweep has ended, whatever the solver does. *)
Theorem C41_terminates : forall ns cap St states (solver : nat -> bool * St) fuel, (1 <= ns)%Z -> (1 <= cap)%nat ->
  (Z.to_nat (9 * ns + 3) <= fuel)%nat -> forall w, runSweep (N := SR) cap ns states solver fuel <> More w.
Proof.
  intros ns cap St states solver fuel Hns Hcap HF w. unfold runSweep. destruct (solver 0%nat) as [err sol].
  destruct err; [discriminate|].
  destruct (first_running ns cap St states sol Hns Hcap) as [A B].
  apply (attempts_end ns cap St solver fuel _ 0 0 1 Hns Hcap A B). cbn [Nat.mul Nat.sub Nat.pow]. lia.
Qed.

(** The parameter file may contain any integer ns.  A negative number of steps
    gives a sweep away from 1 that never ends while the solver succeeds. *)
Lemma attempts_negative ds0 fuel : ds0 < 0 -> forall (w : sweep SR unit) call, hs (wHist w) 0 <= 0 -> wDs w = ds0 ->
  exists w', attempts (N := SR) 3 ds0 (fun _ => (false, tt)) fuel call w = More w'.
Proof.
  intros H0. induction fuel as [|fuel IH]; intros w call Hh Hd; cbn [attempts]; [eexists; reflexivity|].
  unfold attempt. cbn [fst snd SR sadd slt send].
  destruct (Rlt_dec (10000001 / 10000000) (hs (wHist w) 0 + wDs w + wDs w)) as [L|L]; [exfalso; lra|].
  apply IH; cbn [wHist wDs]; [|exact Hd]. rewrite (hs_accept_0 (N := SR)) by lia. lra.
Qed.
Theorem C41_negative_steps_refuted : exists ns cap solver,
  readSweep ns 3 = Ok (ns, cap) /\ forall fuel, exists w, runSweep (N := SR) (St := unit) cap ns (fun _ => tt) solver fuel = More w.
Proof.
  exists (-1)%Z, 3%nat, (fun _ => (false, tt)). split; [reflexivity|]. intros fuel.
  unfold runSweep. cbn [SR sdiv sofZ].
  apply attempts_negative; [lra| |reflexivity]. cbn [wHist]. rewrite (hs_accept_0 (N := SR)) by lia. lra.
Qed.
(** With ns = 0 the step is infinite in double precision; it is never smaller
    than one tenth of itself, so a solver that fails on every trial state keeps
    the sweep going for ever. *)
Theorem C41_zero_steps_refuted : exists cap solver,
  readSweep 0 3 = Ok (0%Z, cap) /\ forall fuel, exists w, runSweep (N := SFl) (St := unit) cap 0 (fun _ => tt) solver fuel = More w.
Proof.
  exists 3%nat, (fun k => (negb (k =? 0)%nat, tt)). split; [reflexivity|]. intros fuel. unfold runSweep. cbn [Nat.eqb negb].
  assert (Hgen : forall fuel call (w : sweep SFl unit), wDs w = S754_infinity false -> (0 < call)%nat ->
    exists w', attempts (N := SFl) 3 (S754_infinity false) (fun k => (negb (k =? 0)%nat, tt)) fuel call w = More w').
  { clear fuel. induction fuel as [|fuel IH]; intros call w Hw Hc; cbn [attempts]; [eexists; reflexivity|].
    unfold attempt. destruct call; [lia|]. cbn [Nat.eqb negb fst]. rewrite Hw.
    replace (slt (smul (S754_infinity false : sT SFl) shalf) (smul stenth (S754_infinity false : sT SFl))) with false by reflexivity.
    apply IH; [reflexivity|lia]. }
  replace (sdiv (sofZ 1) (sofZ 0) : sT SFl) with (S754_infinity false) by reflexivity.
  apply Hgen; [reflexivity|lia].
Qed.

(* ---------- the last contour value ---------- *)
Lemma attempts_success ns cap St (solver : nat -> bool * St) fuel : (forall j, fst (solver j) = false) ->
  forall (w : sweep SR St) m call, (1 <= ns)%Z -> (1 <= cap)%nat ->
  running ns w 0 m -> hs (wHist w) 0 + wDs w <= 1 + tolerance ->
  match attempts (N := SR) cap (1 / IZR ns) solver fuel call w with
  | Done w' => exists m', running ns w' 0 m' /\ 1 + tolerance < hs (wHist w') 0 + wDs w' /\ hs (wHist w') 0 <= 1 + tolerance /\
      exists d l, wLog w' = (hs (wHist w') 0, d, false) :: l
  | Failed _ => False
  | More _ => True
  end.
Proof.
  intros Hok. induction fuel as [|fuel IH]; intros w m call Hns Hcap HR HN; cbn [attempts]; [exact I|].
  pose proof (attempt_inv ns cap St (solver call) w 0 m Hns Hcap HR HN) as HA.
  destruct (attempt (N := SR) cap (1 / IZR ns) (solver call) w) as [w1|w1|w1] eqn:EA.
  - destruct HA as (HE & A1 & A2 & A3). exists (S m). split; [exact A1|]. split; [exact A2|]. split; [exact A3|].
    unfold attempt in EA. rewrite HE in EA.
    match type of EA with (if ?c then _ else _) = _ => destruct c end; [|discriminate].
    injection EA as <-. cbn [wLog wHist]. rewrite (hs_accept_0 (N := SR)) by assumption. eexists. eexists. reflexivity.
  - destruct HA as [HE _]. rewrite Hok in HE. discriminate.
  - destruct HA as (k' & m' & A1 & A2 & [(HE & _)|(_ & -> & ->)]); [rewrite Hok in HE; discriminate|].
    apply (IH w1 (S m)); assumption.
Qed.

(** The bound on the number of steps in C40 is needed: with 10^7 steps and no
    failure the sweep takes one step more and ends at 1.0000001. *)
Theorem C40_ends_at_one_refuted : exists ns fuel w, (1 <= ns)%Z /\
  runSweep (N := SR) 3 ns (fun _ => tt) (fun _ => (false, tt)) fuel = Done w /\
  exists s, endsAt s (rev (wLog w)) /\ s = 1 + tolerance.
Proof.
  set (ns := 10000000%Z).
  assert (HF : exists fuel, (Z.to_nat (9 * ns + 3) <= fuel)%nat) by (eexists; apply Nat.le_refl).
  destruct HF as [fuel HF]. exists ns, fuel.
  assert (Hns : (1 <= ns)%Z) by (unfold ns; lia). assert (Hcap : (1 <= 3)%nat) by lia.
  destruct (first_running ns 3 unit (fun _ => tt) tt Hns Hcap) as [A B].
  pose proof (C41_terminates ns 3 unit (fun _ => tt) (fun _ => (false, tt)) fuel Hns Hcap HF) as HT.
  pose proof (attempts_success ns 3 unit (fun _ => (false, tt)) fuel (fun _ => eq_refl) _ 0 1 Hns Hcap A B) as HS.
  unfold runSweep in *. cbv beta iota in HT, HS |- *. cbn [wHist] in HT |- *.
  cbn [SR sdiv sofZ] in HT, HS |- *.
  destruct (attempts (N := SR) 3 (1 / IZR ns) (fun _ : nat => (false, tt)) fuel 1 _) as [w|w|w].
  - exists w. split; [exact Hns|]. split; [reflexivity|].
    destruct HS as (m & [_ _ Hds Hm _ _] & H1 & H2 & d & l & H3).
    exists (hs (wHist w) 0). split; [exists (rev l), d; rewrite H3; reflexivity|].
    set (x := (hs (wHist w) 0 : R)) in *. set (y := (wDs w : R)) in *.
    change (x = INR m * y) in Hm. change (y = 1 / (IZR ns * 2 ^ 0)) in Hds. unfold tolerance in *.
    assert (Ey : y = 1 / 10000000) by (rewrite Hds; unfold ns; field).
    rewrite Ey in Hm, H1. rewrite Hm in H1, H2 |- *.
    rewrite INR_IZR_INZ in *.
    assert (L1 : IZR (Z.of_nat m) < IZR 10000002) by lra. assert (L2 : IZR 10000000 < IZR (Z.of_nat m)) by lra.
    apply lt_IZR in L1, L2. replace (Z.of_nat m) with 10000001%Z by lia. field.
  - destruct HS.
  - exfalso. apply (HT w). reflexivity.
Qed.

(* ---------- polynomial extrapolation ---------- *)
(** Value at x of the polynomial with coefficients c, constant term first. *)
Fixpoint peval (c : list R) (x : R) : R := match c with [] => 0 | a :: c' => a + x * peval c' x end.

Fixpoint prodAll (n : nat) (f : nat -> R) : R := match n with O => 1 | S k => prodAll k f * f k end.
Lemma prodExcept_ge n i f : (n <= i)%nat -> prodExcept n i f = prodAll n f.
Proof. induction n as [|n IH]; intros H; [reflexivity|]. cbn [prodExcept prodAll]. rewrite IH by lia. destruct (Nat.eqb_spec n i); [lia|reflexivity]. Qed.
Lemma prodExcept_all n i f : (i < n)%nat -> prodExcept n i f * f i = prodAll n f.
Proof.
  induction n as [|n IH]; intros H; [lia|]. cbn [prodExcept prodAll]. destruct (Nat.eqb_spec n i) as [->|Hn].
  - rewrite prodExcept_ge by lia. reflexivity.
  - rewrite <- IH by lia. ring.
Qed.
Lemma prodExcept_neq n i f : (forall j, (j < n)%nat -> j <> i -> f j <> 0) -> prodExcept n i f <> 0.
Proof.
  induction n as [|n IH]; intros H; cbn [prodExcept]; [lra|]. destruct (Nat.eqb_spec n i) as [->|Hn].
  - apply IH. intros j Hj. apply H. lia.
  - apply Rmult_integral_contrapositive. split; [apply IH; intros j Hj; apply H; lia|apply H; lia].
Qed.

Definition lag (n : nat) (s : nat -> R) (x : R) (i : nat) : R :=
  prodExcept n i (fun j => x - s j) / prodExcept n i (fun j => s i - s j).
Definition distinct (n : nat) (s : nat -> R) : Prop := forall i j, (i < n)%nat -> (j < n)%nat -> i <> j -> s i <> s j.

Lemma lag_S n s x i : distinct (S n) s -> (i < n)%nat -> lag (S n) s x i = lag n s x i * ((x - s n) / (s i - s n)).
Proof.
  intros Hd Hi. unfold lag. cbn [prodExcept]. destruct (Nat.eqb_spec n i); [lia|].
  assert (s i - s n <> 0) by (intros E; apply (Hd i n); lia || lra).
  assert (prodExcept n i (fun j => s i - s j) <> 0).
  { apply prodExcept_neq. intros j Hj Hij E. apply (Hd i j); lia || lra. }
  field. auto.
Qed.
Lemma lag_sum : forall n s x, (1 <= n)%nat -> distinct n s -> rsum n (lag n s x) = 1.
Proof.
  induction n as [|n IH]; intros s x Hn Hd; [lia|].
  destruct (Nat.eq_dec n 0) as [->|Hn0].
  { cbn [rsum]. unfold lag. cbn [prodExcept Nat.eqb]. field. }
  assert (Hd' : distinct n s) by (intros i j Hi Hj; apply Hd; lia).
  cbn [rsum].
  rewrite (rsum_ext n (lag (S n) s x) (fun i => lag n s x i + lag n s x i * ((x - s i) / (s i - s n)))).
  2: { intros i Hi. rewrite (lag_S n s x i Hd Hi). assert (s i - s n <> 0) by (intros E; apply (Hd i n); lia || lra).
       replace ((x - s n) / (s i - s n)) with (1 + (x - s i) / (s i - s n)) by (field; assumption). ring. }
  rewrite rsum_plus, (IH s x) by (lia || assumption).
  set (om := fun y => prodAll n (fun j => y - s j)).
  set (q := fun i => / (prodExcept n i (fun j => s i - s j) * (s i - s n))).
  assert (Hne : forall i, (i < n)%nat -> prodExcept n i (fun j => s i - s j) <> 0).
  { intros i Hi. apply prodExcept_neq. intros j Hj Hij E. apply (Hd i j); lia || lra. }
  assert (H1 : forall y, rsum n (fun i => lag n s y i * ((y - s i) / (s i - s n))) = om y * rsum n q).
  { intros y. rewrite <- rsum_scal. apply rsum_ext. intros i Hi. unfold lag, om, q.
    rewrite <- (prodExcept_all n i (fun j => y - s j) Hi). assert (s i - s n <> 0) by (intros E; apply (Hd i n); lia || lra).
    specialize (Hne i Hi). field. auto. }
  assert (H2 : om (s n) * rsum n q = -1).
  { rewrite <- (H1 (s n)). rewrite (rsum_ext n _ (fun i => (-1) * lag n s (s n) i)).
    - rewrite rsum_scal, (IH s (s n)) by (lia || assumption). ring.
    - intros i Hi. assert (s i - s n <> 0) by (intros E; apply (Hd i n); lia || lra). field. assumption. }
  rewrite H1. unfold lag. cbn [prodExcept]. rewrite Nat.eqb_refl. rewrite !prodExcept_ge by lia. fold (om x). fold (om (s n)).
  assert (om (s n) <> 0) by (intros E; rewrite E in H2; lra).
  replace (rsum n q) with (- / om (s n)) by (apply (Rmult_eq_reg_l (om (s n))); [rewrite H2; field; assumption|assumption]).
  field. assumption.
Qed.

(** Division of a polynomial by (y - a): quotient. *)
Fixpoint pdiv (c : list R) (a : R) : list R := match c with [] => [] | _ :: c' => match c' with [] => [] | _ => peval c' a :: pdiv c' a end end.
Lemma pdiv_spec c a y : peval c y = peval c a + (y - a) * peval (pdiv c a) y.
Proof.
  induction c as [|b c IH]; [cbn; ring|]. destruct c as [|b' c]; [cbn; ring|].
  change (pdiv (b :: b' :: c) a) with (peval (b' :: c) a :: pdiv (b' :: c) a).
  change (peval (b :: b' :: c) y) with (b + y * peval (b' :: c) y). change (peval (b :: b' :: c) a) with (b + a * peval (b' :: c) a).
  change (peval (peval (b' :: c) a :: pdiv (b' :: c) a) y) with (peval (b' :: c) a + y * peval (pdiv (b' :: c) a) y).
  rewrite IH. ring.
Qed.
Lemma pdiv_length c a : length (pdiv c a) = (length c - 1)%nat.
Proof.
  induction c as [|b c IH]; [reflexivity|]. destruct c as [|b' c]; [reflexivity|].
  change (pdiv (b :: b' :: c) a) with (peval (b' :: c) a :: pdiv (b' :: c) a). cbn [length] in *. rewrite IH. lia.
Qed.

Lemma lag_exact : forall n s x c, (1 <= n)%nat -> distinct n s -> (length c <= n)%nat ->
  rsum n (fun i => lag n s x i * peval c (s i)) = peval c x.
Proof.
  induction n as [|n IH]; intros s x c Hn Hd Hc; [lia|].
  rewrite (rsum_ext (S n) _ (fun i => peval c (s n) * lag (S n) s x i + lag (S n) s x i * ((s i - s n) * peval (pdiv c (s n)) (s i)))).
  2: { intros i Hi. rewrite (pdiv_spec c (s n) (s i)). ring. }
  rewrite rsum_plus, rsum_scal, lag_sum by assumption. cbn [rsum].
  rewrite (rsum_ext n _ (fun i => (x - s n) * (lag n s x i * peval (pdiv c (s n)) (s i)))).
  2: { intros i Hi. rewrite (lag_S n s x i Hd Hi). assert (s i - s n <> 0) by (intros E; apply (Hd i n); lia || lra). field. assumption. }
  rewrite rsum_scal. rewrite (pdiv_spec c (s n) x).
  destruct (Nat.eq_dec n 0) as [->|Hn0].
  - cbn [rsum]. destruct c as [|b [|b' c]]; [| |cbn [length] in Hc; lia]; cbn; ring.
  - rewrite (IH s x (pdiv c (s n))); [ring|lia| |rewrite pdiv_length; lia].
    intros i j Hi Hj. apply Hd; lia.
Qed.

Lemma fold_sum n k0 (f : nat -> R) a : fold_left (fun acc k => acc + f k) (seq k0 n) a = a + rsum n (fun i => f (k0 + i)%nat).
Proof.
  revert k0 a. induction n as [|n IH]; intros k0 a; [cbn; ring|]. cbn [seq fold_left]. rewrite IH, rsum_S_first.
  rewrite Nat.add_0_r. rewrite (rsum_ext n (fun i => f (S k0 + i)%nat) (fun i => f (k0 + S i)%nat)) by (intros; f_equal; lia). ring.
Qed.
Lemma coefficient_lag n s x i : (i < n)%nat -> coefficient n s x i = lag n s x i.
Proof.
  intros Hi. unfold coefficient, lag. destruct (Nat.eqb_spec n 1) as [->|]; [|reflexivity].
  replace i with 0%nat by lia. cbn [prodExcept Nat.eqb]. field.
Qed.
Lemma extrapolateField_sum n s x f : (1 <= n)%nat -> extrapolateField n s x f = rsum n (fun i => lag n s x i * f i).
Proof.
  intros Hn. unfold extrapolateField. rewrite (fold_sum (n - 1) 1 (fun k => coefficient n s x k * f k)).
  destruct n as [|n]; [lia|]. rewrite rsum_S_first. rewrite coefficient_lag by lia. f_equal.
  replace (S n - 1)%nat with n by lia. apply rsum_ext. intros i Hi. rewrite coefficient_lag by lia. reflexivity.
Qed.

(** C42: the coefficients sum to one and the extrapolated value of a field
    component is exact when the stored values lie on a polynomial of degree less
    than the number of stored states. *)
Theorem C42_extrapolation_exact : forall n s sNew, (1 <= n)%nat -> distinct n s ->
  rsum n (coefficient n s sNew) = 1 /\
  forall c, (length c <= n)%nat -> extrapolateField n s sNew (fun k => peval c (s k)) = peval c sNew.
Proof.
  intros n s sNew Hn Hd. split.
  - rewrite (rsum_ext n _ (lag n s sNew)) by (intros; apply coefficient_lag; assumption). apply lag_sum; assumption.
  - intros c Hc. rewrite extrapolateField_sum by assumption. apply lag_exact; assumption.
Qed.
(** The flexible lattice parameters are extrapolated with the same coefficients;
    the others keep the values of the system. *)
Theorem C42_cell_extrapolation : forall n s sNew sys fl old, (1 <= n)%nat -> distinct n s ->
  let new := extrapolateCell n s sNew sys (Some fl) old in
  length new = length sys /\
  forall i, (i < length sys)%nat ->
    (nth i fl false = false -> nth i new 0 = nth i sys 0) /\
    (nth i fl false = true -> forall c, (length c <= n)%nat -> (forall k, (k < n)%nat -> old k i = peval c (s k)) ->
       nth i new 0 = peval c sNew).
Proof.
  intros n s sNew sys fl old Hn Hd new.
  assert (HN : forall i, (i < length sys)%nat -> nth i new 0 = if nth i fl false
      then fold_left (fun acc k => acc + coefficient n s sNew k * old k i) (seq 0 n) 0 else nth i sys 0).
  { intros i Hi. unfold new, extrapolateCell.
    set (F := fun i => if nth i fl false then _ else _). rewrite (nth_indep _ 0 (F 0%nat)) by (rewrite map_length, seq_length; assumption).
    rewrite map_nth, seq_nth by assumption. reflexivity. }
  split; [unfold new, extrapolateCell; rewrite map_length, seq_length; reflexivity|].
  intros i Hi. rewrite HN by assumption. split.
  - intros ->. reflexivity.
  - intros -> c Hc Ho. rewrite (fold_sum n 0 (fun k => coefficient n s sNew k * old k i)), Rplus_0_l.
    rewrite <- (lag_exact n s sNew c Hn Hd Hc). apply rsum_ext. intros k Hk. rewrite Nat.add_0_l.
    rewrite coefficient_lag, Ho by assumption. reflexivity.
Qed.

Lemma sorted_nth (l : list R) i j : increasing l -> (i < j)%nat -> (j < length l)%nat -> nth i l 0 < nth j l 0.
Proof.
  intros H. revert i j. induction H as [|a l H IH Hf]; intros i j Hij Hj; [cbn [length] in Hj; lia|].
  destruct j as [|j]; [lia|]. cbn [length] in Hj. destruct i as [|i]; cbn [nth].
  - rewrite Forall_forall in Hf. apply Hf. apply nth_In. lia.
  - apply IH; lia.
Qed.

(** In a sweep: at any moment the history holds the min(capacity, accepted) most
    recent accepted contour values, all distinct, each with the solution found
    there; so if the solutions depend on the contour variable as a polynomial of
    degree less than that number, the extrapolated trial field is exact. *)
Theorem C42_sweep_extrapolation : forall ns cap St states (solver : nat -> bool * St) fuel, (1 <= ns)%Z -> (1 <= cap)%nat ->
  fst (solver 0%nat) = false ->
  let w := state_of (runSweep (N := SR) cap ns states solver fuel) in
  let h := wHist w in let sols := acceptedStates solver (wLog w) in
  hSize h = Nat.min cap (length sols) /\ (1 <= hSize h)%nat /\ distinct (hSize h) (hs h) /\
  (forall k, (k < hSize h)%nat -> nth_error sols k = Some (hs h k, hstate h k)) /\
  forall (g : St -> R) c sNew, (length c <= hSize h)%nat ->
    (forall p, In p (firstn (hSize h) sols) -> g (snd p) = peval c (fst p)) ->
    extrapolateField (hSize h) (hs h) sNew (fun k => g (hstate h k)) = peval c sNew.
Proof.
  intros ns cap St states solver fuel Hns Hcap H0 w h sols.
  pose proof (runSweep_inv ns cap St states solver fuel Hns Hcap H0) as [[_ HH] _]. fold w in HH. fold h in HH. fold sols in HH.
  destruct (C40_sweep_steps ns cap St states solver fuel Hns Hcap) as (HG & HA & _). fold w in HG, HA.
  destruct HH as [_ _ _ H4 _ H6]. change (hSize h = Nat.min cap (@length (R * St) sols)) in H4.
  assert (Hacc : rev (map fst sols) = accepted (rev (wLog w))) by apply acceptedStates_fst.
  assert (Hlen : (1 <= length sols)%nat).
  { destruct (g_first _ _ HG) as (e & l & E).
    assert (e = false). { specialize (HA 0%nat _ (f_equal (fun q => nth_error q 0) E)). cbn in HA. congruence. }
    subst e. rewrite E in Hacc. cbn in Hacc. apply (f_equal (@length R)) in Hacc. rewrite rev_length, map_length in Hacc.
    cbn [length] in Hacc. lia. }
  assert (Hsz : (1 <= hSize h)%nat) by (rewrite H4; lia).
  assert (Hnth : forall k, (k < hSize h)%nat -> hs h k = nth (length sols - S k) (accepted (rev (wLog w))) 0).
  { intros k Hk. specialize (H6 k Hk). rewrite <- Hacc.
    assert (E : nth_error (map fst sols) k = Some (hs h k : R)).
    { rewrite nth_error_map. change (@nth_error (R * St) sols k = Some (hs h k, hstate h k)) in H6. rewrite H6. reflexivity. }
    rewrite rev_nth by (rewrite map_length; lia). rewrite map_length.
    replace (length sols - S (length sols - S k))%nat with k by lia.
    symmetry. apply nth_error_nth with (d := 0) in E. exact E. }
  assert (Hal : length (accepted (rev (wLog w))) = length sols) by (rewrite <- Hacc, rev_length, map_length; reflexivity).
  assert (Hd : distinct (hSize h) (hs h)).
  { assert (Hlt : forall i j, (i < j)%nat -> (j < hSize h)%nat -> hs h j < hs h i).
    { intros i j Hij Hj. rewrite !Hnth by lia. apply sorted_nth; [apply (g_increasing _ _ HG)|lia|rewrite Hal; lia]. }
    intros i j Hi Hj Hij E. change (@eq R (hs h i) (hs h j)) in E.
    destruct (Nat.lt_trichotomy i j) as [L|[L|L]]; [|contradiction|]; specialize (Hlt _ _ L ltac:(assumption)); lra. }
  split; [exact H4|]. split; [exact Hsz|]. split; [exact Hd|]. split; [exact H6|].
  intros g c sNew Hc Hg.
  destruct (C42_extrapolation_exact (hSize h) (hs h) sNew Hsz Hd) as [_ HE]. rewrite <- (HE c Hc).
  rewrite !extrapolateField_sum by assumption. apply rsum_ext. intros k Hk. f_equal.
  apply (Hg (hs h k, hstate h k)). specialize (H6 k Hk).
  apply nth_error_In with (n := k).
  rewrite <- (firstn_skipn (hSize h) sols) in H6. rewrite nth_error_app1 in H6; [exact H6|].
  rewrite firstn_length. lia.
Qed.

(* ---------- unit cell ---------- *)
(** C43 holds when every extrapolated parameter differs from the previously
    extrapolated one by at least 1e-10, and in the first extrapolation. *)
Theorem C43_cell_transferred_partial : forall n s sNew prev sys fl old, (2 <= n)%nat -> length fl = length sys ->
  let new := extrapolateCell n s sNew sys (Some fl) old in
  (forall i, (i < length prev)%nat -> 1 / 10000000000 <= Rabs (nth i prev 0 - nth i new 0)) ->
  extrapolate n s sNew prev sys (Some fl) old = Ok (new, new).
Proof.
  intros n s sNew prev sys fl old Hn Hl new H. unfold extrapolate.
  replace (0 <? n)%nat with true by (symmetry; apply Nat.ltb_lt; lia).
  replace (n =? 1)%nat with false by (symmetry; apply Nat.eqb_neq; lia).
  rewrite Hl, Nat.eqb_refl. cbn [check]. cbv beta iota zeta delta [bind]. fold new.
  replace (newCellParams prev new) with true; [reflexivity|].
  symmetry. apply forallb_forall. intros i Hi. apply in_seq in Hi. destruct (Rlt_dec _ _) as [L|L]; [|reflexivity].
  specialize (H i ltac:(lia)). lra.
Qed.
(** It fails in general: the flag is cleared by the first unchanged parameter. With
    parameters (a, b), a flexible, b fixed, the extrapolated a is computed but the
    system keeps its old value. *)
Theorem C43_partly_flexible_refuted : exists n s sNew prev sys fl old new,
  distinct n s /\ length fl = length sys /\
  extrapolate n s sNew prev sys (Some fl) old = Ok (sys, new) /\
  nth 0 new 0 <> nth 0 sys 0 /\ nth 0 new 0 <> nth 0 prev 0 /\ nth 0 fl false = true.
Proof.
  (* a = 1 + s: stored at s = 1/2 (a = 3/2) and s = 1/4 (a = 5/4), new value s = 3/4 *)
  exists 2%nat, (fun k => match k with O => 1/2 | _ => 1/4 end), (3/4), [3/2; 1], [3/2; 1], [true; false],
    (fun k i => match i, k with O, O => 3/2 | O, _ => 5/4 | _, _ => 1 end), [7/4; 1].
  split; [|split; [reflexivity|split; [|cbn [nth]; repeat split; lra]]].
  - intros i j Hi Hj Hij. destruct i as [|[|i]], j as [|[|j]]; try lia; lra.
  - unfold extrapolate. cbn [Nat.ltb Nat.leb Nat.eqb length check]. cbv beta iota zeta delta [bind].
    assert (E : extrapolateCell 2 (fun k => match k with O => 1/2 | _ => 1/4 end) (3/4) [3/2; 1] (Some [true; false])
        (fun k i => match i, k with O, O => 3/2 | O, _ => 5/4 | _, _ => 1 end) = [7/4; 1]).
    { cbv [extrapolateCell length seq map nth fold_left coefficient prodExcept Nat.eqb]. f_equal. field. }
    rewrite E. replace (newCellParams [3/2; 1] [7/4; 1]) with false; [reflexivity|].
    symmetry. unfold newCellParams. cbn [length seq forallb nth].
    destruct (Rlt_dec (Rabs (1 - 1)) _) as [L|L]; [apply andb_false_r|].
    exfalso. apply L. rewrite Rminus_diag_eq, Rabs_R0 by reflexivity. lra.
Qed.

(* ================= examples ================= *)
(** A sweep of 2 steps whose second trial fails once: accepted 0, 1/2, 3/4, 1. *)
Definition exSolver (k : nat) : bool * R := ((k =? 2)%nat, INR k).
Example ex_sweep : exists w, runSweep (N := SR) 3 2 (fun _ => 0) exSolver 30 = Done w /\
  accepted (rev (wLog w)) = [0; 0 + 1 / 2; 0 + 1/2 + 1/2 * (1/2); 0 + 1/2 + 1/2 * (1/2) + 1/2 * (1/2)] /\ hSize (wHist w) = 3%nat.
Proof.
  eexists. split; [|].
  - unfold runSweep. cbn [exSolver Nat.eqb]. cbn [SR sdiv sofZ].
    cbn [attempts]. unfold attempt at 1. cbn -[Rlt_dec]. destruct (Rlt_dec _ _) as [L|L]; [exfalso; lra|].
    cbn -[Rlt_dec]. destruct (Rlt_dec _ _) as [L1|L1]; [exfalso; lra|].
    cbn -[Rlt_dec]. destruct (Rlt_dec _ _) as [L2|L2]; [exfalso; lra|].
    cbn -[Rlt_dec]. destruct (Rlt_dec _ _) as [L3|L3]; [reflexivity|exfalso; lra].
  - cbn. split; reflexivity.
Qed.
Example ex_distinct : distinct 3 (fun k => 1 - INR k / 4).
Proof. intros i j Hi Hj Hij E. apply Hij. apply INR_eq. lra. Qed.

Print Assumptions C40_sweep_steps. Print Assumptions C40_ends_at_one_refuted. Print Assumptions C41_terminates.
Print Assumptions C41_negative_steps_refuted. Print Assumptions C41_zero_steps_refuted.
Print Assumptions C42_extrapolation_exact. Print Assumptions C42_cell_extrapolation. Print Assumptions C42_sweep_extrapolation.
Print Assumptions C43_cell_transferred_partial. Print Assumptions C43_partly_flexible_refuted.
