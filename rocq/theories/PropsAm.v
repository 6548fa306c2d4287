(** Properties of the Anderson-mixing iterator (C38, C39). *)
From Coq Require Import Reals List Arith Bool ZArith Lia Lra SpecFloat.
From Verif Require Import Base RSum Am AmProofs.
Import ListNotations.
Local Open Scope R_scope.

(* ================= specification ================= *)
(** Vectors of n real numbers. *)
Definition dotR (n : nat) (a b : nat -> R) : R := rsum n (fun i => a i * b i).
Definition real (a : nat -> option R) : nat -> R := fun i => val (a i).
Notation zeroV := (fun _ : nat => nzero (n := RNum)) (only parsing).
(** Vector m of a list. *)
Definition bvec (basis : list (nat -> nT RNum)) (m : nat) : nat -> R := real (nth m basis zeroV).
(** Linear combination of basis vectors added to a vector. *)
Definition combine_ (r : nat -> R) (nb : nat) (b : nat -> nat -> R) (x : nat -> R) : nat -> R :=
  fun i => r i + rsum nb (fun m => x m * b m i).
Definition independent (n nb : nat) (b : nat -> nat -> R) : Prop :=
  forall x, (forall i, (i < n)%nat -> rsum nb (fun m => x m * b m i) = 0) -> forall m, (m < nb)%nat -> x m = 0.

(** What is required of the LU solver: for a nonsingular matrix of finite
    elements it returns the solution. *)
Definition luSpec (lu : nat -> (nat -> nat -> nT RNum) -> (nat -> nT RNum) -> nat -> nT RNum) (n : nat) : Prop :=
  forall (A : nat -> nat -> R) (v : nat -> R),
    (forall x, (forall i, (i < n)%nat -> rsum n (fun j => A i j * x j) = 0) -> forall j, (j < n)%nat -> x j = 0) ->
    forall (U : nat -> nat -> nT RNum) (w : nat -> nT RNum),
    (forall i j, (i < n)%nat -> (j < n)%nat -> U i j = Some (A i j)) -> (forall i, (i < n)%nat -> w i = Some (v i)) ->
    exists x, (forall i, (i < n)%nat -> lu n U w i = Some (x i)) /\
              (forall i, (i < n)%nat -> rsum n (fun j => A i j * x j) = v i).

(** Members that can be reached: allocated, then any number of calls of solve on
    any systems, with any choice of continuation. *)
Inductive reached {N : num} (lu : nat -> (nat -> nat -> nT N) -> (nat -> nT N) -> nat -> nT N) (p : params N) : am N -> Prop :=
| reach_first : forall U v c st rt, reached lu p (am0 U v c st rt)
| reach_solve : forall y cont s a r, reached lu p a -> solve lu p y cont s a = Ok r -> reached lu p (rAm r).

(** The residuals of the past systems of a solve, newest first, at iteration j. *)
Definition pastSystems {N : num} {S : Type} (tr : list (S * am N)) (j : nat) : list S := rev (map fst (firstn (j + 1) tr)).

(* ================= proofs ================= *)
Definition between {N : num} (p : params N) (a : am N) : Prop :=
  gram (pElem p) (aRB a) (aU a) /\ length (aSB a) = length (aRB a) /\ (length (aRB a) <= pMaxHist p)%nat.

Definition start {N : num} (cont : bool) (a : am N) : am N :=
  let a1 := setup cont a in
  mkAm (aSH a1) (aRH a1) (aSB a1) (aRB a1) (aU a1) (aV a1) (aC a1) (aST a1) (aRT a1) (length (aSB a1)).
Lemma solve_start N lu (p : params N) y cont s a : solve lu p y cont s a = loop lu p y (pMaxItr p) 0 (evaluate y s) (start cont a).
Proof. reflexivity. Qed.

Lemma start_inv {N : num} (p : params N) cont a : between p a -> inv p 0 (start cont a).
Proof.
  intros (H1 & H2 & H3). destruct cont; constructor; cbn [start setup aRB aSB aU aNB aSH aRH length]; try assumption; try reflexivity; try lia.
  - apply diffs_short. cbn. lia.
  - apply diffs_short. cbn. lia.
  - intros m k Hm. cbn [length] in Hm. lia.
  - apply diffs_short. cbn. lia.
  - apply diffs_short. cbn. lia.
Qed.

Lemma reached_between (N : num) : mulComm N -> forall lu (p : params N) a, (1 <= pMaxHist p)%nat -> reached lu p a -> between p a.
Proof.
  intros HC lu p a Hmh H. induction H as [U v c st rt|y cont s a r H IH E].
  - split; [|split; cbn; lia]. intros m k Hm. cbn [am0 aRB length] in Hm. lia.
  - rewrite solve_start in E.
    destruct (loop_inv N HC lu p y _ _ _ _ [] r Hmh (start_inv p cont a IH)
                (eq_sym (firstn_nil _ _)) (eq_sym (firstn_nil _ _)) E) as (_ & G & L & C & _).
    split; [exact G|]. split; [exact L|exact C].
Qed.

Lemma solve_traced (N : num) : mulComm N -> forall lu (p : params N) y cont s a r, (1 <= pMaxHist p)%nat -> reached lu p a ->
  solve lu p y cont s a = Ok r ->
  traced y lu p 0 [] (rTrace r) /\
  (forall j t b, nth_error (rTrace r) j = Some (t, b) ->
     length (aRB b) = Nat.min ((if cont then length (aRB a) else 0) + j) (pMaxHist p)).
Proof.
  intros HC lu p y cont s a r Hmh H E. pose proof (reached_between N HC lu p a Hmh H) as HB.
  rewrite solve_start in E.
  destruct (loop_inv N HC lu p y _ _ _ _ [] r Hmh (start_inv p cont a HB)
              (eq_sym (firstn_nil _ _)) (eq_sym (firstn_nil _ _)) E) as (T & _ & _ & _ & L).
  split; [exact T|]. intros j t b Hj. rewrite (L j t b Hj). cbn [start setup aRB Nat.eqb]. destruct cont; reflexivity.
Qed.

Lemma start_fin (p : params RNum) cont (a : am RNum) :
  finAll (pElem p) (aSB a) -> finAll (pElem p) (aRB a) -> allFin p (start cont a).
Proof.
  intros H1 H2. repeat split; cbn [start setup aSH aRH aSB aRB]; try constructor; destruct cont; try assumption; constructor.
Qed.
Lemma reached_fin lu (p : params RNum) a : (1 <= pMaxHist p)%nat -> reached lu p a ->
  finAll (pElem p) (aSB a) /\ finAll (pElem p) (aRB a).
Proof.
  intros Hmh H. induction H as [U v c st rt|y cont s a r H [F1 F2] E].
  - split; constructor.
  - rewrite solve_start in E.
    destruct (loop_total lu p y (pMaxItr p) 0%nat (evaluate y s) (start cont a) Hmh) as (r' & E' & _ & HF & _).
    + apply start_inv. apply (reached_between RNum mulComm_R lu p a Hmh H).
    + apply start_fin; assumption.
    + rewrite E in E'. injection E' as <-. exact HF.
Qed.
Lemma solve_total lu (p : params RNum) y cont s a : (1 <= pMaxHist p)%nat -> reached lu p a ->
  exists r, solve lu p y cont s a = Ok r /\ (rCode r = 0%nat \/ rCode r = 1%nat) /\
            (forall t b, In (t, b) (rTrace r) -> allFin p b).
Proof.
  intros Hmh H. destruct (reached_fin lu p a Hmh H) as [F1 F2]. rewrite solve_start.
  destruct (loop_total lu p y (pMaxItr p) 0%nat (evaluate y s) (start cont a) Hmh) as (r' & E' & Hc & _ & HF).
  + apply start_inv. apply (reached_between RNum mulComm_R lu p a Hmh H).
  + apply start_fin; assumption.
  + exists r'. auto.
Qed.

(** C38, first part: at every iteration of every solve, the matrix holds the
    inner products of the stored differences; the differences formed in this solve
    are differences of successive residuals of the system; after the first
    iteration the right-hand side holds their products with the residual of the
    current fields. *)
Theorem C38_inner_product_matrix :
  forall lu (p : params RNum) y cont s a r j t b, (1 <= pMaxHist p)%nat -> reached lu p a ->
  solve lu p y cont s a = Ok r -> nth_error (rTrace r) j = Some (t, b) ->
  let nb := length (aRB b) in
  let res := fun k => real (getResidual y (nth k (pastSystems (rTrace r) j) t)) in
  nb = Nat.min ((if cont then length (aRB a) else 0) + j) (pMaxHist p) /\
  (forall m k, (m < nb)%nat -> (k < nb)%nat ->
     aU b m k = Some (dotR (pElem p) (bvec (aRB b) m) (bvec (aRB b) k))) /\
  (forall m, (m < nb)%nat -> (m < j)%nat -> forall i, (i < pElem p)%nat -> bvec (aRB b) m i = res m i - res (S m) i) /\
  ((0 < j)%nat -> forall m, (m < nb)%nat -> aV b m = Some (dotR (pElem p) (res 0%nat) (bvec (aRB b) m))).
Proof.
  intros lu p y cont s a r j t b Hmh HR E Hj nb res.
  destruct (solve_traced RNum mulComm_R lu p y cont s a r Hmh HR E) as [T L].
  destruct (T j t b Hj) as (T0 & _ & TG & TL & TC & _ & _ & _ & TD & _ & _ & TM).
  rewrite app_nil_r in T0. replace (S j) with (j + 1)%nat in T0 by lia.
  change (rev (map fst (firstn (j + 1) (rTrace r)))) with (pastSystems (rTrace r) j) in T0.
  assert (HPl : length (pastSystems (rTrace r) j) = S j).
  { unfold pastSystems. rewrite rev_length, map_length, firstn_length.
    assert (j < length (rTrace r))%nat by (apply nth_error_Some; congruence). lia. }
  assert (Hnth : forall k, (k <= j)%nat -> (k <= pMaxHist p)%nat ->
    nth k (aRH b) zeroV = getResidual y (nth k (pastSystems (rTrace r) j) t)).
  { intros k Hk Hk2. rewrite T0.
    rewrite <- (map_nth (getResidual y)).
    set (l := map (getResidual y) (pastSystems (rTrace r) j)) in *.
    assert (Hll : (k < length l)%nat) by (unfold l; rewrite map_length; lia).
    clearbody l. clear - Hll Hk2.
    assert (k < pMaxHist p + 1)%nat by lia. clear Hk2.
    revert k Hll H. generalize (pMaxHist p + 1)%nat. induction l as [|x l IH]; intros q k Hll Hq; [cbn [length] in Hll; lia|].
    destruct q; [lia|]. destruct k; [reflexivity|]. cbn [firstn nth]. apply IH; cbn [length] in Hll; lia. }
  split; [exact (L j t b Hj)|]. split; [|split].
  - intros m k Hm Hk. specialize (TG m k Hm Hk).
    destruct (dot_R_fin _ _ _ _ TG) as [F1 F2]. rewrite dot_R in TG by assumption. injection TG as <-. reflexivity.
  - intros m Hm Hmj i Hi.
    assert (HmC : (m < pMaxHist p)%nat) by lia.
    assert (HSm : (S m < length (aRH b))%nat).
    { rewrite T0, firstn_length, map_length, HPl. lia. }
    specialize (TD m HSm Hm). unfold bvec. 
    rewrite TD.
    rewrite (Hnth m), (Hnth (S m)) by lia. unfold res, real, subVV.
    cbn [RNum nsub].
    assert (F : fin (pElem p) (nth m (aRB b) zeroV)).
    { apply (dot_R_fin (pElem p) (nth m (aRB b) zeroV) (nth m (aRB b) zeroV) (aU b m m)).
      pose proof (T j t b Hj) as TT. destruct TT as (_ & _ & TG' & _). exact (TG' m m Hm Hm). }
    specialize (F i Hi). rewrite TD in F. unfold subVV in F. rewrite (Hnth m), (Hnth (S m)) in F by lia.
    cbn [RNum nsub] in F.
    destruct (getResidual y (nth m (pastSystems (rTrace r) j) t) i), (getResidual y (nth (S m) (pastSystems (rTrace r) j) t) i);
      cbn [lift2 val] in *; try congruence; reflexivity.
  - intros Hj0 m Hm. destruct (TM ltac:(lia)) as [[MV _] _]. specialize (MV m Hm).
    destruct (dot_R_fin _ _ _ _ MV) as [F1 F2]. rewrite dot_R in MV by assumption. injection MV as <-.
    f_equal. unfold dotR. apply rsum_ext. intros i Hi. f_equal. unfold res, real.
    rewrite <- (Hnth 0%nat) by lia. destruct (aRH b); reflexivity.
Qed.

Lemma dotR_comb n nb (b : nat -> nat -> R) (x : nat -> R) (v : nat -> R) :
  dotR n v (fun i => rsum nb (fun m => x m * b m i)) = rsum nb (fun m => x m * dotR n v (b m)).
Proof.
  unfold dotR.
  rewrite (rsum_ext n _ (fun i => rsum nb (fun m => x m * (v i * b m i)))).
  2: { intros i Hi. rewrite <- rsum_scal. apply rsum_ext. intros m Hm. ring. }
  rewrite rsum_swap. apply rsum_ext. intros m Hm. apply rsum_scal.
Qed.
Lemma dotR_comm n a b : dotR n a b = dotR n b a.
Proof. unfold dotR. apply rsum_ext. intros. ring. Qed.

(** A residual orthogonal to all basis vectors is minimal in the affine space. *)
Lemma orthogonal_minimal n nb (b : nat -> nat -> R) (r c x : nat -> R) :
  (forall m, (m < nb)%nat -> dotR n (combine_ r nb b c) (b m) = 0) ->
  dotR n (combine_ r nb b c) (combine_ r nb b c) <= dotR n (combine_ r nb b x) (combine_ r nb b x).
Proof.
  intros H. set (t := combine_ r nb b c) in *.
  set (d := fun i => rsum nb (fun m => (x m - c m) * b m i)).
  assert (E : forall i, combine_ r nb b x i = t i + d i).
  { intros i. unfold t, combine_, d. rewrite Rplus_assoc, <- rsum_plus. f_equal. apply rsum_ext. intros m Hm. ring. }
  assert (O : dotR n t d = 0).
  { unfold d. rewrite dotR_comb. rewrite <- (rsum_zero nb). apply rsum_ext. intros m Hm. rewrite H by assumption. ring. }
  assert (X : dotR n (combine_ r nb b x) (combine_ r nb b x) = dotR n t t + 2 * dotR n t d + dotR n d d).
  { unfold dotR. rewrite <- rsum_scal, <- !rsum_plus. apply rsum_ext. intros i Hi. rewrite E. ring. }
  rewrite X, O. assert (0 <= dotR n d d) by (unfold dotR; apply rsum_pos_le; intros; nra). lra.
Qed.

Lemma sumsq_zero n (f : nat -> R) : rsum n (fun i => f i * f i) = 0 -> forall i, (i < n)%nat -> f i = 0.
Proof.
  induction n as [|n IH]; intros H i Hi; [lia|]. cbn [rsum] in H.
  pose proof (sumsq_pos n f). assert (0 <= f n * f n) by nra.
  destruct (Nat.eq_dec i n) as [->|]; [nra|]. apply IH; [lra|lia].
Qed.

Lemma gram_nonsingular n nb (b : nat -> nat -> R) : independent n nb b ->
  forall x, (forall i, (i < nb)%nat -> rsum nb (fun j => dotR n (b i) (b j) * x j) = 0) -> forall j, (j < nb)%nat -> x j = 0.
Proof.
  intros HI x Hx. apply HI. set (d := fun i => rsum nb (fun m => x m * b m i)).
  apply (sumsq_zero n d). change (dotR n d d = 0). unfold d at 2. rewrite dotR_comb.
  rewrite <- (rsum_zero nb). apply rsum_ext. intros m Hm. rewrite dotR_comm. unfold d. rewrite dotR_comb.
  rewrite (rsum_ext nb _ (fun j => dotR n (b m) (b j) * x j)) by (intros; ring). rewrite Hx by assumption. ring.
Qed.

(** C38, second part: after the first iteration of a solve, with linearly
    independent differences, the trial residual is the shortest vector that can be
    reached by adding a combination of the differences to the current residual
    (hence a stationary point of the norm), and the trial state is the same
    combination of the state differences plus the correction lambda times the
    trial residual. *)
Theorem C38_trial_minimises_residual :
  forall lu (p : params RNum) y cont s a r j t b lam,
  (1 <= pMaxHist p)%nat -> (forall n, (2 <= n <= pMaxHist p)%nat -> luSpec lu n) ->
  reached lu p a -> solve lu p y cont s a = Ok r ->
  nth_error (rTrace r) j = Some (t, b) -> (0 < j)%nat ->
  let nb := length (aRB b) in
  independent (pElem p) nb (bvec (aRB b)) ->
  computeLambda p nb = Some lam ->
  exists c : nat -> R,
    (forall i, (i < pElem p)%nat -> aRT b i = Some (combine_ (real (getResidual y t)) nb (bvec (aRB b)) c i)) /\
    (forall i, (i < pElem p)%nat ->
       aST b i = Some (combine_ (real (getCurrent y t)) nb (bvec (aSB b)) c i + lam * real (aRT b) i)) /\
    (forall m, (m < nb)%nat -> dotR (pElem p) (real (aRT b)) (bvec (aRB b) m) = 0) /\
    (forall x, dotR (pElem p) (real (aRT b)) (real (aRT b)) <=
               dotR (pElem p) (combine_ (real (getResidual y t)) nb (bvec (aRB b)) x)
                              (combine_ (real (getResidual y t)) nb (bvec (aRB b)) x)).
Proof.
  intros lu p y cont s a r j t b lam Hmh HLU HR E Hj Hj0 nb HI HLam.
  destruct (solve_total lu p y cont s a Hmh HR) as (r' & E' & _ & HAF).
  rewrite E in E'. injection E' as <-. specialize (HAF t b (nth_error_In _ _ Hj)). destruct HAF as (FSH & _ & HFS & _).
  destruct (C38_inner_product_matrix lu p y cont s a r j t b Hmh HR E Hj) as (_ & HU & _ & HV).
  specialize (HV Hj0). cbv zeta in HU, HV. fold nb in HU, HV.
  destruct (solve_traced RNum mulComm_R lu p y cont s a r Hmh HR E) as [T L].
  destruct (T j t b Hj) as (TRH & TSH & TG & TL & TC & NR & NS & _ & _ & TRT & TST & TM).
  destruct (TM ltac:(lia)) as [[MV MC] Hnb]. fold nb in MV, MC, Hnb, TL, TC, TST.
  assert (Hlast : rev (map fst (firstn (S j) (rTrace r))) = t :: rev (map fst (firstn j (rTrace r)))).
  { assert (HF : firstn (S j) (rTrace r) = firstn j (rTrace r) ++ [(t, b)]).
    { clear - Hj. revert j Hj. induction (rTrace r) as [|q l IH]; intros j Hj; [destruct j; discriminate|].
      destruct j; cbn [nth_error] in Hj; [injection Hj as ->; reflexivity|].
      rewrite !firstn_cons. rewrite (IH j Hj). reflexivity. }
    rewrite HF, map_app, rev_app_distr. reflexivity. }
  assert (HhdR : hd zeroV (aRH b) = getResidual y t).
  { rewrite TRH, app_nil_r, Hlast, Nat.add_1_r. reflexivity. }
  assert (HhdS : hd zeroV (aSH b) = getCurrent y t).
  { rewrite TSH, app_nil_r, Hlast, Nat.add_1_r. reflexivity. }
  assert (H0 : nth 0 (pastSystems (rTrace r) j) t = t).
  { unfold pastSystems. replace (j + 1)%nat with (S j) by lia. rewrite Hlast. reflexivity. }
  rewrite H0 in HV.
  rewrite HhdR in TRT, MV. rewrite HhdS in TST.
  set (n := pElem p) in *. set (B := bvec (aRB b)) in *. set (r0 := real (getResidual y t)) in *.
  assert (FR : finAll n (aRB b)).
  { apply Forall_forall. intros v Hv. apply (In_nth _ _ (fun _ => Some 0)) in Hv. destruct Hv as (m & Hm & <-).
    apply (dot_R_fin n _ _ _ (TG m m Hm Hm)). }
  assert (Fr : fin n (getResidual y t)) by apply (dot_R_fin n _ _ _ (MV 0%nat Hnb)).
  (* coefficients *)
  assert (HC : exists c, (forall m, (m < nb)%nat -> aC b m = Some (c m)) /\
     (forall m, (m < nb)%nat -> rsum nb (fun k => dotR n (B m) (B k) * c k) = - dotR n r0 (B m))).
  { pose proof (gram_nonsingular n nb B HI) as HG.
    destruct (Nat.eq_dec nb 1) as [E1|E1].
    - assert (Hne : dotR n (B 0%nat) (B 0%nat) <> 0).
      { intros Hz. assert (HX : forall i, (i < nb)%nat -> rsum nb (fun k => dotR n (B i) (B k) * 1) = 0).
        { intros i Hi. assert (i = 0%nat) by lia. subst i. rewrite E1. cbn [rsum]. lra. }
        specialize (HG (fun _ => 1) HX 0%nat Hnb). cbn beta in HG. lra. }
      exists (fun _ => - (dotR n r0 (B 0%nat) / dotR n (B 0%nat) (B 0%nat))). split.
      + intros m Hm. rewrite MC by assumption. rewrite E1. cbn [Nat.eqb].
        rewrite HU, HV by lia. cbn [RNum ndiv divR nopp option_map]. destruct (Req_EM_T _ _); [contradiction|]. reflexivity.
      + intros m Hm. assert (m = 0%nat) by lia. subst m. rewrite E1. cbn [rsum]. field. assumption.
    - destruct (HLU nb ltac:(lia) (fun m k => dotR n (B m) (B k)) (fun m => dotR n r0 (B m)) HG (aU b) (aV b) HU HV) as (x & Hx1 & Hx2).
      exists (fun m => - x m). split.
      + intros m Hm. rewrite MC by assumption. rewrite (proj2 (Nat.eqb_neq nb 1) E1). rewrite Hx1 by assumption. reflexivity.
      + intros m Hm. rewrite <- (Hx2 m Hm). rewrite <- rsum_opp. apply rsum_ext. intros k Hk. ring. }
  destruct HC as (c & Hc1 & Hc2). exists c.
  assert (HcN : forall m, (m < length (aRB b))%nat -> aC b (0 + m)%nat <> None) by (intros m Hm; cbn [Nat.add]; rewrite Hc1 by exact Hm; discriminate).
  destruct (addEqVectors_R n (aRB b) (getResidual y t) (aC b) 0 Fr FR HcN) as [F1 V1].
  assert (HRT : forall i, (i < n)%nat -> aRT b i = Some (combine_ r0 nb B c i)).
  { intros i Hi. rewrite TRT. rewrite (fin_val n _ i F1 Hi). rewrite V1 by assumption. f_equal.
    unfold combine_. f_equal. apply rsum_ext. intros m Hm. cbn [Nat.add]. rewrite Hc1 by exact Hm. reflexivity. }
  assert (Hreal : forall (v : nat -> R), dotR n (real (aRT b)) v = dotR n (combine_ r0 nb B c) v).
  { intros v. unfold dotR. apply rsum_ext. intros i Hi. unfold real. rewrite HRT by assumption. reflexivity. }
  assert (HO : forall m, (m < nb)%nat -> dotR n (combine_ r0 nb B c) (B m) = 0).
  { intros m Hm. rewrite dotR_comm. 
    replace (dotR n (B m) (combine_ r0 nb B c)) with (dotR n (B m) r0 + dotR n (B m) (fun i => rsum nb (fun k => c k * B k i))).
    2: { unfold dotR, combine_. rewrite <- rsum_plus. apply rsum_ext. intros i Hi. ring. }
    rewrite dotR_comb. rewrite (rsum_ext nb _ (fun k => dotR n (B m) (B k) * c k)) by (intros; ring).
    rewrite Hc2 by assumption. rewrite (dotR_comm n (B m)). ring. }
  split; [exact HRT|]. split; [|split].
  - intros i Hi. rewrite TST. unfold addEqVc. rewrite HLam, HRT by assumption.
    assert (Fs : fin n (getCurrent y t)) by (rewrite <- HhdS; apply (finAll_hd _ _ FSH)).
    assert (HcN' : forall m, (m < length (aSB b))%nat -> aC b (0 + m)%nat <> None) by (intros m Hm; apply HcN; lia).
    destruct (addEqVectors_R n (aSB b) (getCurrent y t) (aC b) 0 Fs HFS HcN') as [F2 V2].
    rewrite (fin_val n _ i F2 Hi). rewrite V2 by assumption. cbn [RNum nadd nmul lift2]. unfold real. rewrite HRT by assumption.
    cbn [val]. f_equal. f_equal. unfold combine_, real. f_equal.
    match goal with |- rsum _ ?F = _ => transitivity (rsum nb F); [exact (f_equal (fun q => rsum q F) TL)|] end.
    apply rsum_ext. intros m Hm. cbn [Nat.add].
    rewrite Hc1 by exact Hm. reflexivity.
  - intros m Hm. rewrite Hreal. apply HO. exact Hm.
  - intros x. rewrite Hreal, dotR_comm, Hreal. apply orthogonal_minimal. exact HO.
Qed.

(** The hypotheses can be met: a solver for sizes up to 2, and a system of two
    elements whose residual rotates, for which the second iteration has one
    nonzero difference. *)
Definition lu2 (n : nat) (U : nat -> nat -> nT RNum) (v : nat -> nT RNum) (i : nat) : nT RNum :=
  let u := fun i j => val (U i j) in let w := fun i => val (v i) in
  let det := u 0%nat 0%nat * u 1%nat 1%nat - u 0%nat 1%nat * u 1%nat 0%nat in
  match i with
  | O => Some ((u 1%nat 1%nat * w 0%nat - u 0%nat 1%nat * w 1%nat) / det)
  | _ => Some ((u 0%nat 0%nat * w 1%nat - u 1%nat 0%nat * w 0%nat) / det)
  end.
Example lu2_spec : luSpec lu2 2.
Proof.
  intros A v HA U w HU Hw.
  set (det := A 0%nat 0%nat * A 1%nat 1%nat - A 0%nat 1%nat * A 1%nat 0%nat).
  assert (Hd : det <> 0).
  { intros Hz. assert (H1 := HA (fun j => match j with O => A 1%nat 1%nat | _ => - A 1%nat 0%nat end)).
    assert (H2 := HA (fun j => match j with O => - A 0%nat 1%nat | _ => A 0%nat 0%nat end)).
    assert (E1 : A 1%nat 1%nat = 0).
    { apply (H1 ltac:(intros i Hi; cbn [rsum]; destruct i as [|[|i]]; [unfold det in Hz; lra|lra|lia]) 0%nat). lia. }
    assert (E2 : A 0%nat 0%nat = 0).
    { apply (H2 ltac:(intros i Hi; cbn [rsum]; destruct i as [|[|i]]; [lra|unfold det in Hz; lra|lia]) 1%nat). lia. }
    assert (E3 : - A 1%nat 0%nat = 0).
    { apply (H1 ltac:(intros i Hi; cbn [rsum]; destruct i as [|[|i]]; [unfold det in Hz; lra|lra|lia]) 1%nat). lia. }
    assert (E4 : - A 0%nat 1%nat = 0).
    { apply (H2 ltac:(intros i Hi; cbn [rsum]; destruct i as [|[|i]]; [lra|unfold det in Hz; lra|lia]) 0%nat). lia. }
    assert (E5 := HA (fun _ => 1) ltac:(intros i Hi; cbn [rsum]; destruct i as [|[|i]]; [lra|lra|lia]) 0%nat ltac:(lia)).
    cbn beta in E5. lra. }
  exists (fun i => match i with O => (A 1%nat 1%nat * v 0%nat - A 0%nat 1%nat * v 1%nat) / det
                           | _ => (A 0%nat 0%nat * v 1%nat - A 1%nat 0%nat * v 0%nat) / det end).
  split.
  - intros i Hi. unfold lu2. rewrite !HU, !Hw by lia. destruct i; reflexivity.
  - intros i Hi. cbn [rsum]. destruct i as [|[|i]]; [| |lia]; unfold det in *; field; assumption.
Qed.

Definition exSys : system RNum :=
  mkSys RNum nat (fun s i => Some (INR s)) (fun s i => if (i =? Nat.modulo s 2)%nat then Some 1 else Some 0)
        (fun _ s => S s) (fun s => s).
Definition exPar : params RNum := mkParams RNum (Some 0) 5 2 (Some 1) true (Some (9/10)) NormResid 2.

Lemma ex_loop left : forall itr s a r, loop lu2 exPar exSys left itr s a = Ok r ->
  map fst (rTrace r) = seq s left.
Proof.
  induction left as [|left IH]; intros itr s a r H; cbn [loop] in H.
  - injection H as <-. reflexivity.
  - destruct (computeError_R exPar (getResidual exSys s) (getCurrent exSys s)) as (m & _ & E).
    + intros i Hi. cbn [exSys getResidual]. destruct (i =? _)%nat; discriminate.
    + intros i Hi. discriminate.
    + rewrite E in H. cbn [exPar pErr pElem bind pEps] in H.
      assert (Hnl : nlt (n := RNum) (Some (nrm 2 (getResidual exSys s))) (Some 0) = false).
      { cbn [RNum nlt ltR]. destruct (Rlt_dec _ 0) as [L|L]; [|reflexivity]. exfalso.
        pose proof (sqrt_pos (rsum 2 (fun i => val (getResidual exSys s i) * val (getResidual exSys s i)))). unfold nrm in L. lra. }
      rewrite Hnl in H.
      destruct (computeTrialCoeff _ _ _ _) as [a2| | |]; cbn [bind] in H; try discriminate.
      match type of H with bind ?x _ = _ => destruct x as [r1| | |] eqn:E3 end; cbn [bind] in H; try discriminate.
      injection H as <-. cbn [rTrace map fst seq]. f_equal. apply (IH _ _ _ _ E3).
Qed.

Example C38_example : exists r t b,
  solve lu2 exPar exSys false 0%nat (am0 (N := RNum) (fun _ _ => None) (fun _ => None) (fun _ => None) (fun _ => None) (fun _ => None)) = Ok r /\
  nth_error (rTrace r) 1 = Some (t, b) /\ length (aRB b) = 1%nat /\ independent 2 1 (bvec (aRB b)).
Proof.
  set (a0 := am0 _ _ _ _ _).
  destruct (solve_total lu2 exPar exSys false 0%nat a0 ltac:(cbn; lia) (reach_first _ _ _ _ _ _ _)) as (r & E & _ & _).
  assert (HT : map fst (rTrace r) = [0; 1; 2; 3; 4]%nat) by (rewrite solve_start in E; apply (ex_loop _ _ _ _ _ E)).
  destruct (nth_error (rTrace r) 1) as [[t b]|] eqn:Ej.
  2: { apply nth_error_None in Ej. apply (f_equal (@length _)) in HT. rewrite map_length in HT. cbn [length] in HT. lia. }
  exists r, t, b. split; [exact E|]. split; [exact Ej|].
  destruct (C38_inner_product_matrix lu2 exPar exSys false 0%nat a0 r 1%nat t b ltac:(cbn; lia) (reach_first _ _ _ _ _ _ _) E Ej)
    as (HL & _ & HD & _). cbv zeta in HD.
  split; [exact HL|]. change (pMaxHist exPar) with 2%nat in HL. cbn in HL.
  assert (HP : pastSystems (rTrace r) 1 = [1; 0]%nat).
  { unfold pastSystems. rewrite <- firstn_map, HT. reflexivity. }
  assert (H0 : bvec (aRB b) 0%nat 0%nat = -1).
  { rewrite (HD 0%nat) by (rewrite ?HL; cbn; lia). rewrite HP. cbn. lra. }
  intros x Hx m Hm. specialize (Hx 0%nat ltac:(lia)). cbn [rsum] in Hx. rewrite H0 in Hx.
  assert (m = 0)%nat by lia. subst m. lra.
Qed.

(** C38: in a continuation the first iteration combines the differences kept from
    the previous solve with the coefficients of the previous solve, which do not
    refer to the current residual.  In double precision, for a system of one
    element, the trial residual is then larger than the residual itself. *)
Definition f1 (z : Z) : nat -> nT FNum := fun i => if (i =? 0)%nat then fOf z else fOf 0.
Definition seqSys (res : nat -> Z) : system FNum := mkSys FNum nat (fun s => f1 (Z.of_nat s)) (fun s => f1 (res s)) (fun _ s => S s) (fun s => s).
Definition fPar (maxItr : nat) : params FNum := mkParams FNum (S754_zero false) maxItr 2 (fOf 1) false (fOf 0) NormResid 1.
Definition anyLu (n : nat) (U : nat -> nat -> nT FNum) (v : nat -> nT FNum) (i : nat) : nT FNum := fOf 0.
Definition fam0 : am FNum := am0 (N := FNum) (fun _ _ => fOf 0) (fun _ => fOf 0) (fun _ => fOf 0) (fun _ => fOf 0) (fun _ => fOf 0).
Theorem C38_continuation_stale_coefficients_refuted :
  exists (y1 y2 : system FNum) (s1 : sS y1) (s2 : sS y2) r1 r2 t b n0 n1,
    solve anyLu (fPar 2) y1 false s1 fam0 = Ok r1 /\
    solve anyLu (fPar 1) y2 true s2 (rAm r1) = Ok r2 /\
    nth_error (rTrace r2) 0 = Some (t, b) /\ aRB b <> [] /\
    norm 1 (getResidual y2 t) = Some n0 /\ norm 1 (aRT b) = Some n1 /\ nlt n0 n1 = true.
Proof.
  exists (seqSys (fun s => match s with O => 4 | _ => 3 end)%Z), (seqSys (fun _ => (-1)%Z)), 0%nat, 0%nat.
  assert (E1 : match solve anyLu (fPar 2) (seqSys (fun s => match s with O => 4 | _ => 3 end)%Z) false 0%nat fam0 with
    | Ok r1 => match solve anyLu (fPar 1) (seqSys (fun _ => (-1)%Z)) true 0%nat (rAm r1) with
       | Ok r2 => match nth_error (rTrace r2) 0 with
                  | Some (t, b) => match norm 1 (getResidual (seqSys (fun _ => (-1)%Z)) t), norm 1 (aRT b) with
                     | Some n0, Some n1 => nlt n0 n1 && negb (length (aRB b) =? 0)%nat | _, _ => false end
                  | None => false end
       | _ => false end
    | _ => false end = true) by (vm_compute; reflexivity).
  destruct (solve anyLu (fPar 2) _ false _ fam0) as [r1| | |]; try discriminate.
  destruct (solve anyLu (fPar 1) _ true _ (rAm r1)) as [r2| | |] eqn:E2; try discriminate.
  destruct (nth_error (rTrace r2) 0) as [[t b]|] eqn:E3; [|discriminate].
  destruct (norm 1 (getResidual _ t)) as [n0|] eqn:E4; [|discriminate].
  destruct (norm 1 (aRT b)) as [n1|] eqn:E5; [|discriminate].
  apply andb_prop in E1. destruct E1 as [E1 E6].
  exists r1, r2, t, b, n0, n1. repeat split; try assumption; try reflexivity.
  intros E. rewrite E in E6. discriminate.
Qed.

(* ================= C39 ================= *)
(** The systems of a solve: the initial fields evaluated, then k rounds of
    changing the fields and evaluating. *)
Inductive rounds {N : num} (y : system N) (s : sS y) : nat -> sS y -> Prop :=
| rounds_0 : rounds y s 0 (evaluate y s)
| rounds_S : forall k t x, rounds y s k t -> rounds y s (S k) (evaluate y (sUpdate y x t)).

(** The error of a residual r and state w, in mathematical terms. *)
Definition errorBelow (ty : errType) (n : nat) (eps : R) (r w : nat -> R) : Prop :=
  match ty with
  | MaxResid => forall i, (i < n)%nat -> Rabs (r i) < eps
  | NormResid => sqrt (dotR n r r) < eps
  | RmsResid => sqrt (dotR n r r / INR n) < eps
  | RelNormResid => sqrt (dotR n r r) < eps * sqrt (dotR n w w)
  end.

Lemma loop_rounds N lu (p : params N) (y : system N) s0 left : forall itr s a r k,
  rounds y s0 k s -> loop lu p y left itr s a = Ok r ->
  exists k', rounds y s0 k' (rSys r) /\ (k <= k' <= k + left)%nat /\
    ((rCode r = 0%nat /\ (k' < k + left)%nat /\ exists e, computeError p (getResidual y (rSys r)) (getCurrent y (rSys r)) = Some (Ok e) /\ nlt e (pEps p) = true)
     \/ (rCode r = 1%nat /\ (k' = (k + left)%nat \/ computeError p (getResidual y (rSys r)) (getCurrent y (rSys r)) = None))).
Proof.
  induction left as [|left IH]; intros itr s a r k HK H; cbn [loop] in H.
  - injection H as <-. exists k. cbn [rSys rCode]. split; [assumption|]. split; [lia|]. right. split; [reflexivity|]. left. lia.
  - destruct (computeError p (getResidual y s) (getCurrent y s)) as [o|] eqn:EE.
    2: { injection H as <-. exists k. cbn [rSys rCode]. split; [assumption|]. split; [lia|]. right. split; [reflexivity|]. right. exact EE. }
    destruct o as [e| | |]; cbn [bind] in H; try discriminate.
    destruct (nlt e (pEps p)) eqn:EN.
    { injection H as <-. exists k. cbn [rSys rCode]. split; [assumption|]. split; [lia|]. left. split; [reflexivity|]. split; [lia|]. exists e. auto. }
    destruct (computeTrialCoeff _ _ _ _) as [a2| | |]; cbn [bind] in H; try discriminate.
    match type of H with bind ?x _ = _ => destruct x as [r1| | |] eqn:E3 end; cbn [bind] in H; try discriminate.
    injection H as <-. cbn [rSys rCode].
    destruct (IH _ _ _ _ (S k) (rounds_S y s0 k _ _ HK) E3) as (k' & H1 & H2 & H3).
    exists k'. split; [exact H1|]. split; [lia|].
    destruct H3 as [(A & B & C)|(A & B)]; [left; split; [exact A|split; [lia|exact C]]|right; split; [exact A|]].
    destruct B as [B|B]; [left; lia|right; exact B].
Qed.

(** C39 (reals): solve returns 0 only if the residual of the fields left in the
    system, just evaluated, is below the tolerance; it returns 1 only if maxItr
    changes of the fields have been made or the error cannot be evaluated (a
    non-finite residual or state); at most maxItr changes are made; and it always
    returns, without any other exception. *)
Theorem C39_solve_result : forall lu (p : params RNum) y cont s a, (1 <= pMaxHist p)%nat -> reached lu p a ->
  exists r k, solve lu p y cont s a = Ok r /\ rounds y s k (rSys r) /\ (k <= pMaxItr p)%nat /\
    let rs := getResidual y (rSys r) in let st := getCurrent y (rSys r) in
    ((rCode r = 0%nat /\ (k < pMaxItr p)%nat /\ fin (pElem p) rs /\ fin (pElem p) st /\
      exists eps, pEps p = Some eps /\ ((0 < pElem p)%nat -> errorBelow (pErr p) (pElem p) eps (real rs) (real st)))
     \/ (rCode r = 1%nat /\ (k = pMaxItr p \/ ~ (fin (pElem p) rs /\ fin (pElem p) st)))).
Proof.
  intros lu p y cont s a Hmh HR. destruct (solve_total lu p y cont s a Hmh HR) as (r & E & _ & _).
  destruct (loop_rounds RNum lu p y s _ _ _ _ r 0%nat (rounds_0 y s) E) as (k & H1 & H2 & H3).
  exists r, k. split; [exact E|]. split; [exact H1|]. split; [lia|]. cbv zeta.
  set (rs := getResidual y (rSys r)) in *. set (st := getCurrent y (rSys r)) in *.
  destruct H3 as [(A & B & e & C & D)|(A & B)].
  - left. split; [exact A|]. split; [lia|].
    assert (HF : fin (pElem p) rs /\ fin (pElem p) st).
    { destruct (fin_dec (pElem p) rs) as [F1|F1]; [|rewrite computeError_R_nan in C by tauto; discriminate].
      destruct (fin_dec (pElem p) st) as [F2|F2]; [|rewrite computeError_R_nan in C by tauto; discriminate]. auto. }
    destruct HF as [F1 F2]. split; [exact F1|]. split; [exact F2|].
    destruct (computeError_R p rs st F1 F2) as (m & [Hm Hmax] & EC). rewrite EC in C. injection C as <-.
    destruct (pEps p) as [eps|]; [|cbn [RNum nlt ltR] in D; destruct (match pErr p with MaxResid => _ | _ => _ end); discriminate].
    exists eps. split; [reflexivity|]. intros Hn. unfold errorBelow.
    change (dotR (pElem p) (real rs) (real rs)) with (rsum (pElem p) (fun i => val (rs i) * val (rs i))).
    change (dotR (pElem p) (real st) (real st)) with (rsum (pElem p) (fun i => val (st i) * val (st i))).
    fold (nrm (pElem p) rs). fold (nrm (pElem p) st).
    destruct (pErr p); cbn [RNum nlt ltR divR sqrtR] in D.
    + destruct (Rlt_dec m eps) as [L|L]; [|discriminate]. intros i Hi. specialize (Hmax i Hi). unfold real. lra.
    + destruct (Rlt_dec _ eps) as [L|L]; [exact L|discriminate].
    + assert (Hp : 0 < INR (pElem p)) by (apply lt_0_INR; lia).
      assert (Hs : 0 < sqrt (INR (pElem p))) by (apply sqrt_lt_R0; assumption).
      destruct (Rlt_dec (INR (pElem p)) 0); [lra|].
      destruct (Req_EM_T (sqrt (INR (pElem p))) 0); [lra|]. cbn [ltR] in D.
      destruct (Rlt_dec _ eps) as [L|L]; [|discriminate].
      rewrite sqrt_div_alt by assumption. exact L.
    + destruct (Req_EM_T (nrm (pElem p) st) 0) as [Z|Z]; [discriminate|]. cbn [ltR] in D.
      destruct (Rlt_dec _ eps) as [L|L]; [|discriminate].
      assert (Hs : 0 < nrm (pElem p) st) by (unfold nrm in *; pose proof (sqrt_pos (rsum (pElem p) (fun i => val (st i) * val (st i)))); lra).
      apply (Rmult_lt_compat_r (nrm (pElem p) st)) in L; [|exact Hs].
      unfold Rdiv in L. rewrite Rmult_assoc, Rinv_l, Rmult_1_r in L by assumption. exact L.
  - right. split; [exact A|]. destruct B as [B|B]; [left; lia|right].
    intros [F1 F2]. destruct (computeError_R p rs st F1 F2) as (m & _ & EC). congruence.
Qed.

(** Over any arithmetic, including IEEE doubles: a return value 0 means that the
    error computed from the current fields compares below epsilon. *)
Theorem C39_success_any_arithmetic : forall (N : num) lu (p : params N) y cont s a r,
  solve lu p y cont s a = Ok r -> rCode r = 0%nat ->
  exists k e, rounds y s k (rSys r) /\ (k < pMaxItr p)%nat /\
    computeError p (getResidual y (rSys r)) (getCurrent y (rSys r)) = Some (Ok e) /\ nlt e (pEps p) = true.
Proof.
  intros N lu p y cont s a r E H.
  destruct (loop_rounds N lu p y s _ _ _ _ r 0%nat (rounds_0 y s) E) as (k & H1 & H2 & H3).
  destruct H3 as [(A & B & e & C & D)|(A & _)]; [|congruence].
  exists k, e. split; [exact H1|]. split; [lia|]. auto.
Qed.

(** C39, exceptions: in double precision two successive residuals that are
    infinite give an undefined difference; the NanException raised by its inner
    product in computeTrialCoeff is outside the try block and leaves solve. *)
Definition infSys : system FNum :=
  mkSys FNum nat (fun _ => f1 1) (fun _ _ => S754_infinity false) (fun _ s => S s) (fun s => s).
Theorem C39_infinite_residual_escapes_refuted :
  exists (y : system FNum) (s : sS y), (forall t i, getResidual y t i <> S754_nan) /\
    solve anyLu (fPar 100) y false s fam0 = Throw.
Proof.
  exists infSys, 0%nat. split; [intros; discriminate|].
  assert (H : match solve anyLu (fPar 100) infSys false 0%nat fam0 with Throw => true | _ => false end = true)
    by (vm_compute; reflexivity).
  destruct (solve anyLu (fPar 100) infSys false 0%nat fam0); [discriminate|reflexivity|discriminate|discriminate].
Qed.

(** Concrete runs in double precision: success, failure, NaN. *)
Definition relaxSys : system FNum :=
  mkSys FNum (nat -> nT FNum) (fun s => s) (fun s i => SFsub 53 1024 (fOf 3) (s i)) (fun x _ => x) (fun s => s).
Definition epsPar (maxItr : nat) : params FNum :=
  mkParams FNum (SFdiv 53 1024 (fOf 1) (fOf 1000)) maxItr 2 (SFdiv 53 1024 (fOf 1) (fOf 2)) true (SFdiv 53 1024 (fOf 9) (fOf 10)) MaxResid 1.
Example C39_run_converges : match solve anyLu (epsPar 100) relaxSys false (fun _ => fOf 0) fam0 with
  | Ok r => (rCode r =? 0)%nat && (1 <=? length (rTrace r))%nat | _ => false end = true.
Proof. vm_compute. reflexivity. Qed.
Example C39_run_fails : match solve anyLu (epsPar 1) relaxSys false (fun _ => fOf 0) fam0 with
  | Ok r => (rCode r =? 1)%nat && (length (rTrace r) =? 1)%nat | _ => false end = true.
Proof. vm_compute. reflexivity. Qed.
Example C39_run_nan : match solve anyLu (epsPar 100) relaxSys false (fun _ => S754_nan) fam0 with
  | Ok r => (rCode r =? 1)%nat && (length (rTrace r) =? 0)%nat | _ => false end = true.
Proof. vm_compute. reflexivity. Qed.

Print Assumptions C38_inner_product_matrix.
Print Assumptions C38_trial_minimises_residual.
Print Assumptions C38_continuation_stale_coefficients_refuted.
Print Assumptions C39_solve_result.
Print Assumptions C39_success_any_arithmetic.
Print Assumptions C39_infinite_residual_escapes_refuted.
