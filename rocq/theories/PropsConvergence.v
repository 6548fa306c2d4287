(** C67: the thread-model solver of the periodic code converges to the
    continuous-chain theory with an error proportional to ds^4. *)
From Coq Require Import Reals ZArith QArith Qreals List Bool Arith Lia Lra Permutation.
From Coquelicot Require Import Coquelicot.
From Coq Require Import List.
From Verif Require Import Base RSum MeshSpec Mesh MeshProofs Fft FftProofs Polymer PolymerSpec PolymerProofs PropsPolymer
  Solve SolveProofs Species R1d R1dProofs PropsR1d Rpc RpcProofs PropsRpc UnitCellProofs FftCompose Expand ExpandProofs
  Convergence ThreadConvergence Simpson ConvergenceSpec.
Import ListNotations.
Local Open Scope R_scope.

Lemma rpcDs_le : forall len ds, 0 < len -> 0 < ds -> rpcDs len ds <= 3 / 2 * ds.
Proof.
  intros len ds Hl Hd. unfold rpcDs, rpcNs, floorZ.
  assert (B := Int_part_bounds (len / (2 * ds) + 1/2)).
  set (t := Int_part (len / (2 * ds) + 1/2)) in *.
  assert (P : 0 < len / (2 * ds)) by (apply Rdiv_lt_0_compat; lra).
  assert (T : (0 <= t)%Z).
  { assert (IZR (-1) < IZR t) by (simpl; lra). apply lt_IZR in H. lia. }
  set (t' := if (t =? 0)%Z then 1%Z else t).
  assert (T' : (1 <= t')%Z /\ (t <= t')%Z) by (unfold t'; destruct (Z.eqb_spec t 0); lia).
  destruct T' as [T1 T2]. apply IZR_le in T1, T2.
  replace (2 * t' + 1 - 1)%Z with (2 * t')%Z by lia. rewrite mult_IZR.
  assert (X : len / (2 * ds) <= 3 / 2 * IZR t') by lra.
  assert (Y : len = len / (2 * ds) * (2 * ds)) by (field; lra).
  apply (Rmult_le_reg_r (2 * IZR t')); [lra|].
  replace (len / (2 * IZR t') * (2 * IZR t')) with len by (field; lra).
  rewrite Y. replace (3 / 2 * ds * (2 * IZR t')) with (3 / 2 * IZR t' * (2 * ds)) by ring.
  apply Rmult_le_compat_r; lra.
Qed.

Lemma lprod_close : forall {A} (l : list A) M E0, 0 <= M -> 0 <= E0 ->
  exists c, 0 <= c /\ forall (f g : A -> R) e, 0 <= e <= E0 ->
    (forall y, In y l -> Rabs (f y - g y) <= e /\ Rabs (g y) <= M) ->
    Rabs (lprod f l - lprod g l) <= c * e /\ Rabs (lprod g l) <= c.
Proof.
  intros A l M E0 PM PE. induction l as [|a l [c [Pc IH]]].
  - exists 1. split; [lra|]. intros f g e He _. cbn [lprod]. rewrite Rminus_diag_eq, Rabs_R0, Rabs_R1 by auto. lra.
  - exists (c + c * E0 + M * c). 
    assert (P1 : 0 <= c * E0) by now apply Rmult_le_pos. assert (P2 : 0 <= M * c) by now apply Rmult_le_pos. split; [lra|].
    intros f g e He H. destruct (IH f g e He) as [H1 H2]. { intros; apply H; now right. }
    destruct (H a (or_introl eq_refl)) as [H3 H4]. cbn [lprod].
    assert (Q : Rabs (lprod f l) <= c + c * E0).
    { replace (lprod f l) with (lprod g l + (lprod f l - lprod g l)) by ring. eapply Rle_trans; [apply Rabs_triang|].
      apply Rplus_le_compat; auto. eapply Rle_trans; [exact H1|]. apply Rmult_le_compat_l; lra. }
    split.
    + replace (f a * lprod f l - g a * lprod g l) with ((f a - g a) * lprod f l + g a * (lprod f l - lprod g l)) by ring.
      eapply Rle_trans; [apply Rabs_triang|]. rewrite !Rabs_mult.
      replace ((c + c * E0 + M * c) * e) with (e * (c + c * E0) + M * (c * e)) by ring.
      apply Rplus_le_compat; apply Rmult_le_compat; auto; apply Rabs_pos.
    + rewrite Rabs_mult. apply Rle_trans with (M * c); [|lra]. apply Rmult_le_compat; auto; apply Rabs_pos.
Qed.

Section G.
Variables (dims : list Z) (K : list Z -> R) (kSq : nat -> R).
Hypothesis Hne : dims <> [].
Hypothesis HP : positive dims.
Hypothesis HK : forall p, in_box dims p -> K (negmod dims p) = K p.
Hypothesis HkSq : forall k, (k < nK dims)%nat -> kSq k = K (gridPos (computeKMesh dims) k).
Notation n := (nR dims).

Lemma even_kSq : evenOn dims kSq.
Proof. exists K. split; auto. Qed.

Lemma lap_opA : forall kuhn wb f i, (i < n)%nat ->
  opA (opX wb) (opY dims kSq kuhn) f i = kuhn * kuhn / 6 * laplacian dims K f i - wb i * f i.
Proof.
  intros kuhn wb f i Hi. unfold opA, opX, opY.
  rewrite (kOp_kern dims Hne HP (fun p => - (kuhn * kuhn / 6) * K p)) by (auto; intros; rewrite ?HK, ?HkSq; auto).
  unfold laplacian. destruct (INR_nR dims HP) as [_ PN].
  rewrite (rsum_ext n (fun s => f s * (1 / INR n) * kern dims (fun p => - (kuhn * kuhn / 6) * K p) i s)
    (fun s => - (kuhn * kuhn / 6) * (rsum n (fun p => K (gridPos dims p) *
       cos (phase dims (gridPos dims p) (gridPos dims i) - phase dims (gridPos dims p) (gridPos dims s))) * f s / INR n))).
  - rewrite rsum_scal. set (Z := rsum n _). ring.
  - intros s _. unfold kern, psi.
    rewrite (rsum_ext n _ (fun p => - (kuhn * kuhn / 6) * (K (gridPos dims p) *
       cos (phase dims (gridPos dims p) (gridPos dims i) - phase dims (gridPos dims p) (gridPos dims s))))) by (intros; ring).
    rewrite rsum_scal. set (Z := rsum n _). field. lra.
Qed.
Lemma mde_solves : forall kuhn wb u, mde dims K kuhn wb u <-> solves n (opA (opX wb) (opY dims kSq kuhn)) u.
Proof.
  intros kuhn wb u. split; intros H t i Hi.
  - rewrite lap_opA by auto. now apply H.
  - rewrite <- lap_opA by auto. now apply H.
Qed.
Lemma bopA : forall kuhn wb, exists B, bop n (opA (opX wb) (opY dims kSq kuhn)) B.
Proof. intros. destruct (bops dims kSq kuhn wb HP) as [B [bX bY]]. exists (B + B). now apply bop_A. Qed.

Lemma block_error : forall len kuhn wb u, 0 < len -> mde dims K kuhn wb u -> exists C, 0 <= C /\
  forall ds h e0, 0 < ds -> 0 <= e0 -> bnd n (fun i => h i - u 0 i) e0 ->
  forall j, (j < Z.to_nat (rpcNs len ds))%nat ->
    bnd n (fun i => qAt (threadSlices dims kSq (Z.to_nat (rpcNs len ds)) kuhn (rpcDs len ds) wb h) j i - u (INR j * rpcDs len ds) i)
      (C * (e0 + ds ^ 4)).
Proof.
  intros len kuhn wb u Hl HU. destruct (bopA kuhn wb) as [B bA].
  destruct (global_error n len _ B _ ltac:(lra) bA (step_expand dims kSq kuhn wb Hne HP even_kSq len ltac:(lra)) u
     (proj1 (mde_solves kuhn wb u) HU)) as [C [PC HC]].
  exists (6 * C). split; [lra|]. intros ds h e0 Hd P0 H0 j Hj.
  destruct (rpcNs_cases len ds Hl Hd) as [m [A1 [A2 [A3 A4]]]].
  assert (LE := rpcDs_le len ds Hl Hd).
  unfold qAt, threadSlices. rewrite nth_iterSlices by auto. rewrite A2 in Hj.
  eapply bnd_le; [apply (HC (Z.to_nat (2 * m)) (rpcDs len ds)) with (e0 := e0); auto|].
  - lra.
  - rewrite INR_IZR_INZ, Z2Nat.id by lia. lra.
  - lia.
  - assert (P4 : 0 <= ds ^ 4) by (apply pow_le; lra).
    assert (X : rpcDs len ds ^ 4 <= 6 * ds ^ 4).
    { apply Rle_trans with ((3 / 2 * ds) ^ 4). { apply pow_incr. lra. } rewrite Rpow_mult_distr.
      apply Rmult_le_compat_r; auto. lra. }
    replace (6 * C * (e0 + ds ^ 4)) with (C * (6 * e0 + 6 * ds ^ 4)) by ring. apply Rmult_le_compat_l; lra.
Qed.

Section T.
Variables (bs : list pblock) (w : nat -> field) (es : list (nat * nat)) (fuel : nat) (p : polymer).
Hypothesis HT : tree es.
Hypothesis HLen : length bs = length es.
Hypothesis HB : Forall (fun b => 0 < pb_length b) bs.
Hypothesis Hf : (2 * length es <= fuel)%nat.
Hypothesis HG : readGraph fuel es = Ok p.
Notation vs := (p_vertices p).
Notation len := (fun b => pb_length (pblockAt bs b)).
Notation kuhn := (fun b => pb_kuhn (pblockAt bs b)).
Notation wb := (fun b => w (pb_monomer (pblockAt bs b))).
Notation slices ds := (rpcSlices Thread dims kSq ds bs w).

Lemma plan_facts : graphVertices es vs /\ Permutation (p_plan p) (allDarts (length es)) /\
  forall l1 y l2, p_plan p = l1 ++ y :: l2 -> forall x, feeds es x y -> In x l1.
Proof.
  destruct (readGraph_tree es fuel HT ltac:(lia)) as [p' [E' [_ [HV [P1 [P2 _]]]]]].
  rewrite HG in E'. inversion E'; subst p'. auto.
Qed.
Lemma in_plan : forall x, In x (p_plan p) <-> is_prop es x.
Proof.
  intros x. destruct plan_facts as [_ [P1 _]]. unfold is_prop. rewrite <- in_allDarts. split; apply Permutation_in; auto.
  apply Permutation_sym; auto.
Qed.
Lemma plan_NoDup : NoDup (p_plan p).
Proof. destruct plan_facts as [_ [P1 _]]. eapply Permutation_NoDup; [apply Permutation_sym; exact P1|apply allDarts_NoDup]. Qed.
Lemma len_pos : forall x, is_prop es x -> 0 < len (fst x).
Proof.
  intros x Hx. rewrite Forall_forall in HB. apply HB. unfold pblockAt. apply nth_In. unfold is_prop in Hx. lia.
Qed.
Lemma sources_feeds : forall x, is_prop es x -> NoDup (sources es vs x) /\ forall y, In y (sources es vs x) <-> feeds es y x.
Proof.
  intros x Hx. destruct plan_facts as [HV _]. destruct HT as [HW _]. split.
  - unfold sources. apply NoDup_filter. unfold headVertex. apply (inIds_NoDup (fun _ _ _ _ => []) true es vs HV).
    change (vertexId (edgeAt es (fst x)) (snd x)) with (s_start es x). apply start_le; auto.
  - intros y. apply (sources_iff (fun _ _ _ _ => []) true es vs HW HV x y Hx).
Qed.

(** The reference propagators exist. *)
Lemma exact_exists : exists U, exactPropagators dims K es len kuhn wb U.
Proof.
  destruct plan_facts as [HV [P1 P2]]. assert (ND := plan_NoDup).
  assert (G : forall l1 l2, p_plan p = l1 ++ l2 -> exists U : nat * bool -> R -> field,
    forall x, In x l1 -> mde dims K (kuhn (fst x)) (wb (fst x)) (U x) /\
      forall i, (i < n)%nat -> U x 0 i = lprod (fun y => U y (len (fst y)) i) (sources es vs x)).
  { induction l1 as [|a l1 IH] using rev_ind; intros l2 EP. { exists (fun _ _ _ => 0). intros x []. }
    rewrite <- app_assoc in EP. cbn [app] in EP. destruct (IH (a :: l2) EP) as [U HU].
    assert (Pa : is_prop es a). { apply in_plan. rewrite EP. apply in_or_app. right. now left. }
    assert (Na : ~ In a l1). { rewrite EP in ND. apply NoDup_remove_2 in ND. intros I. apply ND. apply in_or_app. now left. }
    destruct (bopA (kuhn (fst a)) (wb (fst a))) as [B bA].
    destruct (solution_exists n _ B (fun i => lprod (fun y => U y (len (fst y)) i) (sources es vs a)) bA) as [u [U0 US]].
    exists (fun x => if dart_eqb x a then u else U x). intros x I.
    assert (SRC : forall z, is_prop es z -> (z = a \/ In z l1) -> forall y, In y (sources es vs z) -> y <> a).
    { intros z Pz Hz y Hy ->. apply sources_feeds in Hy; auto. destruct Hz as [->|Hz].
      - destruct Hy as [_ [_ [_ N]]]. now apply N.
      - apply in_split in Hz. destruct Hz as [m1 [m2 ->]]. rewrite <- app_assoc in EP. cbn [app] in EP.
        apply (P2 m1 z (m2 ++ a :: l2) EP) in Hy. apply Na. apply in_or_app. now left. }
    apply in_app_or in I. destruct I as [I|[<-|[]]].
    - assert (N : x <> a) by (intros ->; auto).
      assert (E : dart_eqb x a = false). { destruct (dart_eqb x a) eqn:E; auto. apply dart_eqb_eq in E. congruence. }
      rewrite E. destruct (HU x I) as [H1 H2]. split; auto. intros i Hi. rewrite H2 by auto. apply lprod_ext.
      intros y Hy. assert (Px : is_prop es x). { apply in_plan. rewrite EP. apply in_or_app. now left. }
      assert (Ny := SRC x Px (or_intror I) y Hy).
      destruct (dart_eqb y a) eqn:E2; auto. apply dart_eqb_eq in E2. congruence.
    - rewrite (proj2 (dart_eqb_eq a a) eq_refl). split. { now apply mde_solves. }
      intros i Hi. rewrite U0 by auto. apply lprod_ext. intros y Hy.
      assert (Ny := SRC a Pa (or_introl eq_refl) y Hy).
      destruct (dart_eqb y a) eqn:E2; auto. apply dart_eqb_eq in E2. congruence. }
  destruct (G (p_plan p) [] ltac:(now rewrite app_nil_r)) as [U HU]. exists U. split.
  - intros x Hx. apply HU. now apply in_plan.
  - intros x l i Hx NDl Hl Hi. destruct (HU x (proj2 (in_plan x) Hx)) as [_ H]. rewrite H by auto. apply lprod_perm.
    destruct (sources_feeds x Hx) as [N1 N2]. apply NoDup_Permutation; auto. intros y. rewrite N2, Hl. tauto.
Qed.

Section U.
Variable U : nat * bool -> R -> field.
Hypothesis HU : exactPropagators dims K es len kuhn wb U.
Variable D : R.
Hypothesis HD : 0 < D.

(** Solved propagators of a run with target step ds. *)
Definition solvedAll (ds : R) (st : props) : Prop := forall x, is_prop es x -> solved (slices ds) es vs st x.

Lemma tree_error : exists C, 0 <= C /\ forall ds st, 0 < ds <= D -> solvedAll ds st ->
  forall x, is_prop es x -> exists l, st x = Some l /\
  forall j, (j < pNs Thread ds bs (fst x))%nat ->
    bnd n (fun i => qAt l j i - U x (INR j * pDs Thread ds bs (fst x)) i) (C * ds ^ 4).
Proof.
  destruct plan_facts as [HV [P1 P2]]. destruct HU as [HU1 HU2].
  assert (G : forall l1 l2, p_plan p = l1 ++ l2 -> exists C, 0 <= C /\ forall ds st, 0 < ds <= D -> solvedAll ds st ->
    forall x, In x l1 -> exists l, st x = Some l /\
    forall j, (j < pNs Thread ds bs (fst x))%nat ->
      bnd n (fun i => qAt l j i - U x (INR j * pDs Thread ds bs (fst x)) i) (C * ds ^ 4)).
  { induction l1 as [|a l1 IH] using rev_ind; intros l2 EP. { exists 0. split; [lra|]. intros ds st _ _ x []. }
    rewrite <- app_assoc in EP. cbn [app] in EP. destruct (IH (a :: l2) EP) as [C [PC HC]].
    assert (Pa : is_prop es a). { apply in_plan. rewrite EP. apply in_or_app. right. now left. }
    destruct (sources_feeds a Pa) as [ND SF].
    (* bounds of the exact tails *)
    assert (MB : exists M, 0 <= M /\ forall y i, In y (sources es vs a) -> (i < n)%nat -> Rabs (U y (len (fst y)) i) <= M).
    { clear. induction (sources es vs a) as [|y l [M [PM HM]]]. { exists 0. split; [lra|]. intros ? ? []. }
      destruct (bnd_exists n (U y (len (fst y)))) as [M' [PM' HM']]. exists (M + M'). split; [lra|].
      intros z i [<-|I] Hi. { assert (Q := HM' i Hi). lra. } assert (Q := HM z i I Hi). lra. }
    destruct MB as [M [PM HM]].
    assert (PD4 : 0 <= C * D ^ 4) by (apply Rmult_le_pos; auto; apply pow_le; lra).
    destruct (lprod_close (sources es vs a) M (C * D ^ 4) PM PD4) as [c [Pc LC]].
    destruct (block_error (len (fst a)) (kuhn (fst a)) (wb (fst a)) (U a) (len_pos a Pa) (HU1 a Pa)) as [C' [PC' BE]].
    exists (C + C' * (c * C + 1)).
    assert (PX : 0 <= C' * (c * C + 1)) by (apply Rmult_le_pos; auto; assert (0 <= c * C) by (now apply Rmult_le_pos); lra).
    split; [lra|]. intros ds st Hds HS x I.
    assert (P4 : 0 <= ds ^ 4) by (apply pow_le; lra).
    apply in_app_or in I. destruct I as [I|[<-|[]]].
    - destruct (HC ds st Hds HS x I) as [l [E1 E2]]. exists l. split; auto. intros j Hj. eapply bnd_le; [apply E2; auto|].
      apply Rmult_le_compat_r; auto. lra.
    - destruct (HS a Pa) as [h [E1 [E2 E3]]]. eexists. split; [exact E1|]. intros j Hj.
      unfold rpcSlices, pNs, pDs, wOf in *.
      assert (H0 : bnd n (fun i => h i - U a 0 i) (c * (C * ds ^ 4))).
      { intros i Hi. rewrite E3, (HU2 a (sources es vs a) i Pa ND SF Hi).
        apply (LC (fun y => match st y with Some l => last l zero_field i | None => 0 end) (fun y => U y (len (fst y)) i)).
        - split. { now apply Rmult_le_pos. } apply Rmult_le_compat_l; auto. apply pow_incr. lra.
        - intros y Hy. split; [|now apply HM].
          assert (Fy : In y l1) by (apply (P2 l1 a l2 EP); now apply SF).
          assert (Py : is_prop es y). { apply in_plan. rewrite EP. apply in_or_app. now left. }
          destruct (HC ds st Hds HS y Fy) as [l [F1 F2]]. rewrite F1.
          destruct (rpcNs_cases (len (fst y)) ds (len_pos y Py) ltac:(lra)) as [m [A1 [A2 [A3 A4]]]].
          cbv beta in A2, A3. destruct (HS y Py) as [hy [F3 _]]. rewrite F1 in F3. inversion F3; subst l.
          unfold threadSlices at 1. rewrite last_nth, iterSlices_length.
          assert (Q := F2 (Z.to_nat (rpcNs (len (fst y)) ds) - 1)%nat ltac:(rewrite A2; lia) i Hi). cbv beta in Q.
          replace (INR (Z.to_nat (rpcNs (pb_length (pblockAt bs (fst y))) ds) - 1) * rpcDs (pb_length (pblockAt bs (fst y))) ds)
            with (pb_length (pblockAt bs (fst y))) in Q; [exact Q|].
          rewrite A2. replace (Z.to_nat (2 * m + 1) - 1)%nat with (Z.to_nat (2 * m)) by lia.
          rewrite INR_IZR_INZ, Z2Nat.id by lia. lra. }
      eapply bnd_le; [apply (BE ds h (c * (C * ds ^ 4))); auto; try lra|].
      + apply Rmult_le_pos; auto. now apply Rmult_le_pos.
      + replace ((C + C' * (c * C + 1)) * ds ^ 4) with (C * ds ^ 4 + C' * (c * (C * ds ^ 4) + ds ^ 4)) by ring.
        assert (0 <= C * ds ^ 4) by now apply Rmult_le_pos. lra. }
  destruct (G (p_plan p) [] ltac:(now rewrite app_nil_r)) as [C [PC HC]]. exists C. split; auto.
  intros ds st Hds HS x Hx. apply (HC ds st Hds HS). now apply in_plan.
Qed.

Lemma solves_smooth : forall x i L, is_prop es x -> (i < n)%nat -> 0 <= L -> smooth L (fun s => U x s i).
Proof.
  intros x i L Hx Hi HL. destruct HU as [HU1 _]. destruct (bopA (kuhn (fst x)) (wb (fst x))) as [B bA].
  assert (S1 := proj1 (mde_solves _ _ _) (HU1 x Hx)).
  exists (fun k s => Nat.iter k (opA (opX (wb (fst x))) (opY dims kSq (kuhn (fst x)))) (U x s) i).
  split; [reflexivity|]. split.
  - intros k s. now apply (iter_derive n _ B bA).
  - intros k. destruct (solves_bounded n _ (U x) L S1) as [M [PM HM]]. exists (B ^ k * M). 
    assert (PB := proj1 bA). split. { apply Rmult_le_pos; auto. now apply pow_le. }
    intros s Hs. destruct (bop_iter n _ B k bA) as [_ [_ HB2]]. apply HB2; auto.
Qed.

Definition refI (b i : nat) : R := RInt (fun s => U (b, false) s i * U (b, true) (len b - s) i) 0 (len b).

Lemma conc_error : forall b, (b < length es)%nat -> forall i, (i < n)%nat -> exists C, 0 <= C /\
  forall ds st l0 l1 pref, 0 < ds <= D -> solvedAll ds st -> st (b, false) = Some l0 -> st (b, true) = Some l1 ->
    Rabs (concThread Thread ds bs b l0 l1 pref i - pref * refI b i) <= Rabs pref * (C * ds ^ 4).
Proof.
  intros b Hb i Hi. destruct tree_error as [C [PC TE]]. destruct HU as [HU1 _].
  assert (PL : 0 < len b) by (apply (len_pos (b, false)); exact Hb).
  destruct (solves_bounded n _ (U (b, false)) (len b) (proj1 (mde_solves _ _ _) (HU1 (b, false) Hb))) as [M0 [PM0 HM0]].
  destruct (solves_bounded n _ (U (b, true)) (len b) (proj1 (mde_solves _ _ _) (HU1 (b, true) Hb))) as [M1 [PM1 HM1]].
  destruct (simpson_error (len b) (fun s => U (b, false) s i * U (b, true) (len b - s) i) ltac:(lra)) as [Cs [PCs SE]].
  { apply smooth_mult. { apply (solves_smooth (b, false)); auto; lra. }
    apply (smooth_rev (len b) (fun s => U (b, true) s i)). apply (solves_smooth (b, true)); auto; lra. }
  set (E := C * D ^ 4). assert (PE : 0 <= E) by (apply Rmult_le_pos; auto; apply pow_le; lra).
  exists (len b * (C * (M1 + E) + M0 * C) + 6 * Cs).
  assert (P1 : 0 <= len b * (C * (M1 + E) + M0 * C)).
  { apply Rmult_le_pos; [lra|]. apply Rplus_le_le_0_compat; apply Rmult_le_pos; auto; lra. }
  split; [lra|]. intros ds st l0 l1 pref Hds HS E0 E1.
  assert (P4 : 0 <= ds ^ 4) by (apply pow_le; lra).
  destruct (rpcNs_cases (len b) ds PL ltac:(lra)) as [m [A1 [A2 [A3 A4]]]]. cbv beta in *.
  assert (LE := rpcDs_le (len b) ds PL ltac:(lra)). cbv beta in LE.
  destruct (TE ds st Hds HS (b, false) Hb) as [l0' [F0 T0]]. rewrite E0 in F0. inversion F0; subst l0'; clear F0.
  destruct (TE ds st Hds HS (b, true) Hb) as [l1' [F1 T1]]. rewrite E1 in F1. inversion F1; subst l1'; clear F1.
  unfold concThread, pNs, pDs in *. cbn [fst] in *.
  set (h := rpcDs (pb_length (pblockAt bs b)) ds) in *. rewrite A2 in *.
  set (t := Z.to_nat m). assert (Et : Z.to_nat (2 * m + 1) = (2 * t + 1)%nat) by (unfold t; lia). rewrite Et in *.
  assert (Ht : (1 <= t)%nat) by (unfold t; lia).
  assert (HL : INR (2 * t) * h = pb_length (pblockAt bs b)).
  { rewrite <- A3. f_equal. rewrite INR_IZR_INZ. f_equal. unfold t. lia. }
  set (y := fun j => qAt l0 j i * qAt l1 (2 * t - j) i).
  set (z := fun j => U (b, false) (INR j * h) i * U (b, true) (pb_length (pblockAt bs b) - INR j * h) i).
  match goal with |- Rabs (?a - _) <= _ => replace a with (pref * simpson t h y) end.
  2:{ rewrite <- (simpson_code t h y Ht). unfold y. replace (2 * t + 1 - 2)%nat with (2 * t - 1)%nat by lia.
      replace (2 * t + 1 - 1)%nat with (2 * t)%nat by lia. rewrite Nat.sub_0_r, Nat.sub_diag.
      set (R1 := rsum (2 * t) _). set (R2 := rsum (2 * t - 1) _). field. }
  rewrite <- Rmult_minus_distr_l, Rabs_mult. apply Rmult_le_compat_l; [apply Rabs_pos|].
  replace (simpson t h y - refI b i) with ((simpson t h y - simpson t h z) + (simpson t h z - refI b i)) by ring.
  eapply Rle_trans; [apply Rabs_triang|]. rewrite Rmult_plus_distr_r. apply Rplus_le_compat.
  - rewrite Rmult_assoc. rewrite <- HL at 1. apply simpson_diff; [lra|]. intros j Hj. unfold y, z.
    assert (B0 := T0 j ltac:(lia) i Hi). assert (B1 := T1 (2 * t - j)%nat ltac:(lia) i Hi). cbv beta in B0, B1.
    assert (EJ : pb_length (pblockAt bs b) - INR j * h = INR (2 * t - j) * h).
    { rewrite minus_INR by lia. rewrite <- HL. ring. }
    rewrite EJ.
    assert (Bj : 0 <= INR j * h <= pb_length (pblockAt bs b)).
    { rewrite <- HL. split. { apply Rmult_le_pos; [apply pos_INR|lra]. } apply Rmult_le_compat_r; [lra|]. now apply le_INR. }
    assert (U0 := HM0 _ Bj i Hi).
    assert (U1 := HM1 (INR (2 * t - j) * h) ltac:(rewrite <- EJ; lra) i Hi).
    set (q0 := qAt l0 j i) in *. set (q1 := qAt l1 (2 * t - j) i) in *.
    set (u0 := U (b, false) (INR j * h) i) in *. set (u1 := U (b, true) (INR (2 * t - j) * h) i) in *.
    assert (X4 : C * ds ^ 4 <= E) by (unfold E; apply Rmult_le_compat_l; auto; apply pow_incr; lra).
    assert (Q1 : Rabs q1 <= M1 + E).
    { replace q1 with (u1 + (q1 - u1)) by ring. eapply Rle_trans; [apply Rabs_triang|]. lra. }
    replace (q0 * q1 - u0 * u1) with ((q0 - u0) * q1 + u0 * (q1 - u1)) by ring.
    eapply Rle_trans; [apply Rabs_triang|]. rewrite !Rabs_mult.
    replace ((C * (M1 + E) + M0 * C) * ds ^ 4) with ((C * ds ^ 4) * (M1 + E) + M0 * (C * ds ^ 4)) by ring.
    apply Rplus_le_compat; apply Rmult_le_compat; auto; apply Rabs_pos.
  - eapply Rle_trans; [apply (SE t h); lra|]. 
    assert (X : h ^ 4 <= 6 * ds ^ 4).
    { apply Rle_trans with ((3 / 2 * ds) ^ 4). { apply pow_incr. lra. } rewrite Rpow_mult_distr.
      apply Rmult_le_compat_r; auto. lra. }
    replace (6 * Cs * ds ^ 4) with (Cs * (6 * ds ^ 4)) by ring. now apply Rmult_le_compat_l.
Qed.

Definition refQ : R := average dims (fun i => U (O, false) 0 i * U (O, true) (len O) i).
Lemma Q_error : (0 < length es)%nat -> exists C, 0 <= C /\ forall ds, 0 < ds <= D -> exists st Q,
  solveAll (slices ds) (rpcTailOk Thread) true es vs (p_plan p) = Ok st /\ solvedAll ds st /\
  rpcComputeQ Thread dims ds bs es vs st (O, false) = Ok Q /\ Rabs (Q - refQ) <= C * ds ^ 4.
Proof.
  intros H0. destruct tree_error as [C [PC TE]].
  destruct (bnd_exists n (U (O, false) 0)) as [M0 [PM0 HM0]]. destruct (bnd_exists n (U (O, true) (len O))) as [M1 [PM1 HM1]].
  set (E := C * D ^ 4). assert (PE : 0 <= E) by (apply Rmult_le_pos; auto; apply pow_le; lra).
  assert (PC' : 0 <= C * (M1 + E) + M0 * C) by (apply Rplus_le_le_0_compat; apply Rmult_le_pos; auto; lra).
  exists (C * (M1 + E) + M0 * C). split; auto. intros ds Hds.
  assert (BO : blocks_ok Thread ds bs) by (split; [lra|exact HB]).
  destruct (solve_facts Thread dims kSq ds bs w es HP HT HLen BO fuel p Hf HG) as [st [Q [S1 [S2 [S3 _]]]]].
  exists st, Q. split; auto. assert (SA : solvedAll ds st) by (intros x Hx; apply S3; auto). split; auto.
  split; [apply S2; exact H0|].
  assert (P4 : 0 <= ds ^ 4) by (apply pow_le; lra).
  destruct (TE ds st Hds SA (O, false) H0) as [l0 [E0 T0]]. destruct (TE ds st Hds SA (O, true) H0) as [l1 [E1 T1]].
  destruct (S3 (O, false) H0) as [[h0 [Eh0 _]] EQ]. destruct (S3 (O, true) H0) as [[h1 [Eh1 _]] _].
  unfold headF, tailF, partner in EQ. cbn [fst snd negb] in *. rewrite E0, E1 in *. rewrite <- EQ.
  rewrite <- gridAvg_wavg by auto. unfold gridAvg, refQ, average. destruct (INR_nR dims HP) as [_ PN].
  unfold Rdiv. rewrite <- Rmult_minus_distr_r, <- rsum_minus. rewrite Rabs_mult, (Rabs_pos_eq (/ INR n)).
  2:{ left. apply Rinv_0_lt_compat. lra. }
  apply (Rmult_le_reg_r (INR n)); [lra|]. rewrite Rmult_assoc, Rinv_l, Rmult_1_r by lra.
  assert (PL : 0 < len O) by (apply (len_pos (O, false)); exact H0).
  destruct (rpcNs_cases (len O) ds PL ltac:(lra)) as [m [A1 [A2 [A3 A4]]]]. cbv beta in *.
  unfold pNs, pDs in *.
  assert (G : forall k, (k <= n)%nat -> Rabs (rsum k (fun i => hd zero_field l0 i * last l1 zero_field i - U (O, false) 0 i * U (O, true) (pb_length (pblockAt bs O)) i))
     <= (C * (M1 + E) + M0 * C) * ds ^ 4 * INR k).
  { induction k; intros Hk. { cbn. rewrite Rabs_R0. lra. }
    cbn [rsum]. rewrite S_INR. eapply Rle_trans; [apply Rabs_triang|].
    rewrite Rmult_plus_distr_l, Rmult_1_r. apply Rplus_le_compat; [apply IHk; lia|].
    assert (B0 := T0 O ltac:(rewrite A2; lia) k ltac:(lia)).
    assert (B1 := T1 (Z.to_nat (2 * m)) ltac:(rewrite A2; lia) k ltac:(lia)). cbv beta in B0, B1.
    simpl (INR 0) in B0. rewrite Rmult_0_l in B0.
    rewrite (INR_IZR_INZ (Z.to_nat (2 * m))), Z2Nat.id, A3 in B1 by lia.
    assert (HL1 : last l1 zero_field = qAt l1 (Z.to_nat (2 * m))).
    { inversion Eh1. unfold rpcSlices, threadSlices. rewrite last_nth, iterSlices_length. unfold qAt. f_equal. unfold pNs. rewrite A2. lia. }
    rewrite HL1, hd_nth0. change (nth 0 l0 zero_field) with (qAt l0 0).
    assert (U0 := HM0 k ltac:(lia)). assert (U1 := HM1 k ltac:(lia)).
    set (q0 := qAt l0 0 k) in *. set (q1 := qAt l1 (Z.to_nat (2 * m)) k) in *.
    set (u0 := U (O, false) 0 k) in *. set (u1 := U (O, true) (pb_length (pblockAt bs O)) k) in *.
    assert (X4 : C * ds ^ 4 <= E) by (unfold E; apply Rmult_le_compat_l; auto; apply pow_incr; lra).
    assert (Q1 : Rabs q1 <= M1 + E).
    { replace q1 with (u1 + (q1 - u1)) by ring. eapply Rle_trans; [apply Rabs_triang|]. lra. }
    replace (q0 * q1 - u0 * u1) with ((q0 - u0) * q1 + u0 * (q1 - u1)) by ring.
    eapply Rle_trans; [apply Rabs_triang|]. rewrite !Rabs_mult.
    replace ((C * (M1 + E) + M0 * C) * ds ^ 4) with ((C * ds ^ 4) * (M1 + E) + M0 * (C * ds ^ 4)) by ring.
    apply Rplus_le_compat; apply Rmult_le_compat; auto; apply Rabs_pos. }
  now apply G.
Qed.
End U.

(** The reference is unique. *)
Lemma mde_unique : forall kuhn wb u v, mde dims K kuhn wb u -> mde dims K kuhn wb v ->
  (forall i, (i < n)%nat -> u 0 i = v 0 i) -> forall s i, 0 <= s -> (i < n)%nat -> u s i = v s i.
Proof.
  intros ku wq u v Hu Hv H0 s i Hs Hi. destruct (Rle_lt_or_eq_dec 0 s Hs) as [Ps|<-]; [|auto].
  destruct (block_error s ku wq u Ps Hu) as [C1 [PC1 B1]]. destruct (block_error s ku wq v Ps Hv) as [C2 [PC2 B2]].
  assert (G : forall ds, 0 < ds -> Rabs (u s i - v s i) <= (C1 + C2) * ds ^ 4).
  { intros ds Hd. destruct (rpcNs_cases s ds Ps Hd) as [m [A1 [A2 [A3 A4]]]].
    assert (Z0 : bnd n (fun j => u 0 j - u 0 j) 0) by (intros j Hj; rewrite Rminus_diag_eq, Rabs_R0 by auto; lra).
    assert (Z1 : bnd n (fun j => u 0 j - v 0 j) 0) by (intros j Hj; rewrite H0, Rminus_diag_eq, Rabs_R0 by auto; lra).
    assert (X1 := B1 ds (u 0) 0 Hd (Rle_refl 0) Z0 (Z.to_nat (2 * m)) ltac:(rewrite A2; lia) i Hi).
    assert (X2 := B2 ds (u 0) 0 Hd (Rle_refl 0) Z1 (Z.to_nat (2 * m)) ltac:(rewrite A2; lia) i Hi).
    cbv beta in X1, X2. rewrite (INR_IZR_INZ (Z.to_nat (2 * m))), Z2Nat.id, A3 in X1, X2 by lia.
    set (q := qAt _ _ i) in *. replace (u s i - v s i) with ((q - v s i) - (q - u s i)) by ring.
    eapply Rle_trans; [apply Rabs_triang|]. rewrite Rabs_Ropp. lra. }
  destruct (Req_dec (u s i) (v s i)) as [E|N]; auto. exfalso.
  assert (P : 0 < Rabs (u s i - v s i)) by (apply Rabs_pos_lt; lra).
  set (r := Rabs (u s i - v s i)) in *. set (C := C1 + C2 + 1).
  assert (PC : 0 < C) by (unfold C; lra).
  set (ds := Rmin 1 (r / (2 * C))).
  assert (Pd : 0 < ds) by (unfold ds; apply Rmin_pos; [lra|apply Rdiv_lt_0_compat; lra]).
  assert (L1 : ds <= 1) by apply Rmin_l. assert (L2 : ds <= r / (2 * C)) by apply Rmin_r.
  assert (X := G ds Pd).
  assert (Y : ds ^ 4 <= ds). { replace (ds ^ 4) with (ds * ds ^ 3) by ring. rewrite <- (Rmult_1_r ds) at 3. apply Rmult_le_compat_l; [lra|].
    replace 1 with (1 ^ 3) by ring. apply pow_incr. lra. }
  assert (Z2 : (C1 + C2) * ds ^ 4 <= C * (r / (2 * C))).
  { apply Rmult_le_compat; unfold C; try lra. apply pow_le; lra. unfold C in *; lra. }
  replace (C * (r / (2 * C))) with (r / 2) in Z2 by (field; lra). lra.
Qed.
Lemma exact_unique : forall U V, exactPropagators dims K es len kuhn wb U -> exactPropagators dims K es len kuhn wb V ->
  forall x s i, is_prop es x -> 0 <= s -> (i < n)%nat -> U x s i = V x s i.
Proof.
  intros U V [U1 U2] [V1 V2]. destruct plan_facts as [HV [P1 P2]].
  assert (G : forall l1 l2, p_plan p = l1 ++ l2 -> forall x s i, In x l1 -> 0 <= s -> (i < n)%nat -> U x s i = V x s i).
  { induction l1 as [|a l1 IH] using rev_ind; intros l2 EP x s i I Hs Hi; [destruct I|].
    rewrite <- app_assoc in EP. cbn [app] in EP. apply in_app_or in I. destruct I as [I|[<-|[]]]. { now apply (IH (a :: l2)). }
    assert (Pa : is_prop es a). { apply in_plan. rewrite EP. apply in_or_app. right. now left. }
    destruct (sources_feeds a Pa) as [ND SF]. apply (mde_unique (kuhn (fst a)) (wb (fst a))); auto.
    intros j Hj. rewrite (U2 a _ j Pa ND SF Hj), (V2 a _ j Pa ND SF Hj). apply lprod_ext. intros y Hy.
    assert (Iy : In y l1) by (apply (P2 l1 a l2 EP); now apply SF).
    apply (IH (a :: l2)); auto. left. apply len_pos. apply in_plan. rewrite EP. apply in_or_app. now left. }
  intros x s i Hx. apply (G (p_plan p) []). { now rewrite app_nil_r. } now apply in_plan.
Qed.
End T.
End G.

(** kSq lists the values on the half grid of an even function K on the full grid. *)
Definition evenWaves (dims : list Z) (K : list Z -> R) (kSq : nat -> R) : Prop :=
  (forall p, in_box dims p -> K (negmod dims p) = K p) /\
  (forall k, (k < nK dims)%nat -> kSq k = K (gridPos (computeKMesh dims) k)).
(** The continuous-chain propagators of a polymer of the periodic code. *)
Definition reference (dims : list Z) (K : list Z -> R) (bs : list pblock) (w : nat -> field) (es : list (nat * nat))
    (U : nat * bool -> R -> field) : Prop :=
  exactPropagators dims K es (fun b => pb_length (pblockAt bs b)) (fun b => pb_kuhn (pblockAt bs b))
    (fun b => w (pb_monomer (pblockAt bs b))) U.

(** The continuous-chain theory has exactly one solution for every polymer. *)
Theorem C67_reference_unique : forall dims K kSq bs w es fuel p,
  dims <> [] -> positive dims -> evenWaves dims K kSq ->
  tree es -> length bs = length es -> Forall (fun b => 0 < pb_length b) bs ->
  (2 * length es <= fuel)%nat -> readGraph fuel es = Ok p ->
  exists U, reference dims K bs w es U /\
    forall V, reference dims K bs w es V ->
      forall x s i, is_prop es x -> 0 <= s -> (i < nR dims)%nat -> V x s i = U x s i.
Proof.
  intros dims K kSq bs w es fuel p Hne HP [HK HkSq] HT HL HB Hf HG.
  destruct (exact_exists dims K kSq Hne HP HK HkSq bs w es fuel p HT HL Hf HG) as [U HU].
  exists U. split; auto. intros V HV. eapply exact_unique; eauto.
Qed.

(** Every slice of every propagator approaches the continuous-chain propagator
    at its contour position, with an error at most C ds^4. *)
Theorem C67_propagators_converge : forall dims K kSq bs w es fuel p U D,
  dims <> [] -> positive dims -> evenWaves dims K kSq ->
  tree es -> length bs = length es -> Forall (fun b => 0 < pb_length b) bs ->
  (2 * length es <= fuel)%nat -> readGraph fuel es = Ok p -> 0 < D ->
  reference dims K bs w es U ->
  exists C, forall ds, 0 < ds <= D -> exists st,
    solveAll (rpcSlices Thread dims kSq ds bs w) (rpcTailOk Thread) true es (p_vertices p) (p_plan p) = Ok st /\
    forall x, is_prop es x -> exists l, st x = Some l /\ length l = Z.to_nat (rpcNs (pb_length (pblockAt bs (fst x))) ds) /\
      forall j i, (j < length l)%nat -> (i < nR dims)%nat ->
        Rabs (nth j l zero_field i - U x (INR j * rpcDs (pb_length (pblockAt bs (fst x))) ds) i) <= C * ds ^ 4.
Proof.
  intros dims K kSq bs w es fuel p U D Hne HP [HK HkSq] HT HL HB Hf HG HD HU.
  destruct (tree_error dims K kSq Hne HP HK HkSq bs w es fuel p HT HL HB Hf HG U HU D HD) as [C [PC TE]].
  exists C. intros ds Hds. assert (BO : blocks_ok Thread ds bs) by (split; [lra|exact HB]).
  destruct (solve_facts Thread dims kSq ds bs w es HP HT HL BO fuel p Hf HG) as [st [Q [S1 [S2 [S3 _]]]]].
  exists st. split; auto. intros x Hx.
  destruct (TE ds st Hds (fun x Hx => proj1 (S3 x Hx)) x Hx) as [l [E1 E2]]. exists l. split; auto.
  assert (EL : length l = Z.to_nat (rpcNs (pb_length (pblockAt bs (fst x))) ds)).
  { destruct (S3 x Hx) as [[h [E _]] _]. rewrite E1 in E. inversion E. apply iterSlices_length. }
  split; auto. intros j i Hj Hi. apply (E2 j); auto. unfold pNs. lia.
Qed.

(** The partition function approaches the continuous-chain value. *)
Theorem C67_partition_function_converges : forall dims K kSq bs w es fuel p U D,
  dims <> [] -> positive dims -> evenWaves dims K kSq ->
  tree es -> es <> [] -> length bs = length es -> Forall (fun b => 0 < pb_length b) bs ->
  (2 * length es <= fuel)%nat -> readGraph fuel es = Ok p -> 0 < D ->
  reference dims K bs w es U ->
  exists C, forall ds, 0 < ds <= D -> exists st Q,
    solveAll (rpcSlices Thread dims kSq ds bs w) (rpcTailOk Thread) true es (p_vertices p) (p_plan p) = Ok st /\
    rpcComputeQ Thread dims ds bs es (p_vertices p) st (O, false) = Ok Q /\
    Rabs (Q - average dims (fun i => U (O, false) 0 i * U (O, true) (pb_length (pblockAt bs 0)) i)) <= C * ds ^ 4.
Proof.
  intros dims K kSq bs w es fuel p U D Hne HP [HK HkSq] HT He HL HB Hf HG HD HU.
  assert (H0 : (0 < length es)%nat) by (destruct es; [congruence|cbn; lia]).
  destruct (Q_error dims K kSq Hne HP HK HkSq bs w es fuel p HT HL HB Hf HG U HU D HD H0) as [C [PC TE]].
  exists C. intros ds Hds. destruct (TE ds Hds) as [st [Q [A1 [_ [A2 A3]]]]]. now exists st, Q.
Qed.

Lemma fin_const : forall k (P : nat -> R -> Prop), (forall i C C', C <= C' -> P i C -> P i C') ->
  (forall i, (i < k)%nat -> exists C, 0 <= C /\ P i C) -> exists C, 0 <= C /\ forall i, (i < k)%nat -> P i C.
Proof.
  intros k P HM. induction k as [|k IH]; intros H. { exists 0. split; [lra|]. intros; lia. }
  destruct IH as [C [PC HC]]. { intros; apply H; lia. } destruct (H k ltac:(lia)) as [C' [PC' HC']].
  exists (C + C'). split; [lra|]. intros i Hi. destruct (Nat.eq_dec i k) as [->|N]. { apply (HM k C'); auto. lra. }
  apply (HM i C); [lra|]. apply HC. lia.
Qed.
Lemma prefactor_close : forall s L qs, 0 < L -> qs <> 0 -> exists C, 0 <= C /\ forall q, Rabs (q - qs) <= Rabs qs / 2 ->
  q <> 0 /\ Rabs (sp_phi (setQ s q) / (q * L) - sp_phi (setQ s qs) / (qs * L)) <= C * Rabs (q - qs).
Proof.
  intros s L qs HL Hq. assert (PQ := Rabs_pos_lt qs Hq).
  set (a := Rabs qs) in *. exists (Rabs (sp_phi s) * 2 / (a * a * L)).
  assert (P0 : 0 < a * a * L) by (repeat apply Rmult_lt_0_compat; auto).
  assert (P1 : 0 <= Rabs (sp_phi s) * 2 / (a * a * L)).
  { apply Rmult_le_pos. { assert (X := Rabs_pos (sp_phi s)). lra. } left. now apply Rinv_0_lt_compat. }
  split; auto. intros q Hc.
  assert (AQ : a / 2 <= Rabs q).
  { assert (T := Rabs_triang q (qs - q)). replace (q + (qs - q)) with qs in T by ring. rewrite (Rabs_minus_sym qs q) in T.
    unfold a in *. lra. }
  assert (Nq : q <> 0) by (intros ->; rewrite Rabs_R0 in AQ; lra).
  split; auto. unfold setQ. destruct (sp_ens s); cbn [sp_phi].
  - replace (sp_phi s / (q * L) - sp_phi s / (qs * L)) with (sp_phi s * (- (q - qs)) / (q * qs * L)) by (field; repeat split; lra).
    unfold Rdiv. rewrite !Rabs_mult, Rabs_Ropp, Rabs_inv, !Rabs_mult, (Rabs_pos_eq L) by lra. fold a.
    replace (Rabs (sp_phi s) * 2 * / (a * a * L) * Rabs (q - qs)) with (Rabs (sp_phi s) * Rabs (q - qs) * (/ (a / 2 * a * L))) by (field; lra).
    apply Rmult_le_compat_l. { apply Rmult_le_pos; apply Rabs_pos. }
    apply Rinv_le_contravar. { repeat apply Rmult_lt_0_compat; lra. }
    apply Rmult_le_compat_r; [lra|]. apply Rmult_le_compat_r; lra.
  - replace (exp (sp_mu s) * q / (q * L) - exp (sp_mu s) * qs / (qs * L)) with 0 by (field; repeat split; lra).
    rewrite Rabs_R0. apply Rmult_le_pos; auto. apply Rabs_pos.
Qed.

(** The concentration of every block, and the species variable q, approach the
    continuous-chain theory: c_b = phi / (q L) int_0^(L_b) U_b U_b' ds. *)
Theorem C67_density_converges : forall dims K kSq bs w es fuel p U s phiTot,
  dims <> [] -> positive dims -> evenWaves dims K kSq ->
  tree es -> es <> [] -> length bs = length es -> Forall (fun b => 0 < pb_length b) bs ->
  (2 * length es <= fuel)%nat -> readGraph fuel es = Ok p ->
  reference dims K bs w es U -> phiTot <> 0 ->
  let L := fun b => pb_length (pblockAt bs b) in
  let q := average dims (fun i => U (O, false) 0 i * U (O, true) (L O) i) / phiTot in
  q <> 0 ->
  let phi := match sp_ens s with Closed => sp_phi s | Open => exp (sp_mu s) * q end in
  exists C d, 0 < d /\ forall ds, 0 < ds <= d -> exists s' c,
    rpcCompute Thread dims kSq ds bs w es p s phiTot = Ok (s', c) /\
    Rabs (sp_q s' - q) <= C * ds ^ 4 /\
    forall b i, (b < length es)%nat -> (i < nR dims)%nat ->
      Rabs (c b i - phi / (q * lsum pb_length bs) * RInt (fun t => U (b, false) t i * U (b, true) (L b - t) i) 0 (L b))
        <= C * ds ^ 4.
Proof.
  intros dims K kSq bs w es fuel p U s phiTot Hne HP [HK HkSq] HT He HL HB Hf HG HU HphiT L q Hq phi.
  assert (H0 : (0 < length es)%nat) by (destruct es; [congruence|cbn; lia]).
  assert (HD : 0 < 1) by lra.
  destruct (Q_error dims K kSq Hne HP HK HkSq bs w es fuel p HT HL HB Hf HG U HU 1 HD H0) as [C1 [PC1 QE]].
  assert (PT := Rabs_pos_lt phiTot HphiT).
  set (Cq := C1 / Rabs phiTot).
  assert (PCq : 0 <= Cq) by (apply Rmult_le_pos; auto; left; now apply Rinv_0_lt_compat).
  assert (PS : 0 < lsum pb_length bs).
  { apply (polymerSize_pos Thread 1 bs); [split; auto|]. destruct bs; cbn in HL; [lia|discriminate]. }
  destruct (prefactor_close s (lsum pb_length bs) q PS Hq) as [Cp [PCp PF]].
  set (ps := sp_phi (setQ s q) / (q * lsum pb_length bs)) in *.
  assert (EPS : phi / (q * lsum pb_length bs) = ps) by (unfold ps, phi, setQ; destruct (sp_ens s); reflexivity).
  rewrite EPS. assert (PQ := Rabs_pos_lt q Hq).
  destruct (fin_const (length es) (fun b C => forall i, (i < nR dims)%nat -> forall ds st l0 l1 pref, 0 < ds <= 1 ->
      solvedAll dims kSq bs w es p ds st -> st (b, false) = Some l0 -> st (b, true) = Some l1 -> Rabs pref <= Rabs ps + Cp * (Rabs q / 2) ->
      Rabs (concThread Thread ds bs b l0 l1 pref i - ps * refI bs U b i) <= C * (ds ^ 4 + Rabs (pref - ps)))) as [C2 [PC2 CE]].
  { intros b C C' LE H i Hi ds st l0 l1 pref Hds HS E0 E1 HPp. eapply Rle_trans; [eapply H; eauto|].
    apply Rmult_le_compat_r; auto. assert (0 <= ds ^ 4) by (apply pow_le; lra). assert (X := Rabs_pos (pref - ps)). lra. }
  { intros b Hb. apply fin_const.
    - intros i C C' LE H ds st l0 l1 pref Hds HS E0 E1 HPp. eapply Rle_trans; [eapply H; eauto|].
      apply Rmult_le_compat_r; auto. assert (0 <= ds ^ 4) by (apply pow_le; lra). assert (X := Rabs_pos (pref - ps)). lra.
    - intros i Hi. destruct (conc_error dims K kSq Hne HP HK HkSq bs w es fuel p HT HL HB Hf HG U HU 1 HD b Hb i Hi) as [C [PC CC]].
      set (B := Rabs ps + Cp * (Rabs q / 2)).
      assert (PB : 0 <= B).
      { unfold B. assert (X := Rabs_pos ps). assert (0 <= Cp * (Rabs q / 2)) by (apply Rmult_le_pos; lra). lra. }
      assert (PI := Rabs_pos (refI bs U b i)).
      assert (PBC : 0 <= B * C) by now apply Rmult_le_pos.
      exists (B * C + Rabs (refI bs U b i)). split; [lra|].
      intros ds st l0 l1 pref Hds HS E0 E1 HPp. assert (P4 : 0 <= ds ^ 4) by (apply pow_le; lra).
      replace (concThread Thread ds bs b l0 l1 pref i - ps * refI bs U b i)
        with ((concThread Thread ds bs b l0 l1 pref i - pref * refI bs U b i) + (pref - ps) * refI bs U b i) by ring.
      eapply Rle_trans; [apply Rabs_triang|]. rewrite Rabs_mult.
      assert (X := CC ds st l0 l1 pref Hds HS E0 E1).
      assert (Y : Rabs pref * (C * ds ^ 4) <= B * C * ds ^ 4).
      { rewrite Rmult_assoc. apply Rmult_le_compat_r; auto. now apply Rmult_le_pos. }
      assert (W1 := Rmult_le_pos _ _ PBC (Rabs_pos (pref - ps))). assert (W2 := Rmult_le_pos _ _ PI P4). lra. }
  set (d := Rmin 1 (Rabs q / (2 * (Cq + 1)))).
  assert (Pd : 0 < d) by (apply Rmin_pos; [lra|apply Rdiv_lt_0_compat; lra]).
  assert (PX : 0 <= C2 * (1 + Cp * Cq)).
  { apply Rmult_le_pos; auto. assert (0 <= Cp * Cq) by now apply Rmult_le_pos. lra. }
  exists (Cq + C2 * (1 + Cp * Cq)), d. split; auto. intros ds Hds.
  assert (L1 : ds <= 1) by (eapply Rle_trans; [apply Hds|apply Rmin_l]).
  assert (L2 : ds <= Rabs q / (2 * (Cq + 1))) by (eapply Rle_trans; [apply Hds|apply Rmin_r]).
  destruct (QE ds ltac:(lra)) as [st [Q [S1 [S2 [S3 S4]]]]].
  assert (P4 : 0 <= ds ^ 4) by (apply pow_le; lra).
  assert (EQ : Rabs (Q / phiTot - q) <= Cq * ds ^ 4).
  { unfold q. change (average dims (fun i => U (O, false) 0 i * U (O, true) (L O) i)) with (refQ dims bs U).
    unfold Rdiv. rewrite <- Rmult_minus_distr_r, Rabs_mult, Rabs_inv. unfold Cq, Rdiv.
    rewrite Rmult_assoc, (Rmult_comm (/ Rabs phiTot)), <- Rmult_assoc. apply Rmult_le_compat_r; auto.
    left. now apply Rinv_0_lt_compat. }
  assert (Y : ds ^ 4 <= ds).
  { replace (ds ^ 4) with (ds * ds ^ 3) by ring. rewrite <- (Rmult_1_r ds) at 3. apply Rmult_le_compat_l; [lra|].
    replace 1 with (1 ^ 3) by ring. apply pow_incr. lra. }
  assert (Z2 : Cq * ds ^ 4 <= (Cq + 1) * (Rabs q / (2 * (Cq + 1)))) by (apply Rmult_le_compat; lra).
  replace ((Cq + 1) * (Rabs q / (2 * (Cq + 1)))) with (Rabs q / 2) in Z2 by (field; lra).
  destruct (PF (Q / phiTot) ltac:(lra)) as [Nq PP].
  unfold rpcCompute. rewrite S1. cbn [bind]. rewrite S3. cbn [bind].
  assert (ESQ : sp_q (setQ s (Q / phiTot)) = Q / phiTot) by (unfold setQ; destruct (sp_ens s); reflexivity).
  rewrite ESQ. unfold pLength. set (pr := sp_phi (setQ s (Q / phiTot)) / (Q / phiTot * lsum pb_length bs)) in *.
  eexists. eexists. split; [reflexivity|]. rewrite ESQ. split.
  { eapply Rle_trans; [exact EQ|]. apply Rmult_le_compat_r; auto. lra. }
  intros b i Hb Hi.
  destruct (S2 (b, false) Hb) as [h0 [E0 _]]. destruct (S2 (b, true) Hb) as [h1 [E1 _]]. rewrite E0, E1.
  assert (DP : Rabs (pr - ps) <= Cp * (Cq * ds ^ 4)) by (eapply Rle_trans; [exact PP|]; now apply Rmult_le_compat_l).
  eapply Rle_trans; [apply (CE b Hb i Hi ds st _ _ pr); eauto; try lra|].
  - replace pr with (ps + (pr - ps)) by ring. eapply Rle_trans; [apply Rabs_triang|]. apply Rplus_le_compat_l.
    eapply Rle_trans; [exact PP|]. apply Rmult_le_compat_l; auto. lra.
  - apply Rle_trans with (C2 * (ds ^ 4 + Cp * (Cq * ds ^ 4))). { apply Rmult_le_compat_l; auto. lra. }
    replace (C2 * (ds ^ 4 + Cp * (Cq * ds ^ 4))) with (C2 * (1 + Cp * Cq) * ds ^ 4) by ring.
    apply Rmult_le_compat_r; auto. lra.
Qed.

(** A case of the hypotheses: a star with three arms in non-uniform fields on a
    4x3 mesh, with the |k|^2 of minimum images of an orthogonal cell. *)
Definition exK (p : list Z) : R :=
  let m := fun j d => IZR (Z.min (nth j p 0%Z) (d - nth j p 0%Z)) in m 0%nat 4%Z ^ 2 + 2 * m 1%nat 3%Z ^ 2.
Definition exKsq (k : nat) : R := exK (gridPos (computeKMesh [4;3]%Z) k).
Definition exBlocks : list pblock := [mkPBlock 1 3 1 0; mkPBlock (1/100) 1 2 1; mkPBlock 2 5 1 0].
Definition exW (a : nat) : field := fun i => INR (a + i).
Lemma exK_even : evenWaves [4;3]%Z exK exKsq.
Proof.
  split; [|reflexivity]. intros p HB. inversion HB as [|? a ? ? H1 H2]; subst. inversion H2 as [|? b ? ? H3 H4]; subst. inversion H4; subst.
  cbn [negmod]. unfold exK. cbn [nth].
  assert (A : (a = 0 \/ a = 1 \/ a = 2 \/ a = 3)%Z) by lia. assert (B : (b = 0 \/ b = 1 \/ b = 2)%Z) by lia.
  assert (E1 : (Z.min ((- a) mod 4) (4 - (- a) mod 4) = Z.min a (4 - a))%Z) by (destruct A as [->|[->|[->| ->]]]; reflexivity).
  assert (E2 : (Z.min ((- b) mod 3) (3 - (- b) mod 3) = Z.min b (3 - b))%Z) by (destruct B as [->|[->| ->]]; reflexivity).
  cbv zeta. rewrite E1, E2. reflexivity.
Qed.
Example C67_star : exists p U C, readGraph 6 exStar = Ok p /\ reference [4;3]%Z exK exBlocks exW exStar U /\
  forall ds, 0 < ds <= 1 -> exists st,
    solveAll (rpcSlices Thread [4;3]%Z exKsq ds exBlocks exW) (rpcTailOk Thread) true exStar (p_vertices p) (p_plan p) = Ok st /\
    forall x, is_prop exStar x -> exists l, st x = Some l /\
      forall j i, (j < length l)%nat -> (i < nR [4;3]%Z)%nat ->
        Rabs (nth j l zero_field i - U x (INR j * rpcDs (pb_length (pblockAt exBlocks (fst x))) ds) i) <= C * ds ^ 4.
Proof.
  assert (G : exists p, readGraph 6 exStar = Ok p) by (eexists; vm_compute; reflexivity). destruct G as [p G].
  assert (HP : positive [4;3]%Z) by (repeat constructor; lia).
  assert (HB : Forall (fun b => 0 < pb_length b) exBlocks) by (repeat constructor; cbn; lra).
  destruct (C67_reference_unique [4;3]%Z exK exKsq exBlocks exW exStar 6 p ltac:(discriminate) HP exK_even exStar_tree eq_refl HB
    ltac:(cbn; lia) G) as [U [HU _]].
  destruct (C67_propagators_converge [4;3]%Z exK exKsq exBlocks exW exStar 6 p U 1 ltac:(discriminate) HP exK_even exStar_tree eq_refl HB
    ltac:(cbn; lia) G ltac:(lra) HU) as [C HC].
  exists p, U, C. split; auto. split; auto. intros ds Hds. destruct (HC ds Hds) as [st [S1 S2]]. exists st. split; auto.
  intros x Hx. destruct (S2 x Hx) as [l [A [_ B]]]. exists l. split; [exact A|exact B].
Qed.

(** A diblock in two different uniform fields on a mesh of two points: the
    reference is a product of exponentials and q is not zero. *)
Definition diK (p : list Z) : R := IZR (nth 0 p 0%Z) ^ 2.
Definition diBlocks : list pblock := [mkPBlock 1 1 1 0; mkPBlock 2 1 3 1].
Definition diEdges : list (nat * nat) := [(0,1);(1,2)]%nat.
Definition diW (a : nat) : field := fun _ => INR a + 1.
Definition diU (x : nat * bool) (s : R) : field := fun _ =>
  match x with
  | (O, false) => exp (- s)
  | (O, true) => exp (-4) * exp (- s)
  | (_, false) => exp (-1) * exp (- (2 * s))
  | (_, true) => exp (- (2 * s))
  end.
Lemma di_even : evenWaves [2]%Z diK (fun k => diK (gridPos (computeKMesh [2]%Z) k)).
Proof.
  split; [|reflexivity]. intros p HB. inversion HB as [|? a ? ? H1 H2]; subst. inversion H2; subst.
  cbn [negmod]. unfold diK. cbn [nth].
  assert (A : ((- a) mod 2 = a)%Z) by (assert (A : (a = 0 \/ a = 1)%Z) by lia; destruct A as [->| ->]; reflexivity).
  now rewrite A.
Qed.
Lemma di_lap : forall c i, (i < 2)%nat -> laplacian [2]%Z diK (fun _ => c) i = 0.
Proof.
  intros c i Hi. unfold laplacian. change (nR [2]%Z) with 2%nat. cbn [rsum].
  change (gridPos [2]%Z 0) with [0]%Z. change (gridPos [2]%Z 1) with [1]%Z. unfold diK. cbn [nth].
  assert (E : i = 0%nat \/ i = 1%nat) by lia. destruct E as [->| ->].
  - change (gridPos [2]%Z 0) with [0]%Z. cbn [phase].
    replace (2 * PI * IZR (1 * 0) / 2 + 0 - (2 * PI * IZR (1 * 0) / 2 + 0)) with 0 by ring.
    replace (2 * PI * IZR (1 * 0) / 2 + 0 - (2 * PI * IZR (1 * 1) / 2 + 0)) with (- PI) by (cbn; field).
    rewrite cos_neg, cos_PI, cos_0. cbn. field.
  - change (gridPos [2]%Z 1) with [1]%Z. cbn [phase].
    replace (2 * PI * IZR (1 * 1) / 2 + 0 - (2 * PI * IZR (1 * 0) / 2 + 0)) with PI by (cbn; field).
    replace (2 * PI * IZR (1 * 1) / 2 + 0 - (2 * PI * IZR (1 * 1) / 2 + 0)) with 0 by ring.
    rewrite cos_PI, cos_0. cbn. field.
Qed.
Lemma di_tree : tree diEdges.
Proof.
  apply tree_by_parents with (par := fun v : nat => (match v with 1 => 0 | _ => 1 end)%nat).
  - repeat constructor; simpl; lia.
  - intros v Hv. simpl in Hv. destruct v as [|[|[|v]]]; try lia; split; try lia; unfold adjacent, s_edge.
    + exists 0%nat; simpl; split; [lia|auto].
    + exists 1%nat; simpl; split; [lia|auto].
Qed.
Lemma di_reference : reference [2]%Z diK diBlocks diW diEdges diU.
Proof.
  split.
  - intros [b d] Hx s i Hi. unfold is_prop in Hx. cbn in Hx. change (nR [2]%Z) with 2%nat in Hi.
    assert (E : diU (b, d) s = fun _ => diU (b, d) s 0%nat) by (destruct b, d; reflexivity). rewrite E, di_lap by auto.
    destruct b as [|[|b]]; [| |cbn in Hx; lia]; destruct d; unfold diU, diW; cbn [fst diBlocks pblockAt nth pb_monomer pb_kuhn INR];
      auto_derive; auto; ring.
  - intros x l i Hx ND Hl Hi.
    assert (P : forall m, NoDup m -> (forall y, In y m <-> feeds diEdges y x) -> lprod (fun y => diU y (pb_length (pblockAt diBlocks (fst y))) i) l =
       lprod (fun y => diU y (pb_length (pblockAt diBlocks (fst y))) i) m).
    { intros m NDm Hm. apply lprod_perm. apply NoDup_Permutation; auto. intros y. rewrite Hl, Hm. tauto. }
    destruct x as [[|[|b]] d]; [| |unfold is_prop in Hx; cbn in Hx; lia].
    + destruct d.
      * rewrite (P [(1, true)]%nat). { cbn. rewrite !Ropp_0, exp_0. replace (- (2 * 2)) with (-4) by ring. ring. }
        { repeat constructor; auto. }
        intros [[|[|b]] [|]]; unfold feeds, is_prop, s_end, s_start, s_edge; cbn; split; intros H; try (destruct H as [H|[]]; congruence);
          try (destruct H as [_ [_ [H1 H2]]]; congruence); auto; try lia.
      * rewrite (P []). { cbn. rewrite Ropp_0, exp_0. ring. } { constructor. }
        intros [[|[|b]] [|]]; unfold feeds, is_prop, s_end, s_start, s_edge; cbn; split; intros H; try tauto; lia.
    + destruct d.
      * rewrite (P []). { cbn. rewrite Rmult_0_r, Ropp_0, exp_0. ring. } { constructor. }
        intros [[|[|b]] [|]]; unfold feeds, is_prop, s_end, s_start, s_edge; cbn; split; intros H; try tauto; lia.
      * rewrite (P [(0, false)]%nat). { cbn. rewrite Rmult_0_r, Ropp_0, exp_0. replace (- (1)) with (-1) by ring. ring. }
        { repeat constructor; auto. }
        intros [[|[|b]] [|]]; unfold feeds, is_prop, s_end, s_start, s_edge; cbn; split; intros H; try (destruct H as [H|[]]; congruence);
          try (destruct H as [_ [_ [H1 H2]]]; congruence); auto; try lia.
Qed.
Example C67_diblock : exists p C d, readGraph 4 diEdges = Ok p /\ 0 < d /\ forall ds, 0 < ds <= d -> exists s' c,
  rpcCompute Thread [2]%Z (fun k => diK (gridPos (computeKMesh [2]%Z) k)) ds diBlocks diW diEdges p (mkSpecies Closed (1/2) 0 0) 1 = Ok (s', c) /\
  Rabs (sp_q s' - exp (-5)) <= C * ds ^ 4.
Proof.
  assert (G : exists p, readGraph 4 diEdges = Ok p) by (eexists; vm_compute; reflexivity). destruct G as [p G].
  assert (HP : positive [2]%Z) by (repeat constructor; lia).
  assert (HB : Forall (fun b => 0 < pb_length b) diBlocks) by (repeat constructor; cbn; lra).
  assert (E : average [2]%Z (fun i => diU (O, false) 0 i * diU (O, true) (pb_length (pblockAt diBlocks O)) i) / 1 = exp (-5)).
  { unfold average. change (nR [2]%Z) with 2%nat. cbn. rewrite Ropp_0, exp_0. replace (-5) with (-4 + - (1)) by ring.
    rewrite exp_plus. field. }
  destruct (C67_density_converges [2]%Z diK _ diBlocks diW diEdges 4 p diU (mkSpecies Closed (1/2) 0 0) 1 ltac:(discriminate) HP di_even
    di_tree ltac:(discriminate) eq_refl HB ltac:(cbn; lia) G di_reference ltac:(lra)) as [C [d [Pd HC]]].
  { rewrite E. assert (X := exp_pos (-5)). lra. }
  exists p, C, d. split; auto. split; auto. intros ds Hds. destruct (HC ds Hds) as [s' [c [A [B _]]]]. exists s', c. split; [exact A|].
  rewrite E in B. exact B.
Qed.

Print Assumptions C67_reference_unique.
Print Assumptions C67_propagators_converge.
Print Assumptions C67_partition_function_converges.
Print Assumptions C67_density_converges.
