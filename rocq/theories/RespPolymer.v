(** First-order response of the concentrations of one polymer species in the bead
    model to a common change of all fields. *)
From Coq Require Import Reals ZArith List Bool Arith Lia Lra.
From Coquelicot Require Import Coquelicot.
From Coq Require Import List.
From Verif Require Import Base RSum MeshSpec UnitCellProofs Polymer PolymerSpec PolymerProofs PropsPolymer Solve SolveProofs Species Fft FftProofs
  R1d R1dProofs PropsR1d Rpc RpcProofs PropsRpc FftCompose Stress TreeDerivative BeadDerivative PropsUniform PropsDebye IntraSpec IntraSums
  RespTree RespBead.
Import ListNotations.
Local Open Scope R_scope.

Lemma beadPair_split : forall r n, beadPair r n = 2 * rsum n (fun k => rsum (S k) (fun j => exp (- (r * INR j)))) - INR n.
Proof.
  intros r n. unfold beadPair. rewrite (rsum_sym n (fun i j => exp (- (r * INR (absd i j))))) by (intros a b _ _; replace (absd b a) with (absd a b) by (unfold absd; lia); reflexivity).
  rewrite (rsum_ext n (fun a => exp (- (r * INR (absd a a)))) (fun _ => 1)).
  2:{ intros a _. unfold absd. rewrite Nat.sub_diag. simpl. rewrite Rmult_0_r, Ropp_0. apply exp_0. }
  rewrite rsum_const.
  rewrite (rsum_ext n (fun a => rsum a (fun b => exp (- (r * INR (absd a b))))) (fun a => rsum a (fun b => exp (- (r * INR (S b)))))).
  2:{ intros a _. rewrite (rsum_rev a (fun b => exp (- (r * INR (S b))))). apply rsum_ext. intros b Hb. replace (absd a b) with (S (a - 1 - b)) by (unfold absd; lia). reflexivity. }
  rewrite (rsum_ext n (fun k => rsum (S k) (fun j => exp (- (r * INR j)))) (fun k => 1 + rsum k (fun b => exp (- (r * INR (S b)))))).
  2:{ intros k _. rewrite rsum_S_first. f_equal. simpl. rewrite Rmult_0_r, Ropp_0. apply exp_0. }
  rewrite rsum_plus, rsum_const. ring.
Qed.

Section R.
Variables (dims : list Z) (kSq : nat -> R) (phi : field) (dsT : R) (bs : list pblock) (Wm : nat -> R)
  (es : list (nat * nat)) (fuel : nat) (p : polymer).
Hypothesis Hne : dims <> [].
Hypothesis HP : positive dims.
Hypothesis HK : kSq O = 0.
Hypothesis HE : evenOn dims kSq.
Hypothesis HA : rsum (nR dims) phi = 0.
Hypothesis HT : tree es.
Hypothesis Hes : es <> [].
Hypothesis HLen : length bs = length es.
Hypothesis HB : blocks_ok Bead dsT bs.
Hypothesis Hf : (2 * length es <= fuel)%nat.
Hypothesis HG : readGraph fuel es = Ok p.
Notation vs := (p_vertices p).
Notation N := (nR dims).
Notation pert := (pert dims kSq phi).
Notation opAt := (opAt dims kSq phi).

Definition wPert (t : R) (m i : nat) : R := Wm m + t * phi i.
Notation sl t := (rpcSlices Bead dims kSq dsT bs (wPert t)).
Definition stAt (t : R) : props :=
  match solveAll (sl t) (rpcTailOk Bead) true es vs (p_plan p) with Ok s => s | _ => fun _ => None end.
Definition qOf (t : R) : R := match rpcComputeQ Bead dims dsT bs es vs (stAt t) (O, false) with Ok q => q | _ => 0 end.

Notation kuhnOf b := (pb_kuhn (pblockAt bs b)).
Notation nbOf b := (pb_nBead (pblockAt bs b)).
Notation WOf b := (Wm (pb_monomer (pblockAt bs b))).
Definition endAt (x : R) (b : nat) : R := half (kuhnOf b) x * beadEnd (rate x (kuhnOf b)) (nbOf b).
Definition behindAt (x : R) (y : nat * bool) : R := behind es p (fun b => kuhnOf b) (fun b => INR (nbOf b)) (endAt x) x y.

Lemma es_pos : (0 < length es)%nat. Proof. assert (G : forall l : list (nat * nat), l <> [] -> (0 < length l)%nat) by (intros [|a l] H; simpl; [congruence|lia]). exact (G es Hes). Qed.
Lemma vsOk : graphVertices es vs.
Proof. destruct (solveAll_ok (fun _ _ _ _ => []) (fun _ => true) true es fuel p HT eq_refl Hf HG) as [HV _]. exact HV. Qed.
Lemma nb_pos : forall b, (b < length es)%nat -> (1 <= nbOf b)%nat.
Proof. intros b Hb. unfold blocks_ok in HB. rewrite Forall_forall in HB. apply HB, (block_in bs es HLen b Hb). Qed.

Lemma st_facts : forall t,
  solveAll (sl t) (rpcTailOk Bead) true es vs (p_plan p) = Ok (stAt t) /\
  rpcComputeQ Bead dims dsT bs es vs (stAt t) (O, false) = Ok (qOf t) /\
  (forall x, is_prop es x ->
     stAt t x = Some (sl t (fst x) (isHeadEnd es vs x) (isTailEnd es vs x) (headF (stAt t) x)) /\
     forall i, headF (stAt t) x i = lprod (fun z => tailF (stAt t) z i) (sources es vs x)) /\
  (forall b k, (b < length es)%nat -> (k < nbOf b)%nat -> exists l0 l1, stAt t (b, false) = Some l0 /\ stAt t (b, true) = Some l1 /\
     gridAvg dims (fun i => qAt l0 (S k) i * qAt l1 (pNs Bead dsT bs b - 1 - S k) i * expWInv (wOf bs (wPert t) b) i) = qOf t).
Proof.
  intros t. destruct (solve_facts Bead dims kSq dsT bs (wPert t) es HP HT HLen HB fuel p Hf HG) as (st & Q & E & F & S & G).
  assert (ES : stAt t = st) by (unfold stAt; rewrite E; reflexivity).
  assert (EQ : qOf t = Q) by (unfold qOf; rewrite ES, (F (O, false) es_pos); reflexivity).
  rewrite ES, EQ. split; auto. split; [apply F, es_pos|]. split.
  - intros x Hx. destruct (S x Hx) as [[h [E1 [F1 G1]]] _].
    assert (EH : headF st x = h) by (unfold headF; rewrite E1; unfold rpcSlices; apply hd_beadSlices).
    rewrite EH. split; auto. intros i. rewrite G1. apply lprod_ext. intros z Hz. unfold tailF. destruct (F1 z Hz) as [l ->]. reflexivity.
  - intros b k Hb Hk. destruct (G b Hb) as (l0 & l1 & A & B & C). exists l0, l1. split; auto. split; auto. apply (C (Datatypes.S k)). lia.
Qed.

Definition ahAt (y : nat * bool) (x : R) : R := - behindAt x y.
Lemma head_end : forall y, is_prop es y -> isHeadEnd es vs y = true -> forall x, ahAt y x = 0.
Proof.
  intros y Hy He x. unfold ahAt, behindAt. rewrite (behind_step es fuel p HT Hf HG) by auto.
  rewrite (headEnd_no_sources (fun _ _ _ _ => []) true es vs (proj1 HT) vsOk y Hy He). cbn [lsum]. ring.
Qed.

(** Induction along the plan *)
Lemma heads_pert : forall y, is_prop es y -> exists v, pert (fun t => headF (stAt t) y) (exp v) (ahAt y).
Proof.
  destruct (polymer_plan_is_valid_order es fuel HT Hf) as [p' [E [ND [IN [_ BF]]]]].
  rewrite HG in E. inversion E; subst p'. clear E.
  assert (G : forall k l1 y l2, length l1 = k -> p_plan p = l1 ++ y :: l2 -> exists v, pert (fun t => headF (stAt t) y) (exp v) (ahAt y)).
  { induction k as [k IH] using lt_wf_ind. intros l1 y l2 Hk E.
    assert (Py : is_prop es y) by (apply IN; rewrite E, in_app_iff; simpl; auto).
    assert (A : forall z, In z (sources es vs y) -> exists v, pert (fun t => tailF (stAt t) z) (exp v)
        (fun x => - (endAt x (fst z) + pass (fun b => kuhnOf b) (fun b => INR (nbOf b)) x (fst z) * behindAt x z))).
    { intros z Hz. assert (TE := source_not_tailEnd (fun _ _ _ _ => []) true es vs (proj1 HT) vsOk y z Py Hz).
      apply (sources_feeds es fuel p HT Hf HG) in Hz; auto.
      destruct (BF z y Hz) as [l1' [l2' [E' I']]].
      destruct (in_split _ _ I') as [a [b Eb]].
      assert (EL : l1' = l1).
      { rewrite E in E'. clear -E E' ND. rewrite E in ND. revert l1' E'. revert ND. clear E. induction l1 as [|u l1 IH]; intros ND [|v l1'] E'; simpl in *; auto.
        - inversion E'; subst. inversion ND; subst. exfalso. apply H1. rewrite in_app_iff; simpl; auto.
        - inversion E'; subst. inversion ND; subst. exfalso. apply H1. rewrite in_app_iff; simpl; auto.
        - inversion E'; subst. inversion ND; subst. f_equal. apply IH; auto. }
      rewrite EL in Eb. destruct (IH (length a)) with (l1 := a) (y := z) (l2 := b ++ y :: l2) as [v Hv].
      - rewrite <- Hk, Eb, app_length. simpl. lia.
      - reflexivity.
      - rewrite E, Eb, <- app_assoc. reflexivity.
      - assert (Pz := proj1 Hz). set (B := fst z).
        pose proof (pert_tail dims kSq phi Hne HP HK HE (kuhnOf B) (WOf B) (nbOf B) (fun t => wOf bs (wPert t) B) (nb_pos B Pz)
          ltac:(intros; reflexivity) (isHeadEnd es vs z) _ _ _ Hv (head_end z Pz) _ TE) as M.
        exists (v + - WOf B * INR (nbOf B)).
        replace (exp (v + - WOf B * INR (nbOf B))) with (exp v * exp (- WOf B) ^ nbOf B).
        + eapply pert_ext; [exact M| |].
          * intros t i. unfold tailF at 1. destruct (st_facts t) as (_ & _ & S & _). destruct (S z Pz) as [-> _]. reflexivity.
          * intros x. cbv beta. unfold ahAt, endAt, pass. fold B. unfold step. replace (rate x (kuhnOf B) * INR (nbOf B)) with (x * (INR (nbOf B) * kuhnOf B ^ 2) / 6) by (unfold rate; field). ring.
        + rewrite exp_plus. f_equal. clear. induction (nbOf B) as [|n IH]; [simpl; rewrite Rmult_0_r, exp_0; auto|].
          cbn [pow]. rewrite IH, <- exp_plus, S_INR. f_equal. ring. }
    assert (B : exists v, pert (fun t i => lprod (fun z => tailF (stAt t) z i) (sources es vs y)) (exp v)
        (fun x => lsum (fun z => - (endAt x (fst z) + pass (fun b => kuhnOf b) (fun b => INR (nbOf b)) x (fst z) * behindAt x z)) (sources es vs y))).
    { clear - A Hne HP HK HE HA. induction (sources es vs y) as [|z l IH]; cbn [lprod lsum].
      - exists 0. rewrite exp_0. apply pert_one.
      - destruct IH as [v Hv]; [intros; apply A; right; auto|]. destruct (A z (or_introl eq_refl)) as [u Hu].
        exists (u + v). rewrite exp_plus. apply (pert_mult dims kSq phi _ _ _ _ _ _ Hu Hv). }
    destruct B as [v Hv]. exists v. eapply pert_ext; [exact Hv| |].
    - intros t i. destruct (st_facts t) as (_ & _ & S & _). destruct (S y Py) as [_ ->]. reflexivity.
    - intros x. unfold ahAt, behindAt. rewrite (behind_step es fuel p HT Hf HG) by auto.
      rewrite <- (Rmult_1_l (lsum (fun z => endAt _ _ + _) _)), Ropp_mult_distr_l, <- lsum_scal. apply lsum_ext. intros. unfold behindAt. ring. }
  intros x Hx. assert (I : In x (p_plan p)) by (apply IN; auto). destruct (in_split _ _ I) as [l1 [l2 E]].
  apply (G (length l1) l1 x l2); auto.
Qed.

(** The product of the two propagators at a bead *)
Definition prodAt (t : R) (b k i : nat) : R :=
  match stAt t (b, false), stAt t (b, true) with
  | Some l0, Some l1 => qAt l0 (S k) i * qAt l1 (pNs Bead dsT bs b - 1 - S k) i * expWInv (wOf bs (wPert t) b) i
  | _, _ => 0
  end.
Definition amplAt (b k : nat) (x : R) : R :=
  ampl (kuhnOf b) (ahAt (b, false)) k x + ampl (kuhnOf b) (ahAt (b, true)) (nbOf b - 1 - k) x + 1.
Lemma prod_pert0 : forall b k, (b < length es)%nat -> (k < nbOf b)%nat -> exists v, pert (fun t => prodAt t b k) (exp v) (amplAt b k).
Proof.
  intros b k Hb Hk. destruct (heads_pert (b, false) Hb) as [v0 H0]. destruct (heads_pert (b, true) Hb) as [v1 H1].
  assert (PW : forall t i, wOf bs (wPert t) b i = WOf b + t * phi i) by reflexivity.
  pose proof (pert_bead dims kSq phi Hne HP HK HE (kuhnOf b) (WOf b) (fun t => wOf bs (wPert t) b) PW
    (isHeadEnd es vs (b, false)) _ _ _ H0 (head_end (b, false) Hb) k) as B0.
  pose proof (pert_bead dims kSq phi Hne HP HK HE (kuhnOf b) (WOf b) (fun t => wOf bs (wPert t) b) PW
    (isHeadEnd es vs (b, true)) _ _ _ H1 (head_end (b, true) Hb) (nbOf b - 1 - k)%nat) as B1.
  pose proof (pert_inv dims kSq phi Hne HP (WOf b) (fun t => wOf bs (wPert t) b) PW) as B2.
  pose proof (pert_mult _ _ _ _ _ _ _ _ _ (pert_mult _ _ _ _ _ _ _ _ _ B0 B1) B2) as M.
  set (c := exp v0 * exp (- WOf b) ^ S k * (exp v1 * exp (- WOf b) ^ S (nbOf b - 1 - k)) * exp (WOf b)) in M.
  assert (PC : 0 < c).
  { unfold c. repeat (apply Rmult_lt_0_compat); try apply exp_pos; apply pow_lt, exp_pos. }
  exists (ln c). rewrite exp_ln by auto. eapply pert_ext; [exact M| |].
  - intros t i. unfold prodAt. destruct (st_facts t) as (_ & _ & S & _). destruct (S (b, false) Hb) as [-> _]. destruct (S (b, true) Hb) as [-> _].
    cbn [fst]. unfold rpcSlices, qAt, pNs. rewrite !nth_beadSlices by lia.
    replace (Datatypes.S k - 1)%nat with k by lia. replace (nbOf b + 2 - 1 - Datatypes.S k - 1)%nat with (nbOf b - 1 - k)%nat by lia. reflexivity.
  - intros x. reflexivity.
Qed.

Lemma q_avg : forall t b k, (b < length es)%nat -> (k < nbOf b)%nat -> qOf t = rsum N (prodAt t b k) / INR N.
Proof.
  intros t b k Hb Hk. destruct (st_facts t) as (_ & _ & _ & G). destruct (G b k Hb Hk) as (l0 & l1 & A & B & C). rewrite <- C.
  unfold gridAvg. f_equal. apply rsum_ext. intros i _. unfold prodAt. rewrite A, B. reflexivity.
Qed.
Lemma pert_avg : forall f c a, pert f c a -> rsum N (f 0) / INR N = c /\ is_derive (fun t => rsum N (f t) / INR N) 0 0.
Proof.
  intros f c a [F1 F2]. destruct (INR_nR dims HP) as [_ PN]. split.
  - rewrite (rsum_ext _ _ (fun _ => c)) by auto. rewrite rsum_const. field. lra.
  - assert (D := is_derive_rsum N (fun i t => f t i) 0 _ F2). rewrite rsum_scal, (opAt_avg dims kSq phi Hne HP HA), Rmult_0_r in D.
    apply (is_derive_ext (fun t => / INR N * rsum N (f t))). { intros. unfold Rdiv. apply Rmult_comm. }
    replace 0 with (/ INR N * 0) at 2 by ring. apply (is_derive_scal (fun t => rsum N (f t))). exact D.
Qed.
Lemma prod_pert : forall b k, (b < length es)%nat -> (k < nbOf b)%nat -> pert (fun t => prodAt t b k) (qOf 0) (amplAt b k).
Proof.
  intros b k Hb Hk. destruct (prod_pert0 b k Hb Hk) as [v Hv]. rewrite (q_avg 0 b k Hb Hk). destruct (pert_avg _ _ _ Hv) as [-> _]. exact Hv.
Qed.
Lemma q_pert : qOf 0 > 0 /\ is_derive qOf 0 0.
Proof.
  pose proof es_pos as L. pose proof (nb_pos O L) as B. destruct (prod_pert0 O O L ltac:(lia)) as [v Hv]. destruct (pert_avg _ _ _ Hv) as [E D].
  split.
  - rewrite (q_avg 0 O O L) by lia. rewrite E. apply exp_pos.
  - eapply is_derive_ext; [|exact D]. intros t. symmetry. apply q_avg; auto.
Qed.

(** The sum over the beads of a block *)
Lemma block_ampl : forall b x, rsum (nbOf b) (fun k => amplAt b k x) =
  - (endAt x b * (behindAt x (b, false) + behindAt x (b, true)) + beadPair (rate x (kuhnOf b)) (nbOf b)).
Proof.
  intros b x. unfold amplAt, ampl. set (n := nbOf b).
  rewrite (rsum_ext n _ (fun k => (step (kuhnOf b) k x * (half (kuhnOf b) x * ahAt (b, false) x) + step (kuhnOf b) (n - 1 - k) x * (half (kuhnOf b) x * ahAt (b, true) x))
     + (-1 * rsum (S k) (fun j => step (kuhnOf b) j x) + -1 * rsum (S (n - 1 - k)) (fun j => step (kuhnOf b) j x)) + 1)) by (intros; ring).
  rewrite !rsum_plus, !rsum_scal_r, !rsum_scal, rsum_const.
  rewrite <- (rsum_rev n (fun k => step (kuhnOf b) k x)), <- (rsum_rev n (fun k => rsum (S k) (fun j => step (kuhnOf b) j x))).
  rewrite beadPair_split. unfold endAt, beadEnd, ahAt. fold n. unfold step. ring.
Qed.

Lemma total_ampl : forall x Wp, beadPairs es (fun b => kuhnOf b) x (fun b => nbOf b) Wp ->
  rsum (length es) (fun b => rsum (nbOf b) (fun k => amplAt b k x)) = - rsum (length es) (fun A => rsum (length es) (fun B => Wp A B)).
Proof.
  intros x Wp [WS WO].
  set (ac := across es p (fun b => kuhnOf b) (fun b => INR (nbOf b)) (endAt x) x).
  rewrite (rsum_ext _ _ (fun b => - (rsum (length es) (fun A => ac A b) + Wp b b))).
  - rewrite rsum_opp. f_equal. rewrite rsum_plus. rewrite rsum_swap.
    rewrite <- rsum_plus. apply rsum_ext. intros A LA.
    rewrite (rsum_ext (length es) (fun B => Wp A B) (fun B => ac A B + (if (B =? A)%nat then Wp A A else 0))).
    + rewrite rsum_plus. f_equal. symmetry. rewrite (rsum_single _ A); auto; [now rewrite Nat.eqb_refl|]. intros B _ NB. apply Nat.eqb_neq in NB. now rewrite NB.
    + intros B LB. destruct (Nat.eqb_spec B A) as [->|NE].
      * unfold ac. rewrite across_same. ring.
      * rewrite Rplus_0_r. destruct (IntraProofs.route_exists es HT A B LA LB (not_eq_sym NE)) as (x0 & l & y & RT).
        rewrite (WO A B x0 l y (not_eq_sym NE) RT). unfold ac. rewrite (across_route es fuel p HT Hf HG _ _ _ _ A B x0 l y (not_eq_sym NE) RT).
        rewrite bead_factor. unfold endAt, half, passAll.
        replace (exp (- (/ 2 * (kuhnOf A ^ 2 + kuhnOf B ^ 2) + throughBlocks (fun b => kuhnOf b) (fun z => INR (nbOf z)) l) * x / 6))
          with (exp (- (x * throughBlocks (fun b => kuhnOf b) (fun b => INR (nbOf b)) l / 6)) * exp (- (rate x (kuhnOf A) / 2)) * exp (- (rate x (kuhnOf B) / 2))); [ring|].
        rewrite <- !exp_plus. f_equal. unfold rate. field.
  - intros b Hb. rewrite block_ampl. f_equal. rewrite (WS b Hb).
    unfold behindAt. rewrite (behind_across es p (fun b => kuhnOf b) (fun b => INR (nbOf b)) (endAt x) x b). fold ac. f_equal.
    unfold beadPair. apply rsum_ext. intros i _. apply rsum_ext. intros j _. rewrite absd_abs. f_equal. unfold rate. field.
Qed.

(** The concentrations *)
Variable s : species.
Definition spAt (t : R) : species := setQ s (qOf t).
Definition concAt (t : R) (b : nat) : field :=
  fun i => rsum (nbOf b) (fun k => prodAt t b k i) * (sp_phi (spAt t) / (sp_q (spAt t) * pBeads bs)).

Lemma compute_conc : forall t, exists c, rpcCompute Bead dims kSq dsT bs (wPert t) es p s 1 = Ok (spAt t, c) /\
  forall b i, (b < length es)%nat -> c b i = concAt t b i.
Proof.
  intros t. destruct (st_facts t) as (E & F & S & _). unfold rpcCompute. rewrite E. cbn [bind]. rewrite F. cbn [bind].
  eexists. split; [unfold spAt; rewrite Rdiv_1; reflexivity|]. intros b i Hb.
  unfold concAt, prodAt, spAt. destruct (S (b, false) Hb) as [-> _]. destruct (S (b, true) Hb) as [-> _]. cbn [fst].
  unfold concBead. unfold pNs at 1. replace (nbOf b + 2 - 2)%nat with (nbOf b) by lia. reflexivity.
Qed.

Lemma pref_derive : is_derive (fun t => sp_phi (spAt t) / (sp_q (spAt t) * pBeads bs)) 0 0.
Proof.
  destruct q_pert as [QP QD]. unfold spAt, setQ.
  assert (NB : pBeads bs > 0). { apply (polymerSize_pos Bead dsT bs HB). intros Q. pose proof es_pos as L. rewrite <- HLen, Q in L. simpl in L. lia. }
  destruct (sp_ens s); cbn [sp_phi sp_q].
  - apply (is_derive_ext (fun t => sp_phi s / pBeads bs * / qOf t)).
    { intros t. unfold Rdiv. rewrite Rinv_mult. match goal with |- ?a = ?b => change (@eq R a b) end. ring. }
    replace 0 with (sp_phi s / pBeads bs * (- 0 / (qOf 0) ^ 2)) at 2.
    + apply (is_derive_scal (fun t => / qOf t)). apply is_derive_inv; [exact QD|lra].
    + unfold Rdiv. ring.
  - replace 0 with ((exp (sp_mu s) * 0 * (qOf 0 * pBeads bs) - (exp (sp_mu s) * qOf 0) * (0 * pBeads bs)) / (qOf 0 * pBeads bs) ^ 2) at 2.
    + apply (is_derive_div (fun t => exp (sp_mu s) * qOf t) (fun t => qOf t * pBeads bs)).
      * apply (is_derive_scal qOf). exact QD.
      * apply (is_derive_ext (fun t => pBeads bs * qOf t)). { intros. apply Rmult_comm. } rewrite (Rmult_comm 0). apply (is_derive_scal qOf). exact QD.
      * apply Rmult_integral_contrapositive_currified; lra.
    + unfold Rdiv. ring.
Qed.

Lemma total_response : forall Wp, (forall k, (k < nK dims)%nat -> beadPairs es (fun b => kuhnOf b) (kSq k) (fun b => nbOf b) (Wp (kSq k))) ->
  forall i, (i < N)%nat -> is_derive (fun t => rsum (length es) (fun b => concAt t b i)) 0
    (- (sp_phi (spAt 0) / pBeads bs) * kOp dims (fun k => rsum (length es) (fun A => rsum (length es) (fun B => Wp (kSq k) A B))) phi i).
Proof.
  intros Wp HWp i Hi. destruct q_pert as [QP QD].
  assert (NB : pBeads bs > 0). { apply (polymerSize_pos Bead dsT bs HB). intros Q. pose proof es_pos as L. rewrite <- HLen, Q in L. simpl in L. lia. }
  set (pref := fun t => sp_phi (spAt t) / (sp_q (spAt t) * pBeads bs)).
  assert (D1 : is_derive (fun t => rsum (length es) (fun b => rsum (nbOf b) (fun k => prodAt t b k i))) 0
     (rsum (length es) (fun b => rsum (nbOf b) (fun k => qOf 0 * opAt (amplAt b k) i)))).
  { apply (is_derive_rsum (length es) (fun b t => rsum (nbOf b) (fun k => prodAt t b k i))). intros b Hb.
    apply (is_derive_rsum (nbOf b) (fun k t => prodAt t b k i)). intros k Hk. apply (prod_pert b k Hb Hk). auto. }
  pose proof (is_derive_Rmult _ _ _ _ _ D1 pref_derive) as D. rewrite Rmult_0_r, Rplus_0_r in D.
  apply (is_derive_ext (fun t => rsum (length es) (fun b => rsum (nbOf b) (fun k => prodAt t b k i)) * pref t)).
  { intros t. unfold pref. rewrite <- rsum_scal_r. reflexivity. }
  match type of D with is_derive _ _ ?d => match goal with |- is_derive _ _ ?d' => replace d' with d; [exact D|] end end.
  rewrite (rsum_ext (length es) _ (fun b => qOf 0 * opAt (fun x => rsum (nbOf b) (fun k => amplAt b k x)) i)).
  2:{ intros b _. rewrite rsum_scal, opAt_rsum. reflexivity. }
  rewrite rsum_scal, opAt_rsum.
  assert (O : opAt (fun x => rsum (length es) (fun b => rsum (nbOf b) (fun k => amplAt b k x))) i =
     - kOp dims (fun k => rsum (length es) (fun A => rsum (length es) (fun B => Wp (kSq k) A B))) phi i).
  { unfold RespBead.opAt. rewrite (kOp_ext dims _ (fun k => -1 * rsum (length es) (fun A => rsum (length es) (fun B => Wp (kSq k) A B))) phi phi).
    - rewrite kOp_scal_e. ring.
    - intros k Hk. rewrite (total_ampl _ _ (HWp k Hk)). ring.
    - auto. }
  rewrite O. assert (SQ : sp_q (spAt 0) = qOf 0) by (unfold spAt, setQ; destruct (sp_ens s); reflexivity). rewrite SQ. field. lra.
Qed.
End R.
