(** C78: the correction that the linear-response compressor makes is the exact
    Newton step at a homogeneous state of the bead model *)
From Coq Require Import Reals ZArith List Bool Arith Lia Lra.
From Coquelicot Require Import Coquelicot.
From Coq Require Import List.
From Verif Require Import Base RSum MeshSpec UnitCellProofs Polymer PolymerSpec PolymerProofs PropsPolymer Solve SolveProofs Species Fft FftProofs
  Rpc RpcProofs PropsRpc FftCompose Fts IntraSpec Intra PropsIntra RespTree RespBead RespPolymer Response.
From Verif Require PolymerModel.
Import ListNotations.
Local Open Scope R_scope.
Notation BEAD := PolymerModel.Bead.

(** ** Specification *)

(** Species as a parameter file gives them: closed ensemble, accepted graph, one
    block per edge, at least one bead in a block *)
Definition goodMol (fuel nm : nat) (y : molecule) : Prop :=
  sp_ens (m_species y) = Closed /\ 0 < sp_phi (m_species y) /\
  m_edges y <> [] /\ length (m_blocks y) = length (m_edges y) /\
  (2 * length (m_edges y) <= fuel)%nat /\ readGraph fuel (m_edges y) = Ok (m_graph y) /\
  Forall (fun b => (1 <= pb_nBead b)%nat /\ (pb_monomer b < nm)%nat) (m_blocks y).
Definition goodSolv (nm : nat) (y : solvent) : Prop :=
  sp_ens (v_species y) = Closed /\ 0 <= sp_phi (v_species y) /\ 0 <= v_size y /\ (v_monomer y < nm)%nat.
(** The grid, and |k|^2 on it: zero at k = 0, and even *)
Definition goodGrid (dims : list Z) (kSq : nat -> R) : Prop :=
  dims <> [] /\ positive dims /\ kSq O = 0 /\ evenOn dims kSq.

Lemma built_mol : forall fuel nm y, goodMol fuel nm y ->
  tree (m_edges y) /\ blocks (chainOf y) = m_edges y /\ proper fuel BEAD (chainOf y) /\ blocks_ok Bead 1 (m_blocks y).
Proof.
  intros fuel nm y (_ & _ & NE & L & F & R & B). pose proof (polymer_accepted_is_tree _ _ _ R) as T. split; auto.
  assert (E : blocks (chainOf y) = m_edges y) by (unfold blocks, chainOf; cbn [c_graph]; apply (IntraProofs.p_es _ _ _ T F R)).
  split; auto. rewrite Forall_forall in B. split.
  - split; [exists fuel, (m_edges y); auto|]. rewrite E. split; [lia|]. assert (P : (0 < length (m_edges y))%nat) by (destruct (m_edges y); simpl; [congruence|lia]).
    split; auto. intros j Hj. unfold contour, chainOf. cbn [c_nBead]. apply lt_0_INR. destruct (B (pblockAt (m_blocks y) j)) as [B1 _]; [|lia].
    unfold pblockAt. apply nth_In. lia.
  - unfold blocks_ok. rewrite Forall_forall. intros b Hb. apply (B b Hb).
Qed.

Lemma addTo_sum : forall nm m f acc i, (m < nm)%nat -> rsum nm (fun j => addTo m f acc j i) = rsum nm (fun j => acc j i) + f i.
Proof.
  intros nm m f acc i H. rewrite (rsum_ext nm _ (fun j => acc j i + (if (j =? m)%nat then f i else 0))).
  - rewrite rsum_plus. f_equal. rewrite (rsum_single _ m); auto; [now rewrite Nat.eqb_refl|]. intros j _ N. apply Nat.eqb_neq in N. now rewrite N.
  - intros j _. unfold addTo. destruct (j =? m)%nat; [reflexivity|ring].
Qed.
Lemma addBlocks_sum : forall nm c bs j acc, Forall (fun b => (pb_monomer b < nm)%nat) bs ->
  exists acc', addBlocks nm bs j c acc = Ok acc' /\
    forall i, rsum nm (fun m => acc' m i) = rsum nm (fun m => acc m i) + rsum (length bs) (fun b => c (j + b)%nat i).
Proof.
  intros nm c. induction bs as [|b bs IH]; intros j acc H; cbn [addBlocks].
  - exists acc. split; auto. intros. simpl. ring.
  - inversion H as [|? ? H1 H2]; subst. apply Nat.ltb_lt in H1 as H1'. rewrite H1'. cbn [check bind].
    destruct (IH (S j) (addTo (pb_monomer b) (c j) acc) H2) as (acc' & E & F). exists acc'. split; auto. intros i.
    rewrite F, addTo_sum by auto. cbn [length]. rewrite rsum_S_first, Nat.add_0_r.
    rewrite (rsum_ext (length bs) (fun b0 => c (S j + b0)%nat i) (fun b0 => c (j + S b0)%nat i)) by (intros; f_equal; lia). ring.
Qed.

Section Sys.
Variables (dims : list Z) (kSq : nat -> R) (dsT : R) (nm fuel : nat) (Wm : nat -> R) (phi : nat -> R).
Hypothesis HG : goodGrid dims kSq.
Hypothesis HA : rsum (nR dims) phi = 0.
Notation w t := (lrUpdate (fun m _ => Wm m) (fun i => t * phi i)).

Definition molConc (y : molecule) (t : R) (b i : nat) : R :=
  concAt dims kSq phi dsT (m_blocks y) Wm (m_edges y) (m_graph y) (m_species y) t b i.
Definition solvConc (y : solvent) (t : R) (i : nat) : R :=
  snd (rpcSolvent (nR dims) (v_size y) (v_species y) (w t (v_monomer y)) 1) i.

Lemma blocks_ds : forall y, blocks_ok Bead 1 (m_blocks y) -> blocks_ok Bead dsT (m_blocks y).
Proof. intros y H. exact H. Qed.

Lemma mixture_total : forall mols solvs t, (0 < length mols + length solvs)%nat -> (0 < nm)%nat ->
  (forall y, In y mols -> goodMol fuel nm y) -> (forall y, In y solvs -> goodSolv nm y) ->
  exists sp c, mixtureCompute Bead dims kSq dsT nm mols solvs (w t) = Ok (sp, c) /\
    forall i, lrResid nm c i = -1 + (lsum (fun y => rsum (length (m_edges y)) (fun b => molConc y t b i)) mols + lsum (fun y => solvConc y t i) solvs).
Proof.
  intros mols solvs t HL Hnm HM HS. destruct HG as (Hne & HP & HK & HE).
  assert (NP : (0 < nR dims)%nat) by (apply INR_lt; change (INR 0) with 0; apply INR_nR; exact HP).
  assert (A : exists ps, computePolymers Bead dims kSq dsT (w t) mols = Ok ps /\ forall acc, exists acc', addPolymers nm ps acc = Ok acc' /\
     forall i, rsum nm (fun m => acc' m i) = rsum nm (fun m => acc m i) + lsum (fun y => rsum (length (m_edges y)) (fun b => molConc y t b i)) mols).
  { clear HL. induction mols as [|y mols IH]; cbn [computePolymers].
    - exists []. split; auto. intros acc. exists acc. split; auto. intros. simpl. ring.
    - destruct IH as (ps & E & IH); [intros; apply HM; right; auto|]. pose proof (HM y (or_introl eq_refl)) as G.
      destruct (built_mol _ _ _ G) as (T & _ & _ & B). destruct G as (G1 & G2 & G3 & G4 & G5 & G6 & G7).
      destruct (compute_conc dims kSq phi dsT (m_blocks y) Wm (m_edges y) fuel (m_graph y) HP T G3 G4 (blocks_ds y B) G5 G6 (m_species y) t) as (c & EC & FC).
      unfold lrUpdate, wPert in *. rewrite EC. cbn [bind]. rewrite E. cbn [bind]. eexists. split; [reflexivity|]. intros acc. cbn [addPolymers].
      destruct (addBlocks_sum nm c (m_blocks y) 0 acc) as (acc1 & E1 & F1).
      { rewrite Forall_forall in *. intros b Hb. apply (G7 b Hb). }
      rewrite E1. cbn [bind]. destruct (IH acc1) as (acc2 & E2 & F2). exists acc2. split; auto. intros i. rewrite F2, F1. cbn [lsum]. rewrite G4.
      rewrite (rsum_ext _ (fun b => c (0 + b)%nat i) (fun b => molConc y t b i)) by (intros b Hb; apply FC; auto). ring. }
  assert (B : exists vs, computeSolvents dims nm (w t) solvs = Ok vs /\ forall acc, exists acc', addSolvents nm vs acc = Ok acc' /\
     forall i, rsum nm (fun m => acc' m i) = rsum nm (fun m => acc m i) + lsum (fun y => solvConc y t i) solvs).
  { clear HL HM A. induction solvs as [|y solvs IH]; cbn [computeSolvents].
    - exists []. split; auto. intros acc. exists acc. split; auto. intros. simpl. ring.
    - destruct IH as (vs & E & IH); [intros; apply HS; right; auto|]. destruct (HS y (or_introl eq_refl)) as (_ & _ & _ & L). apply Nat.ltb_lt in L as L'.
      rewrite L', E. cbn [bind]. eexists. split; [reflexivity|]. intros acc. cbn [addSolvents]. unfold rpcSolvent at 1. rewrite L'. cbn [check bind].
      match goal with |- context [addTo ?m ?f acc] => destruct (IH (addTo m f acc)) as (acc2 & E2 & F2) end. exists acc2. split; auto.
      intros i. rewrite F2, addTo_sum by auto. cbn [lsum]. unfold solvConc at 2. unfold rpcSolvent. cbn [snd]. ring. }
  destruct A as (ps & EA & FA). destruct B as (vs & EB & FB). destruct (FA (fun _ _ => 0)) as (a1 & E1 & F1). destruct (FB a1) as (a2 & E2 & F2).
  unfold mixtureCompute. apply Nat.ltb_lt in NP as ->. apply Nat.ltb_lt in Hnm as ->. apply Nat.ltb_lt in HL as ->. cbn [check bind].
  rewrite EA. cbn [bind]. rewrite E1. cbn [bind]. rewrite EB. cbn [bind]. rewrite E2. cbn [bind].
  eexists. exists a2. split; [reflexivity|]. intros i. unfold lrResid. rewrite F2, F1, rsum_zero. ring.
Qed.

Lemma mol_response : forall y W, goodMol fuel nm y ->
  (forall k, (k < nK dims)%nat -> pairs BEAD (chainOf y) (kSq k) (W (kSq k))) ->
  forall i, (i < nR dims)%nat -> is_derive (fun t => rsum (length (m_edges y)) (fun b => molConc y t b i)) 0
    (- kOp dims (fun k => sp_phi (m_species y) / segments BEAD (chainOf y) *
       rsum (length (blocks (chainOf y))) (fun A => rsum (length (blocks (chainOf y))) (fun B => W (kSq k) A B))) phi i).
Proof.
  intros y W G HW i Hi. destruct HG as (Hne & HP & HK & HE). destruct (built_mol _ _ _ G) as (T & EB & _ & B).
  destruct G as (G1 & G2 & G3 & G4 & G5 & G6 & G7). unfold pairs in HW. rewrite EB in *.
  pose proof (total_response dims kSq phi dsT (m_blocks y) Wm (m_edges y) fuel (m_graph y) Hne HP HK HE HA T G3 G4 (blocks_ds y B) G5 G6
    (m_species y) W HW i Hi) as D.
  rewrite kOp_scal_e.
  assert (S : segments BEAD (chainOf y) = pBeads (m_blocks y)).
  { unfold segments. rewrite EB, <- G4. exact (sum_blockSize Bead (m_blocks y)). }
  rewrite S. assert (P : sp_phi (spAt dims kSq phi dsT (m_blocks y) Wm (m_edges y) (m_graph y) (m_species y) 0) = sp_phi (m_species y)).
  { unfold spAt, setQ. rewrite G1. reflexivity. }
  rewrite P in D. rewrite Ropp_mult_distr_l. exact D.
Qed.

Lemma solv_response : forall y, goodSolv nm y ->
  forall i, (i < nR dims)%nat -> is_derive (fun t => solvConc y t i) 0 (- (sp_phi (v_species y) * v_size y * phi i)).
Proof.
  intros y (G1 & _) i Hi. destruct HG as (Hne & HP & HK & HE). destruct (INR_nR dims HP) as [_ PN].
  set (e := fun t i => exp (- (v_size y * (Wm (v_monomer y) + t * phi i)))).
  assert (PE : pert dims kSq phi e (exp (- (v_size y * Wm (v_monomer y)))) (fun _ => - v_size y)) by (apply pert_exp; auto).
  destruct (pert_avg dims kSq phi Hne HP HA _ _ _ PE) as [Q0 QD]. set (Q := fun t => rsum (nR dims) (e t) / INR (nR dims)) in *.
  assert (QP : Q 0 > 0) by (unfold Q; rewrite Q0; apply exp_pos). destruct PE as [E0 ED].
  assert (EQ : forall t, solvConc y t i = sp_phi (v_species y) * (e t i * / Q t)).
  { intros t. unfold solvConc, rpcSolvent, setQ. rewrite G1. cbn [snd sp_phi].
    assert (X : forall j, exp (- v_size y * lrUpdate (fun m _ => Wm m) (fun i => t * phi i) (v_monomer y) j) = e t j).
    { intros j. unfold e, lrUpdate. f_equal. ring. }
    rewrite X. rewrite (rsum_ext (nR dims) _ (e t)) by (intros; apply X). unfold Q. rewrite Rdiv_1. unfold Rdiv. ring. }
  apply (is_derive_ext (fun t => sp_phi (v_species y) * (e t i * / Q t))). { intros t. symmetry. apply EQ. }
  pose proof (is_derive_Rmult _ _ _ _ _ (ED i Hi) (is_derive_inv Q 0 0 QD ltac:(lra))) as D.
  apply (is_derive_scal (fun t => e t i * / Q t)) with (k := sp_phi (v_species y)) in D.
  match type of D with is_derive _ _ ?d => match goal with |- is_derive _ _ ?d' => replace d' with d; [exact D|] end end.
  rewrite E0 by auto. unfold Q at 1. rewrite Q0.
  assert (O : opAt dims kSq phi (fun _ => - v_size y) i = - v_size y * phi i).
  { rewrite (opAt_ext dims kSq phi _ (fun x => - v_size y * 1)) by (intros; ring). rewrite (opAt_scal dims kSq phi (- v_size y) (fun _ => 1)), opAt_one by auto. ring. }
  rewrite O. fold (Q 0). unfold Rdiv. rewrite Ropp_0, !Rmult_0_l, Rmult_0_r. field; try lra. apply Rgt_not_eq, exp_pos.
Qed.
End Sys.

Lemma kOp_lsum : forall {A} dims (e : A -> nat -> R) f l i, kOp dims (fun k => lsum (fun a => e a k) l) f i = lsum (fun a => kOp dims (e a) f i) l.
Proof.
  intros A dims e f l i. induction l as [|a l IH]; cbn [lsum]; [apply kOp_zero_e|]. rewrite <- IH. apply (kOp_sum_e dims (e a) (fun k => lsum (fun a => e a k) l)).
Qed.
Lemma is_derive_lsum : forall {A} (f : A -> R -> R) d l x, (forall a, In a l -> is_derive (f a) x (d a)) -> is_derive (fun t => lsum (fun a => f a t) l) x (lsum d l).
Proof.
  induction l as [|a l IH]; intros x H; cbn [lsum]; [apply (is_derive_const 0)|].
  apply (is_derive_plus (f a) (fun t => lsum (fun a => f a t) l)); [apply H; left; auto|apply IH; intros; apply H; right; auto].
Qed.

(** ** Theorems *)

(** The response of the total concentration to a common small change phi of all
    fields, of zero average, at a homogeneous state is - v S phi, where S is the
    intramolecular correlation function. *)
Theorem C78_response : forall dims kSq dsT nm fuel mols solvs Wm phi v W,
  goodGrid dims kSq -> rsum (nR dims) phi = 0 -> v <> 0 -> (0 < length mols + length solvs)%nat -> (0 < nm)%nat ->
  (forall y, In y mols -> goodMol fuel nm y) -> (forall y, In y solvs -> goodSolv nm y) ->
  (forall y k, In y mols -> (k < nK dims)%nat -> pairs BEAD (chainOf y) (kSq k) (W (kSq k) (chainOf y))) ->
  exists sp c, (forall t, mixtureCompute Bead dims kSq dsT nm mols solvs (lrUpdate (fun m _ => Wm m) (fun i => t * phi i)) = Ok (sp t, c t)) /\
    forall i, (i < nR dims)%nat -> is_derive (fun t => lrResid nm (c t) i) 0
      (- (v * kOp dims (fun k => exact BEAD v (W (kSq k)) (map chainOf mols) (map smallOf solvs)) phi i)).
Proof.
  intros dims kSq dsT nm fuel mols solvs Wm phi v W HG HA Hv HL Hnm HM HS HW. destruct (HG) as (Hne & HP & HK & HE).
  set (run := fun t => mixtureCompute Bead dims kSq dsT nm mols solvs (lrUpdate (fun m _ => Wm m) (fun i => t * phi i))).
  exists (fun t => match run t with Ok (sp, _) => sp | _ => ([], []) end), (fun t => match run t with Ok (_, c) => c | _ => fun _ _ => 0 end). split.
  - intros t. destruct (mixture_total dims kSq dsT nm fuel Wm phi HG mols solvs t HL Hnm HM HS) as (sp & c & E & _). unfold run. rewrite E. reflexivity.
  - intros i Hi.
    apply (is_derive_ext (fun t => -1 + (lsum (fun y => rsum (length (m_edges y)) (fun b => molConc dims kSq dsT Wm phi y t b i)) mols
       + lsum (fun y => solvConc dims Wm phi y t i) solvs))).
    { intros t. destruct (mixture_total dims kSq dsT nm fuel Wm phi HG mols solvs t HL Hnm HM HS) as (sp & c & E & F). unfold run. rewrite E. symmetry. apply F. }
    pose proof (is_derive_lsum (fun y t => rsum (length (m_edges y)) (fun b => molConc dims kSq dsT Wm phi y t b i)) _ mols 0
      (fun y Hy => mol_response dims kSq dsT nm fuel Wm phi HG HA y (fun x => W x (chainOf y)) (HM y Hy) (fun k Hk => HW y k Hy Hk) i Hi)) as D1.
    pose proof (is_derive_lsum (fun y t => solvConc dims Wm phi y t i) _ solvs 0 (fun y Hy => solv_response dims kSq nm Wm phi HG HA y (HS y Hy) i Hi)) as D2.
    pose proof (is_derive_plus (fun _ => -1) _ _ _ _ (is_derive_const (-1) 0) (is_derive_plus _ _ _ _ _ D1 D2)) as D.
    match type of D with is_derive _ _ ?d => match goal with |- is_derive _ _ ?d' => replace d' with d; [exact D|] end end.
    unfold plus, zero; cbn. rewrite Rplus_0_l. unfold exact. rewrite kOp_sum_e, Rmult_plus_distr_l, Ropp_plus_distr. f_equal.
    + rewrite (kOp_lsum dims (fun c k => exactChain BEAD v (W (kSq k)) c)), IntraSums.lsum_map, Ropp_mult_distr_l, <- lsum_scal. apply lsum_ext. intros y Hy.
      rewrite <- Ropp_mult_distr_l, <- kOp_scal_e. f_equal. apply kOp_ext; auto. intros k Hk. unfold exactChain.
      destruct (built_mol _ _ _ (HM y Hy)) as (_ & _ & PR & _). pose proof (segments_pos fuel BEAD _ PR).
      change (c_phi (chainOf y)) with (sp_phi (m_species y)). field. split; [auto|lra].
    + rewrite (kOp_lsum dims (fun s _ => s_phi s * s_size s / v)), IntraSums.lsum_map, Ropp_mult_distr_l, <- lsum_scal. apply lsum_ext. intros y Hy.
      rewrite <- Ropp_mult_distr_l, <- kOp_scal_e. f_equal. rewrite (kOp_ext dims _ (fun k => (sp_phi (v_species y) * v_size y) * (fun _ => 1) k) phi phi).
      * rewrite kOp_scal_e, kOp_one by auto. reflexivity.
      * intros. cbn [smallOf s_phi s_size]. field. auto.
      * auto.
Qed.

(** The correction made by the compressor for a residual r of zero average changes
    the residual, to first order, by - r multiplied in k-space by the ratio of the
    exact correlation function and that of the code, for all grids. *)
Theorem C78_step : forall dims kSq dsT nm fuel mols solvs Wm v r W,
  goodGrid dims kSq -> rsum (nR dims) r = 0 -> 0 < v -> mols <> [] -> (0 < nm)%nat ->
  (forall y, In y mols -> goodMol fuel nm y) -> (forall y, In y solvs -> goodSolv nm y) ->
  (forall k, (k < nK dims)%nat -> 0 <= kSq k) ->
  (forall y k, In y mols -> (k < nK dims)%nat -> pairs BEAD (chainOf y) (kSq k) (W (kSq k) (chainOf y))) ->
  let S := fun k => exact BEAD v (W (kSq k)) (map chainOf mols) (map smallOf solvs) in
  exists corr sp c, (forall k, (k < nK dims)%nat -> intraCorrelation fuel BEAD v (map chainOf mols) (map smallOf solvs) (kSq k) = Ok (corr k) /\ 0 < corr k /\
      Rabs (corr k - S k) <= 2 / 100000 * lsum (fun c => c_phi c * segments BEAD c / v) (map chainOf mols)) /\
    (forall t, mixtureCompute Bead dims kSq dsT nm mols solvs (lrUpdate (fun m _ => Wm m) (fun i => t * lrShift dims v corr r i)) = Ok (sp t, c t)) /\
    forall i, (i < nR dims)%nat -> is_derive (fun t => lrResid nm (c t) i) 0 (- kOp dims (fun k => S k / corr k) r i).
Proof.
  intros dims kSq dsT nm fuel mols solvs Wm v r W HG HA Hv NM Hnm HM HS HK0 HWk S. destruct (HG) as (Hne & HP & HK & HE).
  assert (PR : forall c, In c (map chainOf mols) -> proper fuel BEAD c /\ 0 < c_phi c).
  { intros c Hc. apply in_map_iff in Hc. destruct Hc as (y & <- & Hy). destruct (built_mol _ _ _ (HM y Hy)) as (_ & _ & P & _). split; auto. apply (HM y Hy). }
  assert (PS : forall s, In s (map smallOf solvs) -> 0 <= s_phi s * s_size s).
  { intros s Hs. apply in_map_iff in Hs. destruct Hs as (y & <- & Hy). destruct (HS y Hy) as (_ & P1 & P2 & _). apply Rmult_le_pos; auto. }
  set (sigma := fun x => match intraCorrelation fuel BEAD v (map chainOf mols) (map smallOf solvs) x with Ok s => s | _ => 0 end).
  assert (SP : forall k, (k < nK dims)%nat -> intraCorrelation fuel BEAD v (map chainOf mols) (map smallOf solvs) (kSq k) = Ok (sigma (kSq k)) /\ 0 < sigma (kSq k) /\
      Rabs (sigma (kSq k) - S k) <= 2 / 100000 * lsum (fun c => c_phi c * segments BEAD c / v) (map chainOf mols)).
  { intros k Hk.
    destruct (C77_positive fuel BEAD v (map chainOf mols) (map smallOf solvs) (kSq k) (HK0 k Hk) Hv) as (s & s0 & E1 & _ & P1 & _); auto.
    { intros Q. apply map_eq_nil in Q. auto. }
    destruct (C77_bound fuel BEAD v (map chainOf mols) (map smallOf solvs) (kSq k) (W (kSq k)) (HK0 k Hk) Hv) as (s' & E2 & B).
    { intros c Hc. destruct (PR c Hc). split; auto. split; [|lra]. apply in_map_iff in Hc. destruct Hc as (y & <- & Hy). auto. }
    rewrite E1 in E2. injection E2 as <-. unfold sigma. rewrite E1. auto. }
  set (corr := fun k => sigma (kSq k)). set (phi := lrShift dims v corr r).
  assert (ZA : rsum (nR dims) phi = 0).
  { unfold phi, lrShift. change (fun i => kOp dims _ r i) with (kOp dims (fun k => 1 / (v * corr k)) r). rewrite kOp_avg by auto. rewrite HA. ring. }
  assert (HL : (0 < length mols + length solvs)%nat) by (destruct mols; simpl; [congruence|lia]).
  destruct (C78_response dims kSq dsT nm fuel mols solvs Wm phi v W HG ZA ltac:(lra) HL Hnm HM HS HWk) as (sp & c & R1 & R2).
  exists corr, sp, c. split; [exact SP|]. split; [exact R1|].
  intros i Hi. specialize (R2 i Hi).
  match type of R2 with is_derive _ _ ?d => match goal with |- is_derive _ _ ?d' => replace d' with d; [exact R2|] end end.
  f_equal. rewrite <- kOp_scal_e. unfold phi, lrShift.
  rewrite (kOp_compose dims Hne HP (fun k => v * S k) (fun k => 1 / (v * corr k))); auto.
  - apply kOp_ext; auto. intros k Hk. pose proof (SP k Hk) as (_ & P & _). unfold corr. field. lra.
  - apply (even_comp dims kSq (fun x => v * exact BEAD v (W x) (map chainOf mols) (map smallOf solvs))). auto.
  - apply (even_comp dims kSq (fun x => 1 / (v * sigma x))). auto.
Qed.

(** If no k of the grid is below the threshold of the series (C77), then it is the
    Newton step: the residual changes by - r.  Without the condition see C78_step. *)
Theorem C78_newton_partial : forall dims kSq dsT nm fuel mols solvs Wm v r,
  goodGrid dims kSq -> rsum (nR dims) r = 0 -> 0 < v -> mols <> [] -> (0 < nm)%nat ->
  (forall y, In y mols -> goodMol fuel nm y) -> (forall y, In y solvs -> goodSolv nm y) ->
  (forall k, (k < nK dims)%nat -> kSq k = 0 \/ 0 <= kSq k /\ forall y b, In y mols -> In b (m_blocks y) -> 1 / 100000 <= INR (pb_nBead b) * (kSq k * pb_kuhn b ^ 2 / 6)) ->
  exists corr sp c, (forall k, (k < nK dims)%nat -> intraCorrelation fuel BEAD v (map chainOf mols) (map smallOf solvs) (kSq k) = Ok (corr k)) /\
    (forall t, mixtureCompute Bead dims kSq dsT nm mols solvs (lrUpdate (fun m _ => Wm m) (fun i => t * lrShift dims v corr r i)) = Ok (sp t, c t)) /\
    forall i, (i < nR dims)%nat -> is_derive (fun t => lrResid nm (c t) i) 0 (- r i).
Proof.
  intros dims kSq dsT nm fuel mols solvs Wm v r HG HA Hv NM Hnm HM HS HTh. destruct (HG) as (Hne & HP & HK & HE).
  assert (PR : forall c, In c (map chainOf mols) -> proper fuel BEAD c).
  { intros c Hc. apply in_map_iff in Hc. destruct Hc as (y & <- & Hy). destruct (built_mol _ _ _ (HM y Hy)) as (_ & _ & P & _). auto. }
  assert (HW : exists W, forall c x, In c (map chainOf mols) -> pairs BEAD c x (W x c)).
  { assert (Q : forall c x, In c (map chainOf mols) -> exists W, pairs BEAD c x W) by (intros c x Hc; apply (C77_pairs_exist fuel); auto).
    exists (fun x c => IntraSums.pairMat BEAD fuel c x (diagExact BEAD c x) (endExact BEAD c x)). intros c x Hc.
    destruct (Q c x Hc) as [W HW]. pose proof (PR c Hc) as P.
    pose proof (s_tree fuel BEAD c P) as T. pose proof (s_read fuel BEAD c P) as R. pose proof (s_fuel fuel BEAD c P) as F.
    unfold pairs. constructor.
    - intros A LA. unfold IntraSums.pairMat. rewrite Nat.eqb_refl. unfold diagExact, PropsDebye.beadPair. apply rsum_ext. intros i _. apply rsum_ext. intros j _.
      rewrite IntraSums.absd_abs. f_equal. unfold PropsDebye.rate. field.
    - intros A B x0 l y NE RT. unfold IntraSums.pairMat. apply Nat.eqb_neq in NE as NE'. rewrite NE', IntraSums.bead_factor.
      rewrite (IntraSums.gap_route (blocks c) BEAD fuel c T R F A B x0 l y NE RT). reflexivity. }
  destruct HW as [W HW].
  assert (EX : forall k, (k < nK dims)%nat -> intraCorrelation fuel BEAD v (map chainOf mols) (map smallOf solvs) (kSq k) =
     Ok (exact BEAD v (W (kSq k)) (map chainOf mols) (map smallOf solvs))).
  { intros k Hk. apply C77_exact. intros c Hc. split; [apply (PR c Hc)|]. split; [apply HW; auto|].
    destruct (HTh k Hk) as [Z|[P1 P2]]; [left; auto|right; split; auto]. intros j Hj. apply in_map_iff in Hc. destruct Hc as (y & <- & Hy).
    destruct (built_mol _ _ _ (HM y Hy)) as (_ & EB & _). rewrite EB in Hj. apply (P2 y (pblockAt (m_blocks y) j) Hy).
    unfold pblockAt. apply nth_In. destruct (HM y Hy) as (_ & _ & _ & G4 & _). lia. }
  destruct (C78_step dims kSq dsT nm fuel mols solvs Wm v r W HG HA Hv NM Hnm HM HS) as (corr & sp & c & R1 & R2 & R3).
  { intros k Hk. destruct (HTh k Hk) as [Z|[P1 _]]; lra. }
  { intros y k Hy _. apply HW, in_map, Hy. }
  exists corr, sp, c. split; [intros k Hk; apply (R1 k Hk)|]. split; [exact R2|].
  intros i Hi. specialize (R3 i Hi). rewrite (kOp_ext dims _ (fun _ => 1) r r) in R3; [rewrite kOp_one in R3 by auto; exact R3| |auto].
  intros k Hk. destruct (R1 k Hk) as (E & P & _). rewrite (EX k Hk) in E. injection E as E. rewrite E. unfold Rdiv. apply Rinv_r. lra.
Qed.

(** ** A case: comb copolymer and solvent on a grid of four points *)
Definition caseBlock (b : nat) : pblock := mkPBlock (INR (S b)) (S b) (if Nat.even b then 1 else 2) (Nat.b2n (Nat.odd b)).
Definition caseMol : molecule := Mol (map caseBlock (seq 0 5)) combGraph combPolymer (mkSpecies Closed (9 / 10) 0 0).
Definition caseSolv : solvent := Solv 1 1 (mkSpecies Closed (1 / 10) 0 0).
Definition caseSq (k : nat) : R := INR k ^ 2.
Lemma case_mol : goodMol 20 2 caseMol.
Proof.
  unfold goodMol, caseMol. cbn [m_species m_edges m_blocks m_graph sp_ens sp_phi]. split; [reflexivity|]. split; [lra|]. split; [discriminate|]. split; [reflexivity|].
  split; [simpl; lia|]. split; [vm_compute; reflexivity|]. apply Forall_forall. intros b Hb. apply in_map_iff in Hb. destruct Hb as (j & <- & Hj).
  unfold caseBlock. cbn [pb_nBead pb_monomer]. destruct (Nat.odd j); simpl; lia.
Qed.
Lemma case_grid : goodGrid [4%Z] caseSq.
Proof.
  split; [discriminate|]. split; [repeat constructor; lia|]. split; [unfold caseSq; simpl; ring|].
  exists (fun p => match p with [z] => IZR (Z.min z (4 - z)) ^ 2 | _ => 0 end). split.
  - intros p Hp. destruct p as [|x [|x' p']]; [inversion Hp| |inversion Hp as [|? ? ? ? ? Q]; inversion Q].
    assert (Hx : (0 <= x < 4)%Z) by (inversion Hp; auto).
    cbn [negmod].
    assert (C : (x = 0 \/ x = 1 \/ x = 2 \/ x = 3)%Z) by lia. destruct C as [-> | [-> | [-> | ->]]]; reflexivity.
  - intros k Hk. change (nK [4%Z]) with 3%nat in Hk. unfold caseSq. destruct k as [|[|[|k]]]; [| | |lia]; vm_compute gridPos; cbn; lra.
Qed.

Lemma case_newton : forall r, rsum 4 r = 0 -> forall Wm dsT, exists corr sp c,
  (forall k, (k < 3)%nat -> intraCorrelation 20 BEAD 1 [chainOf caseMol] [smallOf caseSolv] (caseSq k) = Ok (corr k)) /\
  (forall t, mixtureCompute Bead [4%Z] caseSq dsT 2 [caseMol] [caseSolv] (lrUpdate (fun m _ => Wm m) (fun i => t * lrShift [4%Z] 1 corr r i)) = Ok (sp t, c t)) /\
  forall i, (i < 4)%nat -> is_derive (fun t => lrResid 2 (c t) i) 0 (- r i).
Proof.
  intros r Hr Wm dsT. apply (C78_newton_partial [4%Z] caseSq dsT 2 20 [caseMol] [caseSolv] Wm 1 r case_grid Hr); try lra; try discriminate; try lia.
  - intros y [<-|[]]. exact case_mol.
  - intros y [<-|[]]. unfold goodSolv, caseSolv. cbn. split; [reflexivity|]. split; [lra|]. split; [lra|lia].
  - intros k _. destruct k as [|k]; [left; unfold caseSq; simpl; ring|right].
    assert (K : 1 <= caseSq (S k)) by (unfold caseSq; rewrite S_INR; pose proof (pos_INR k); nra). split; [lra|].
    intros y b [<-|[]] Hb. cbn [m_blocks caseMol] in Hb. apply in_map_iff in Hb. destruct Hb as (j & <- & _). unfold caseBlock. cbn [pb_nBead pb_kuhn].
    assert (H : 1 <= INR (S j)) by (rewrite S_INR; pose proof (pos_INR j); lra).
    assert (G : 1 / 6 <= caseSq (S k) * (if Nat.even j then 1 else 2) ^ 2 / 6) by (destruct (Nat.even j); simpl; lra).
    assert (1 * (1 / 6) <= INR (S j) * (caseSq (S k) * (if Nat.even j then 1 else 2) ^ 2 / 6)) by (apply Rmult_le_compat; lra). lra.
Qed.

Print Assumptions C78_response.
Print Assumptions C78_step.
Print Assumptions C78_newton_partial.
