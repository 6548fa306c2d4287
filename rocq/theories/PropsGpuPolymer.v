(** C75: a polymer solver on the GPU computes what the CPU computes, for all
    interleavings of threads. *)
From Coq Require Import Reals ZArith Lia Lra Bool Arith Permutation.
From Coq Require Import List.
From Verif Require Import Base RSum MeshSpec Mesh MeshProofs PolymerSpec Polymer PolymerProofs PropsPolymer GpuThreads GpuKernel GpuWaveHost
  VecOp VecOpSpec Solve SolveProofs Species Fft FftProofs R1d Rpc RpcProofs PropsRpc Stress GpuBlock GpuRep GpuBlockProofs GpuBlockRuns
  GpuPolymer GpuPolymerSpec GpuPolymerProofs PropsR1d PropsGpuWave PropsVecOp.
Import ListNotations.
Local Open Scope nat_scope.

(** ** From the specification to the lemmas *)

Lemma points : forall model dsT bs n, blocks_ok model dsT bs -> length bs = n -> forall b, b < n -> 3 <= pNs model dsT bs b.
Proof.
  intros model dsT bs n H L b Hb. assert (I : In (pblockAt bs b) bs) by (unfold pblockAt; apply nth_In; lia).
  unfold pNs. destruct model; cbn in H.
  - destruct H as [H1 H2]. rewrite Forall_forall in H2. destruct (rpcNs_cases _ dsT (H2 _ I) H1) as (m & A & B & _). rewrite B. lia.
  - rewrite Forall_forall in H. specialize (H _ I). lia.
Qed.

Lemma nR_pos_ : forall dims, positive dims -> 0 < nR dims.
Proof. intros dims H. apply INR_lt. change (INR 0) with 0%R. now apply INR_nR. Qed.

Lemma plan_facts : forall es fuel p, tree es -> (2 * length es <= fuel) -> readGraph fuel es = Ok p ->
  (forall x, In x (p_plan p) <-> fst x < length es) /\
  (forall x, fst x < length es -> isHeadEnd es (p_vertices p) x = true -> sources es (p_vertices p) x = []).
Proof.
  intros es fuel p HT Hf E.
  destruct (readGraph_tree es fuel HT ltac:(lia)) as [p' [E' [_ [HV [P1 [P2 _]]]]]]. rewrite E in E'. injection E' as <-.
  split.
  - intros x. rewrite <- in_allDarts. split; apply Permutation_in; auto. now apply Permutation_sym.
  - intros x Hx Hh.
    destruct (solveAll_ok (fun _ _ _ _ => []) (fun _ => true) true es fuel p HT eq_refl Hf E) as (_ & V' & _).
    unfold tmplValid in V'. apply andb_true_iff in V'. destruct V' as [_ V2]. rewrite forallb_forall in V2.
    specialize (V2 x (proj2 (in_allDarts _ _) Hx)). apply Nat.eqb_eq in V2. unfold isHeadEnd in Hh. apply Nat.eqb_eq in Hh. rewrite Hh in V2.
    now apply length_zero_iff_nil.
Qed.

Lemma and_iff_compat_both : forall A B A' B' : Prop, (A <-> A') -> (B <-> B') -> (A /\ B <-> A' /\ B').
Proof. tauto. Qed.
Lemma ksq_holds : forall model dsT bs arr kSq m b,
  holds_expKsq model dsT bs arr kSq m b <->
  holdsR m (a_expKsq (arr b)) (expKsq kSq model (pb_kuhn (pblockAt bs b)) (pDs model dsT bs b)) /\
  holdsR m (a_expKsq2 (arr b)) (expKsq2 kSq model (pb_kuhn (pblockAt bs b)) (pDs model dsT bs b)).
Proof.
  intros model dsT bs arr kSq m b. set (B := pblockAt bs b).
  assert (F : forall d f f', (forall k, f k = f' k) -> holdsR m d f <-> holdsR m d f').
  { intros d f f' H. split; intros Q i Hi; rewrite (Q i Hi); now rewrite H. }
  unfold holds_expKsq. fold B.
  apply and_iff_compat_both; apply F; intros k; unfold expKsq, expKsq2, bSqFactor, pDs; f_equal; destruct model; field.
Qed.

Section Main.
Variables (dev : device) (sched : nat -> vop -> nat -> nat -> list nat) (dims : list Z).
Variables (model : polyModel) (batched : bool) (dsT : R) (bs : list pblock).
Variables (arr : nat -> garrays) (wD : nat -> darr) (kSqD : darr) (dKSqD : nat -> darr) (nParams : nat).
Variables (es : list edge) (fuel : nat) (p : polymer).
Variables (w : nat -> field) (kSq : nat -> R) (dKSq : nat -> nat -> R) (s : species) (phiTot : R).
Notation nB := (length es).
Notation memory_ok := (solver_memory dims model batched dsT bs nB arr wD kSqD dKSqD nParams w kSq dKSq).
Notation compute := (gpuCompute dev sched dims model dsT bs arr wD kSqD es (p_vertices p) (p_plan p)).
Notation stress := (gpuStress dev sched dims model batched dsT bs arr dKSqD nParams es (p_vertices p)).
Notation cpuSolve := (solveAll (rpcSlices model dims kSq dsT bs w) (rpcTailOk model) true es (p_vertices p) (p_plan p)).
Notation outside y := (forall b d t n, b < nB -> In (d, t, n) (arraysOf dims model batched (pNs model dsT bs b) (arr b)) -> ~ occupies d y).

(** What compute leaves: the species s', the concentrations, and all that is needed
    for another call *)
Definition computed (s' : species) (c : nat -> field) (g g' : gstate) : Prop :=
  rpcCompute model dims kSq dsT bs w es p s phiTot = Ok (s', c) /\
  (forall b, b < nB -> holdsR (g_mem g') (a_c (arr b)) (c b)) /\
  (forall b, b < nB -> holds_expKsq model dsT bs arr kSq (g_mem g') b) /\
  memory_ok (g_mem g') /\ ready dev (g_thr g') /\
  forall y, outside y -> g_mem g' y = g_mem g y.

Lemma all_facts : forall has g,
  (forall t o, fair o (sched t o)) -> ready dev (g_thr g) -> positive dims -> tree es -> es <> [] -> length bs = nB -> blocks_ok model dsT bs ->
  2 * nB <= fuel -> readGraph fuel es = Ok p -> memory_ok (g_mem g) ->
  (forall b, b < nB -> has b = true -> holds_expKsq model dsT bs arr kSq (g_mem g) b) ->
  exists s' c g' sv st, compute s phiTot has g = Ok (s', (g', sv)) /\ cpuSolve = Ok st /\ computed s' c g g' /\
    (forall x, sv x = isSolved st x) /\
    (forall b q f, b < nB -> model = Bead -> isTailEnd es (p_vertices p) (b, q) = true ->
       holdsR (g_mem g) (qField dims (arr b) q (pNs model dsT bs b - 1)) f ->
       holdsR (g_mem g') (qField dims (arr b) q (pNs model dsT bs b - 1)) f) /\
    ((batched = true -> model = Bead -> forall b q, b < nB -> defined (g_mem g) (qAll (arr b) q)) ->
     exists g'' y, stress s' (g', sv) = Ok (g'', y) /\
       (forall n, n < nParams -> y n = polymerStress model dims kSq (dKSq n) dsT bs es (p_vertices p) st s') /\
       computed s' c g g'').
Proof.
  intros has g Hfair Rd HD HT Hne HL HB Hf HG [Hlo Hw Hk Hd] Hh.
  pose proof (points model dsT bs nB HB HL) as Hns. destruct (plan_facts es fuel p HT Hf HG) as [Hp Hv].
  assert (H0 : 0 < nB) by (destruct es; cbn; [congruence|lia]).
  pose proof (nR_pos_ dims HD) as Hnx. pose proof (nK_pos dims HD) as Hnk.
  set (mi := g_mem g) in *. set (vs := p_vertices p) in *.
  pose proof (start dev dims Hnx Hnk model batched dsT bs arr wD kSqD dKSqD nParams es mi Hlo kSq has g eq_refl Rd
    (fun b Hb E => proj1 (ksq_holds model dsT bs arr kSq mi b) (Hh b Hb E))) as M0.
  assert (Fin : forall s' c st g', rpcCompute model dims kSq dsT bs w es p s phiTot = Ok (s', c) ->
     mok dev dims model batched dsT bs arr kSqD es mi
       (desc model dsT bs es vs w kSq (found dims arr kSqD mi) st (fun b => Some (c b))) g' -> computed s' c g g').
  { intros s' c st g' E M.
    pose proof (fun b a f Hb La Oa T => finish_real dev dims Hnx Hnk model batched dsT bs arr wD kSqD dKSqD nParams es mi Hlo _ g' b a f Hb La Oa T M) as FR.
    split; [exact E|]. split; [|split; [|split; [|split]]].
    - intros b Hb. exact (FR b N_c (c b) Hb I I eq_refl eq_refl).
    - intros b Hb. apply ksq_holds. split.
      + exact (FR b N_expKsq _ Hb I I eq_refl eq_refl).
      + exact (FR b N_expKsq2 _ Hb I I eq_refl eq_refl).
    - pose proof (still dev dims Hnx Hnk model batched dsT bs arr wD kSqD dKSqD nParams es mi Hlo _ g' M) as L.
      pose proof (fun d n I => proj2 (in_mem dev dims Hnx Hnk model batched dsT bs arr wD kSqD dKSqD nParams es mi Hlo _ g' d n M I)) as IM.
      constructor; [exact L| | |].
      + intros b Hb. apply (IM _ (nR dims)); [|now apply Hw]. left. exists b. auto.
      + apply (IM _ (nK dims)); [|exact Hk]. right. left. auto.
      + intros n Hn. apply (IM _ (nK dims)); [|now apply Hd]. right. right. exists n. auto.
    - apply M.
    - intros y Hy. exact (GpuPolymerProofs.outside dev dims model batched dsT bs arr wD kSqD dKSqD nParams es mi Hlo _ g' y M Hy). }
  destruct (rpc_Q_independent_of_propagator model dims kSq dsT bs w es fuel p HD HT HL HB Hf HG) as (st0 & Q & ES & EQ & _).
  pose proof (compute_all dev sched dims Hfair Hnx Hnk model batched dsT bs arr wD kSqD dKSqD nParams es vs Hns mi Hlo w kSq dKSq Hw Hk Hd Hv
    (found dims arr kSqD mi) p s phiTot has g eq_refl Hp H0 M0) as CA.
  assert (EC : exists s' c, rpcCompute model dims kSq dsT bs w es p s phiTot = Ok (s', c)).
  { unfold rpcCompute. rewrite ES. cbn [bind]. rewrite (EQ 0 false H0). cbn [bind]. eauto. }
  destruct EC as (s' & c & EC). rewrite EC in CA. destruct CA as (g' & sv & st & E1 & E2 & M & Hs & AS).
  exists s', c, g', sv, st. split; [exact E1|]. split; [exact E2|]. split; [now apply (Fin s' c st)|]. split; [exact Hs|]. split.
  - intros b q f Hb Em Te H. pose proof (Hns b Hb).
    apply (stale dev dims Hnx Hnk model batched dsT bs arr wD kSqD dKSqD nParams es vs mi Hlo w kSq st (fun b => Some (c b)) g' b q
      (pNs model dsT bs b - 1) f M Hb); [lia| |exact H].
    unfold upto, lastSlice. cbn [fst]. rewrite Te. rewrite Em in *. lia.
  - intros Hdef.
    destruct (stress_all dev sched dims Hfair Hnx Hnk model batched dsT bs arr wD kSqD dKSqD nParams es vs Hns mi Hlo w kSq dKSq Hw Hk Hd
      (found dims arr kSqD mi) st (fun b => Some (c b)) s' (g', sv) M AS Hs) as (g'' & y & E3 & M3 & V).
    + intros Eb Em b q j Hb Hj.
      apply (found_defined dims Hnx Hnk model batched dsT bs arr wD kSqD dKSqD nParams es mi Hlo); auto.
    + exists g'', y. split; [exact E3|]. split; [exact V|]. now apply (Fin s' c st).
Qed.
End Main.

(** One call of compute *)
Theorem C75_compute : forall dev sched dims model batched dsT bs arr wD kSqD dKSqD nParams es fuel p w kSq dKSq s phiTot has g,
  (forall t o, fair o (sched t o)) -> ready dev (g_thr g) ->
  positive dims -> tree es -> es <> [] -> length bs = length es -> blocks_ok model dsT bs ->
  2 * length es <= fuel -> readGraph fuel es = Ok p ->
  solver_memory dims model batched dsT bs (length es) arr wD kSqD dKSqD nParams w kSq dKSq (g_mem g) ->
  (forall b, b < length es -> has b = true -> holds_expKsq model dsT bs arr kSq (g_mem g) b) ->
  exists s' c g' sv,
    gpuCompute dev sched dims model dsT bs arr wD kSqD es (p_vertices p) (p_plan p) s phiTot has g = Ok (s', (g', sv)) /\
    computed dev dims model batched dsT bs arr wD kSqD dKSqD nParams es p w kSq dKSq s phiTot s' c g g'.
Proof.
  intros dev sched dims model batched dsT bs arr wD kSqD dKSqD nParams es fuel p w kSq dKSq s phiTot has g Hfair Rd HD HT Hne HL HB Hf HG HM Hh.
  destruct (all_facts dev sched dims model batched dsT bs arr wD kSqD dKSqD nParams es fuel p w kSq dKSq s phiTot has g
    Hfair Rd HD HT Hne HL HB Hf HG HM Hh) as (s' & c & g' & sv & st & E & _ & C & _).
  exists s', c, g', sv. auto.
Qed.

(** Block concentrations on the GPU have the averages that mass conservation asks for. *)
Theorem C75_mass : forall dev sched dims model batched dsT bs arr wD kSqD dKSqD nParams es fuel p w kSq dKSq s phiTot has g,
  (forall t o, fair o (sched t o)) -> ready dev (g_thr g) ->
  positive dims -> tree es -> es <> [] -> length bs = length es -> blocks_ok model dsT bs ->
  2 * length es <= fuel -> readGraph fuel es = Ok p ->
  solver_memory dims model batched dsT bs (length es) arr wD kSqD dKSqD nParams w kSq dKSq (g_mem g) ->
  (forall b, b < length es -> has b = true -> holds_expKsq model dsT bs arr kSq (g_mem g) b) -> phiTot <> 0%R ->
  exists s' g' sv,
    gpuCompute dev sched dims model dsT bs arr wD kSqD es (p_vertices p) (p_plan p) s phiTot has g = Ok (s', (g', sv)) /\
    (sp_q s' <> 0%R -> forall b, b < length es -> exists c, holdsR (g_mem g') (a_c (arr b)) c /\
       gridAvg dims c = (sp_phi s' * phiTot * blockSize model (pblockAt bs b) / polymerSize model bs)%R).
Proof.
  intros dev sched dims model batched dsT bs arr wD kSqD dKSqD nParams es fuel p w kSq dKSq s phiTot has g Hfair Rd HD HT Hne HL HB Hf HG HM Hh Hphi.
  destruct (C75_compute dev sched dims model batched dsT bs arr wD kSqD dKSqD nParams es fuel p w kSq dKSq s phiTot has g
    Hfair Rd HD HT Hne HL HB Hf HG HM Hh) as (s' & c & g' & sv & E & EC & Hc & _).
  destruct (rpc_block_mass_conserved model dims kSq dsT bs w es fuel p s phiTot HD HT Hne HL HB Hf HG Hphi) as (s2 & c2 & E2 & _ & M).
  rewrite EC in E2. injection E2 as <- <-.
  exists s', g', sv. split; [exact E|]. intros Hq b Hb. exists (c b). split; [now apply Hc|]. now apply (proj1 (M Hq)).
Qed.

(** compute, then computeStress.  The last slice of a propagator that ends the chain
    is never computed in the bead model (C75_bead_tail_refuted), so batched
    transforms need it to be defined beforehand. *)
Theorem C75_stress : forall dev sched dims model batched dsT bs arr wD kSqD dKSqD nParams es fuel p w kSq dKSq s phiTot has g,
  (forall t o, fair o (sched t o)) -> ready dev (g_thr g) ->
  positive dims -> tree es -> es <> [] -> length bs = length es -> blocks_ok model dsT bs ->
  2 * length es <= fuel -> readGraph fuel es = Ok p ->
  solver_memory dims model batched dsT bs (length es) arr wD kSqD dKSqD nParams w kSq dKSq (g_mem g) ->
  (forall b, b < length es -> has b = true -> holds_expKsq model dsT bs arr kSq (g_mem g) b) ->
  (batched = true -> model = Bead -> forall b, b < length es -> defined (g_mem g) (a_q0All (arr b)) /\ defined (g_mem g) (a_q1All (arr b))) ->
  exists s' c g' sv st g'' y,
    gpuCompute dev sched dims model dsT bs arr wD kSqD es (p_vertices p) (p_plan p) s phiTot has g = Ok (s', (g', sv)) /\
    solveAll (rpcSlices model dims kSq dsT bs w) (rpcTailOk model) true es (p_vertices p) (p_plan p) = Ok st /\
    gpuStress dev sched dims model batched dsT bs arr dKSqD nParams es (p_vertices p) s' (g', sv) = Ok (g'', y) /\
    (forall n, n < nParams -> y n = polymerStress model dims kSq (dKSq n) dsT bs es (p_vertices p) st s') /\
    computed dev dims model batched dsT bs arr wD kSqD dKSqD nParams es p w kSq dKSq s phiTot s' c g g' /\
    computed dev dims model batched dsT bs arr wD kSqD dKSqD nParams es p w kSq dKSq s phiTot s' c g g''.
Proof.
  intros dev sched dims model batched dsT bs arr wD kSqD dKSqD nParams es fuel p w kSq dKSq s phiTot has g Hfair Rd HD HT Hne HL HB Hf HG HM Hh Hdef.
  destruct (all_facts dev sched dims model batched dsT bs arr wD kSqD dKSqD nParams es fuel p w kSq dKSq s phiTot has g
    Hfair Rd HD HT Hne HL HB Hf HG HM Hh) as (s' & c & g' & sv & st & E & E2 & C & _ & _ & S).
  destruct S as (g'' & y & E3 & V & C').
  { intros Eb Em b q Hb. destruct (Hdef Eb Em b Hb). now destruct q. }
  exists s', c, g', sv, st, g'', y. auto 10.
Qed.

(** Batched transforms of arrays with an undefined word are undefined. *)
Theorem C75_stress_undefined : forall dev sched dims model dsT bs arr dKSqD nParams es vs s g sv b y,
  0 < length es -> b = 0 -> sv (b, false) = true -> sv (b, true) = true ->
  shape (a_q0All (arr b)) Re (pNs model dsT bs b * nR dims) -> shape (a_q0kB (arr b)) Co (pNs model dsT bs b * nK dims) ->
  occupies (a_q0All (arr b)) y -> g_mem g y = Junk ->
  gpuStress dev sched dims model true dsT bs arr dKSqD nParams es vs s (g, sv) = UB.
Proof.
  intros dev sched dims model dsT bs arr dKSqD nParams es vs s g sv b y Hn -> S0 S1 [T1 C1] [T2 C2] Oy J.
  unfold gpuStress. destruct (length es) as [|n]; [lia|]. cbn [forG fst snd]. unfold blockStressG. rewrite S0, S1. cbn [check bind].
  assert (U : forall ns, ns = pNs model dsT bs 0 -> transformAllG dev sched dims (arr 0) true ns g = UB).
  { intros ns ->. unfold transformAllG, forwardG. unfold nx, kSize. rewrite C1, C2, !Z.eqb_refl. cbn [check bind].
    unfold execD2Z. replace (readable _ _ _) with false; [reflexivity|]. symmetry.
    unfold occupies in Oy. rewrite T1, C1 in Oy. cbn [width] in Oy.
    destruct (readable (g_mem g) (da_addr (a_q0All (arr 0))) (pNs model dsT bs 0 * nx dims)) eqn:Er; [|reflexivity].
    unfold readable in Er. rewrite forallb_forall in Er. unfold nx in Er.
    specialize (Er (Z.to_nat (y - da_addr (a_q0All (arr 0)))) ltac:(apply in_seq; lia)). rewrite Z2Nat.id in Er by lia.
    replace (da_addr (a_q0All (arr 0%nat)) + (y - da_addr (a_q0All (arr 0%nat))))%Z with y in Er by lia. rewrite J in Er. discriminate. }
  unfold gNs. generalize U. generalize (gDs model dsT bs 0). generalize (pNs model dsT bs 0). intros k d Uk. specialize (Uk k eq_refl).
  destruct model; [unfold stressThreadG|unfold stressBeadG]; rewrite Uk; reflexivity.
Qed.

(** ** A three-arm star on a mesh of two points *)

Definition exDims : list Z := [2]%Z.
Definition exBeads : list pblock := [mkPBlock 1 1 1 0; mkPBlock 1 2 2 1; mkPBlock 1 3 1 0].
(** Array number k of block b has 64 words from 64 (16 b + k); 16 k' numbers per
    block.  Arrays that are only read follow those of three blocks. *)
Definition slot (b k : nat) (t : ty) (n : nat) : darr := Darr (64 * (16 * Z.of_nat b + Z.of_nat k)) t (Z.of_nat n).
Definition exArr (ns : nat -> nat) (b : nat) : garrays :=
  let n := nR exDims in let m := nK exDims in
  Garrays (slot b 0 Re n) (slot b 1 Re n) (slot b 2 Re n) (slot b 3 Re m) (slot b 4 Re m)
    (slot b 5 Re (2 * n)) (slot b 6 Co (2 * m)) (slot b 7 Co m) (slot b 8 Re n)
    (slot b 9 Co m) (slot b 10 Co m) (slot b 11 Co (ns b * m)) (slot b 12 Co (ns b * m))
    (slot b 13 Re (ns b * n)) (slot b 14 Re (ns b * n)) (slot b 15 Re m).
Definition exWD (mono : nat) : darr := slot 3 mono Re (nR exDims).
Definition exKD : darr := slot 3 4 Re (nK exDims).
Definition exDKD (n : nat) : darr := slot 3 (5 + n) Re (nK exDims).
(** Words of the arrays that are only read are their addresses. *)
Definition exMem (J : Z -> word) : memory := fun y =>
  if (y <? 0)%Z then Free else if (y <? 3072)%Z then J y else Val (IZR (y - 3072)).
Definition exFieldW (mono i : nat) : R := IZR (64 * Z.of_nat mono + Z.of_nat i).
Definition exFieldK (k : nat) : R := IZR (256 + Z.of_nat k).
Definition exFieldDK (n k : nat) : R := IZR (64 * Z.of_nat (5 + n) + Z.of_nat k).

Definition slots (model : polyModel) (batched : bool) : list nat :=
  [0; 3; 4; 8; 15; 13; 14] ++ match model with Thread => [1; 5; 6] | Bead => [2; 7] end ++ if batched then [11; 12] else [9; 10].

Lemma ex_slot : forall model batched ns b i d t n, ns b <= 5 ->
  nth_error (arraysOf exDims model batched (ns b) (exArr ns b)) i = Some (d, t, n) ->
  exists k, nth_error (slots model batched) i = Some k /\ k < 16 /\ d = slot b k t n /\
    (match t with Re => 1 | Co => 2 end) * n <= 64.
Proof.
  intros model batched ns b i d t n Hn.
  assert (N : nR exDims = 2) by reflexivity. assert (K : nK exDims = 2) by reflexivity.
  unfold arraysOf, slots, exArr. cbn [a_expW a_expKsq a_expKsq2 a_c a_rTmp a_q0All a_q1All a_expW2 a_qrPair a_qkPair a_expWInv a_qk a_q0kB a_q1kB a_q0k a_q1k].
  rewrite N, K.
  destruct model, batched; cbn [app];
  (do 13 (try (destruct i as [|i]; [cbn [nth_error]; intros [= <- <- <-]; eexists; split; [reflexivity|]; split; [lia|]; split; [reflexivity|lia]|]));
   intros H; exfalso; revert H; cbn [nth_error]; destruct i; discriminate).
Qed.
Lemma slots_nodup : forall model batched, NoDup (slots model batched).
Proof. intros [] []; cbn; repeat constructor; cbn; lia. Qed.

Lemma ex_word : forall b k t n y, (match t with Re => 1 | Co => 2 end) * n <= 64 -> occupies (slot b k t n) y ->
  (64 * (16 * Z.of_nat b + Z.of_nat k) <= y < 64 * (16 * Z.of_nat b + Z.of_nat k) + 64)%Z.
Proof. intros b k t n y H. unfold occupies, slot. cbn [da_addr da_ty da_cap]. destruct t; lia. Qed.

Lemma ex_input : forall bs nB nParams d n, (forall b, b < nB -> pb_monomer (pblockAt bs b) < 4) -> nParams <= 6 ->
  inputs exDims bs nB exWD exKD exDKD nParams d n -> exists k, k < 16 /\ d = slot 3 k Re n /\ n = 2.
Proof.
  intros bs nB nParams d n Hm Hp [(b & Hb & -> & ->)|[(-> & ->)|(k & Hk & -> & ->)]].
  - exists (pb_monomer (pblockAt bs b)). split; [specialize (Hm b Hb); lia|]. split; reflexivity.
  - exists 4. split; [lia|]. split; reflexivity.
  - exists (5 + k). split; [lia|]. split; reflexivity.
Qed.

Lemma ex_memory : forall J model batched dsT bs nB nParams,
  (forall y, J y <> Free) -> nB <= 3 -> nParams <= 6 -> (forall b, b < nB -> pNs model dsT bs b <= 5 /\ pb_monomer (pblockAt bs b) < 4) ->
  solver_memory exDims model batched dsT bs nB (exArr (pNs model dsT bs)) exWD exKD exDKD nParams exFieldW exFieldK exFieldDK (exMem J).
Proof.
  intros J model batched dsT bs nB nParams HJ Hn Hp Hb.
  assert (HIn : forall b d t n, b < nB -> In (d, t, n) (arraysOf exDims model batched (pNs model dsT bs b) (exArr (pNs model dsT bs) b)) ->
     exists k, k < 16 /\ d = slot b k t n /\ (match t with Re => 1 | Co => 2 end) * n <= 64).
  { intros b d t n Hlt I. apply In_nth_error in I. destruct I as [i E].
    destruct (ex_slot model batched (pNs model dsT bs) b i d t n (proj1 (Hb b Hlt)) E) as (k & _ & A & B & C). eauto. }
  assert (Pres : forall b k t n, (match t with Re => 1 | Co => 2 end) * n <= 64 -> present (exMem J) (slot b k t n)).
  { intros b k t n H y Hy. apply ex_word in Hy; [|exact H]. unfold exMem. destruct (Z.ltb_spec y 0); [lia|]. destruct (Z.ltb_spec y 3072); [apply HJ|discriminate]. }
  assert (Hold : forall k n f, (forall i, f i = IZR (64 * Z.of_nat k + Z.of_nat i)) -> holdsR (exMem J) (slot 3 k Re n) f).
  { intros k n f Hf i Hi. unfold exMem, slot in *. cbn [da_addr da_cap] in *. destruct (Z.ltb_spec (64 * (16 * Z.of_nat 3 + Z.of_nat k) + Z.of_nat i) 0); [lia|].
    destruct (Z.ltb_spec (64 * (16 * Z.of_nat 3 + Z.of_nat k) + Z.of_nat i) 3072); [lia|]. rewrite Hf. do 2 f_equal. lia. }
  constructor; [constructor| | |].
  - intros b d t n Hlt I. destruct (HIn b d t n Hlt I) as (k & _ & -> & _). split; reflexivity.
  - intros b d t n Hlt I. destruct (HIn b d t n Hlt I) as (k & _ & -> & H). now apply Pres.
  - intros b b' i j [[d t] n] [[d' t'] n'] Hlt Hlt' E E' Hne y Hy Hy'.
    destruct (ex_slot model batched (pNs model dsT bs) b i d t n (proj1 (Hb b Hlt)) E) as (k & K1 & K2 & -> & K4).
    destruct (ex_slot model batched (pNs model dsT bs) b' j d' t' n' (proj1 (Hb b' Hlt')) E') as (k' & K1' & K2' & -> & K4').
    apply ex_word in Hy; [|exact K4]. apply ex_word in Hy'; [|exact K4'].
    assert (b = b' /\ k = k') as [-> ->] by lia.
    destruct Hne as [Hne|Hne]; [congruence|]. apply Hne.
    apply (proj1 (NoDup_nth_error (slots model batched)) (slots_nodup model batched)); [|congruence].
    apply nth_error_Some. congruence.
  - intros d n I. destruct (ex_input bs nB nParams d n (fun b H => proj2 (Hb b H)) Hp I) as (k & Hk & -> & ->).
    split; [split; reflexivity|]. split; [apply Pres; lia|].
    intros b d' t n' Hlt I' y Hy Hy'. destruct (HIn b d' t n' Hlt I') as (k' & Hk' & -> & H').
    apply ex_word in Hy; [|exact H']. apply ex_word in Hy'; [|lia]. lia.
  - intros b Hlt. apply Hold. intros i. reflexivity.
  - apply Hold. intros i. reflexivity.
  - intros n Hn'. apply Hold. intros i. reflexivity.
Qed.

Definition exG (J : Z -> word) : gstate := Gst (exMem J) st256 0.
Definition exSpecies : species := mkSpecies Closed 1 0 1.
Definition exSched (_ : nat) (o : vop) := rounds o.
Definition exP : polymer := match readGraph 6 exStar with Ok p => p | _ => mkPolymer [] [] [] [] end.
Lemma exP_ok : readGraph 6 exStar = Ok exP.
Proof. vm_compute. reflexivity. Qed.

Lemma ex_points : forall model b, b < 3 -> pNs model 1 exBeads b <= 5.
Proof.
  intros [] b Hb.
  - unfold pNs. assert (E : pb_length (pblockAt exBeads b) = 1%R) by (destruct b as [|[|[|b]]]; try reflexivity; lia). rewrite E.
    unfold rpcNs, floorZ. set (t := Int_part (1 / (2 * 1) + 1 / 2)).
    assert (T : (t < 2)%Z). { apply lt_IZR. destruct (base_Int_part (1 / (2 * 1) + 1 / 2)) as [A _]. fold t in A. lra. }
    destruct (Z.eqb_spec t 0); lia.
  - destruct b as [|[|[|b]]]; cbn; lia.
Qed.
Lemma ex_mono : forall b, b < 3 -> pb_monomer (pblockAt exBeads b) < 4.
Proof. intros b Hb. destruct b as [|[|[|b]]]; cbn; lia. Qed.
Lemma ex_blocks : forall model, blocks_ok model 1 exBeads.
Proof. intros []; cbn; [split; [lra|]|]; repeat constructor; cbn; lra || lia. Qed.
Lemma ex_solver : forall J model batched, (forall y, J y <> Free) ->
  solver_memory exDims model batched 1 exBeads 3 (exArr (pNs model 1 exBeads)) exWD exKD exDKD 2 exFieldW exFieldK exFieldDK (exMem J).
Proof. intros J model batched HJ. apply ex_memory; auto; try lia. intros b Hb. split; [now apply ex_points|now apply ex_mono]. Qed.
Lemma ex_dims : positive exDims.
Proof. repeat constructor. Qed.

(** The hypotheses of the theorems are met in both models, with and without batched
    transforms: all words of the arrays of the blocks are undefined, or, for
    batched transforms in the bead model, zero. *)
Example C75_example : forall (model : polyModel) (batched : bool), exists s' c g' sv st g'' y,
  let J := if batched then fun _ : Z => Val 0%R else fun _ : Z => Junk in
  gpuCompute gpu1024 exSched exDims model 1 exBeads (exArr (pNs model 1 exBeads)) exWD exKD exStar (p_vertices exP) (p_plan exP)
    exSpecies 1 (fun _ => false) (exG J) = Ok (s', (g', sv)) /\
  solveAll (rpcSlices model exDims exFieldK 1 exBeads exFieldW) (rpcTailOk model) true exStar (p_vertices exP) (p_plan exP) = Ok st /\
  gpuStress gpu1024 exSched exDims model batched 1 exBeads (exArr (pNs model 1 exBeads)) exDKD 2 exStar (p_vertices exP) s' (g', sv) = Ok (g'', y) /\
  rpcCompute model exDims exFieldK 1 exBeads exFieldW exStar exP exSpecies 1 = Ok (s', c) /\
  (forall b, b < 3 -> holdsR (g_mem g') (slot b 8 Re 2) (c b)) /\
  (forall n, n < 2 -> y n = polymerStress model exDims exFieldK (exFieldDK n) 1 exBeads exStar (p_vertices exP) st s').
Proof.
  intros model batched.
  set (J := if batched then fun _ : Z => Val 0%R else fun _ => Junk).
  assert (HJ : forall y, J y <> Free) by (intros y; unfold J; destruct batched; discriminate).
  destruct (C75_stress gpu1024 exSched exDims model batched 1 exBeads (exArr (pNs model 1 exBeads)) exWD exKD exDKD 2 exStar 6 exP
    exFieldW exFieldK exFieldDK exSpecies 1 (fun _ => false) (exG J)) as (s' & c & g' & sv & st & g'' & y & A1 & A2 & A3 & A4 & (B1 & B2 & _) & _).
  - intros t o. apply rounds_fair.
  - apply C73_ready.
  - apply ex_dims.
  - apply exStar_tree.
  - discriminate.
  - reflexivity.
  - apply ex_blocks.
  - cbn. lia.
  - apply exP_ok.
  - now apply ex_solver.
  - discriminate.
  - intros -> _ b Hb. cbn in Hb. pose proof (ex_points model b Hb) as Hp.
    assert (D : forall k, k < 16 -> defined (g_mem (exG J)) (slot b k Re (pNs model 1 exBeads b * nR exDims))).
    { intros k Hk y Hy. exists 0%R. apply ex_word in Hy; [|change (nR exDims) with 2; lia]. cbn [exG g_mem]. unfold exMem, J.
      destruct (Z.ltb_spec y 0); [lia|]. destruct (Z.ltb_spec y 3072); [reflexivity|lia]. }
    split; apply D; lia.
  - exists s', c, g', sv, st, g'', y. split; [exact A1|]. split; [exact A2|]. split; [exact A3|]. split; [exact B1|]. split; [|exact A4].
    intros b Hb. exact (B2 b Hb).
Qed.

(** ** Slices that are not computed *)

Definition exQ (b : nat) (q : bool) (j : nat) : darr := qField exDims (exArr (pNs Bead 1 exBeads) b) q j.
Lemma ex_const : forall r b q j, b < 3 -> j < pNs Bead 1 exBeads b -> holdsR (exMem (fun _ => Val r)) (exQ b q j) (fun _ => r).
Proof.
  intros r b q j Hb Hj i Hi. pose proof (ex_points Bead b Hb) as Hp. unfold exMem.
  assert (A : (da_addr (exQ b q j) = 64 * (16 * Z.of_nat b + (if q then 14 else 13)) + Z.of_nat (j * 2))%Z).
  { unfold exQ, qField, sub, qAll. destruct q; cbn [da_addr da_ty exArr a_q0All a_q1All slot width]; change (nx exDims) with 2; lia. }
  assert (Cc : da_cap (exQ b q j) = 2%Z) by reflexivity.
  destruct (Z.ltb_spec (da_addr (exQ b q j) + Z.of_nat i) 0); [destruct q; lia|].
  destruct (Z.ltb_spec (da_addr (exQ b q j) + Z.of_nat i) 3072); [reflexivity|destruct q; lia].
Qed.

(** Bead model: the slice at a tail that ends the chain is not computed by solve(),
    while the CPU sets it (Propagator.tpp 156-157; rpc Propagator.tpp 169-170).  Here
    the GPU reports the propagator as solved and the slice differs from that of the
    CPU. *)
Theorem C75_bead_tail_refuted : exists J s' g' sv st l, (forall y, J y <> Free) /\
  gpuCompute gpu1024 exSched exDims Bead 1 exBeads (exArr (pNs Bead 1 exBeads)) exWD exKD exStar (p_vertices exP) (p_plan exP)
    exSpecies 1 (fun _ => false) (exG J) = Ok (s', (g', sv)) /\
  solveAll (rpcSlices Bead exDims exFieldK 1 exBeads exFieldW) (rpcTailOk Bead) true exStar (p_vertices exP) (p_plan exP) = Ok st /\
  st (1, false) = Some l /\ sv (1, false) = true /\ length l = 4 /\
  ~ holdsR (g_mem g') (exQ 1 false 3) (qAt l 3).
Proof.
  destruct (rpc_Q_independent_of_propagator Bead exDims exFieldK 1 exBeads exFieldW exStar 6 exP ex_dims exStar_tree eq_refl
    (ex_blocks Bead) ltac:(cbn; lia) exP_ok) as (st & Q & ES & _ & G).
  destruct (G 1 ltac:(cbn; lia)) as (l & l1 & E0 & E1 & _).
  set (r := (qAt l 3 0%nat + 1)%R).
  destruct (all_facts gpu1024 exSched exDims Bead false 1 exBeads (exArr (pNs Bead 1 exBeads)) exWD exKD exDKD 2 exStar 6 exP
    exFieldW exFieldK exFieldDK exSpecies 1 (fun _ => false) (exG (fun _ => Val r))) as (s' & c & g' & sv & st' & A1 & A2 & _ & A3 & A4 & _).
  - intros t o. apply rounds_fair.
  - apply C73_ready.
  - apply ex_dims.
  - apply exStar_tree.
  - discriminate.
  - reflexivity.
  - apply ex_blocks.
  - cbn. lia.
  - apply exP_ok.
  - apply ex_solver. discriminate.
  - discriminate.
  - rewrite ES in A2. injection A2 as <-.
    exists (fun _ => Val r), s', g', sv, st, l. split; [discriminate|]. split; [exact A1|]. split; [exact ES|]. split; [exact E0|].
    split; [rewrite A3; unfold isSolved; now rewrite E0|]. split.
    + destruct (solveAll_ok (rpcSlices Bead exDims exFieldK 1 exBeads exFieldW) (rpcTailOk Bead) true exStar 6 exP exStar_tree eq_refl
        ltac:(cbn; lia) exP_ok) as (_ & _ & st2 & ES2 & SV). rewrite ES in ES2. injection ES2 as <-.
      destruct (SV (1, false) ltac:(unfold is_prop; cbn; lia)) as (h & Eh & _). rewrite E0 in Eh.
      apply (f_equal (fun o => match o with Some x => length x | None => 0 end)) in Eh. cbv beta iota in Eh. rewrite Eh.
      apply (slices_length exDims ltac:(vm_compute; lia) ltac:(vm_compute; lia) Bead 1 exBeads exStar
        (points Bead 1%R exBeads 3 (ex_blocks Bead) eq_refl) exFieldW exFieldK 1). cbn. lia.
    + intros H. pose proof (A4 1 false (fun _ => r) ltac:(cbn; lia) eq_refl ltac:(vm_compute; reflexivity) (ex_const r 1 false 3 ltac:(lia) ltac:(cbn; lia))) as K.
      specialize (K 0 ltac:(reflexivity)). specialize (H 0 ltac:(reflexivity)). unfold exQ in H. cbn [pNs] in K. 
      change (pb_nBead (pblockAt exBeads 1) + 2 - 1) with 3 in K. rewrite K in H. injection H as H. unfold r in H. lra.
Qed.

(** Bead model: solve(head) does not compute the slice at a tail that does not end
    the chain (Propagator.tpp 202-207: the condition is inverted), which tail()
    returns (Propagator.h 280-285).  Here it differs from the slice that the CPU
    computes from the same head. *)
Theorem C75_solve_head_refuted : exists J g', (forall y, J y <> Free) /\
  isTailEnd exStar (p_vertices exP) (0, false) = false /\
  (g <- forG 3 0 (setupSolverG gpu1024 exSched Bead 1 exBeads (exArr (pNs Bead 1 exBeads)) exWD exKD (fun _ => false)) (exG J) ;;
   solveHeadG gpu1024 exSched exDims (exArr (pNs Bead 1 exBeads) 0) Bead false 3 true false (exWD 0) g) = Ok g' /\
  tailG exDims (exArr (pNs Bead 1 exBeads) 0) Bead false 3 false = Ok (exQ 0 false 2) /\
  ~ holdsR (g_mem g') (exQ 0 false 2) (qAt (rpcSlices Bead exDims exFieldK 1 exBeads exFieldW 0 true false (exFieldW 0)) 2).
Proof.
  set (l := rpcSlices Bead exDims exFieldK 1 exBeads exFieldW 0 true false (exFieldW 0)).
  set (r := (qAt l 2 0%nat + 1)%R).
  pose proof (ex_solver (fun _ => Val r) Bead false ltac:(discriminate)) as [Hlo Hw Hk Hd].
  pose proof (points Bead 1%R exBeads 3 (ex_blocks Bead) eq_refl) as Hns.
  assert (Hnx : 0 < nR exDims) by (vm_compute; lia). assert (Hnk : 0 < nK exDims) by (vm_compute; lia).
  destruct (head_stale gpu1024 exSched exDims (fun t o => rounds_fair o) Hnx Hnk Bead false 1%R exBeads (exArr (pNs Bead 1 exBeads)) exWD exKD exDKD 2
    exStar (p_vertices exP) Hns (exMem (fun _ => Val r)) Hlo exFieldW exFieldK exFieldDK Hw Hk Hd (fun _ => false) (exG (fun _ => Val r))
    0 false true (fun _ => r) eq_refl ltac:(cbn; lia)) as (g' & E & H).
  - apply (start gpu1024 exDims Hnx Hnk Bead false 1%R exBeads (exArr (pNs Bead 1 exBeads)) exWD exKD exDKD 2 exStar
      (exMem (fun _ => Val r)) Hlo exFieldK (fun _ => false) (exG (fun _ => Val r)) eq_refl); [apply C73_ready|discriminate].
  - exact (ex_const r 0 false 2 ltac:(lia) ltac:(cbn; lia)).
  - change (pNs Bead 1 exBeads 0) with 3 in E. change (length exStar) with 3 in E. change (pb_monomer (pblockAt exBeads 0)) with 0 in E.
    exists (fun _ => Val r), g'. split; [discriminate|]. split; [vm_compute; reflexivity|]. split; [exact E|]. split; [reflexivity|].
    intros K. specialize (H 0 ltac:(reflexivity)). specialize (K 0 ltac:(reflexivity)).
    change (lo exDims (exArr (pNs Bead 1 exBeads)) exKD 0 (tailName Bead 1 exBeads (0, false))) with (exQ 0 false 2) in H.
    rewrite H in K. injection K as K. unfold r in K. lra.
Qed.

Print Assumptions C75_compute.
Print Assumptions C75_mass.
Print Assumptions C75_stress.
Print Assumptions C75_stress_undefined.
Print Assumptions C75_bead_tail_refuted.
Print Assumptions C75_solve_head_refuted.
