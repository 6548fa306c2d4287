(** Derivative of the partition function of the continuous-chain theory with
    respect to the fields and the wavenumbers. *)
From Coq Require Import Reals ZArith List Bool Arith Lia Lra Permutation Relations.
From Coquelicot Require Import Coquelicot.
From Coq Require Import List.
From Verif Require Import Base RSum UnitCellProofs MeshSpec MeshProofs Polymer PolymerSpec PolymerProofs PropsPolymer Solve SolveProofs
  Species Mesh Fft FftProofs PropsFft FftCompose R1d R1dProofs Rpc RpcProofs PropsRpc Stress TreeDerivative BeadDerivative
  Expand ExpandProofs Convergence LinearResponse ThreadConvergence Simpson ConvergenceSpec PropsConvergence.
Import ListNotations.
Local Open Scope R_scope.

(** The partition function does not depend on where it is computed. *)
Section Q.
Variables (es : list edge) (vs : list vertex).
Hypothesis HT : tree es.
Hypothesis HV : graphVertices es vs.
Variables (nx : nat) (wt : nat -> R) (H T : dart -> field).
Notation avg := (wavg nx wt).
Hypothesis Hhead : forall x i, is_prop es x -> (i < nx)%nat -> H x i = lprod (fun y => T y i) (sources es vs x).
Hypothesis Hblk : forall x, is_prop es x -> avg (H x) (T (partner x)) = avg (H (partner x)) (T x).

Lemma at_vertex : forall x y, is_prop es x -> is_prop es y -> s_start es x = s_start es y ->
  avg (H x) (T (partner x)) = avg (H y) (T (partner y)).
Proof.
  intros x y Hx Hy E. destruct HT as [HW _].
  assert (P : forall z, is_prop es z -> forall i, (i < nx)%nat -> H z i * T (partner z) i = lprod (fun y => T y i) (inIds (headVertex es vs z))).
  { intros z Hz i Hi. rewrite (lprod_perm _ _ _ (head_perm (fun _ _ _ _ => []) true es vs HW HV z Hz)). cbn [lprod].
    rewrite Hhead by auto. apply Rmult_comm. }
  unfold wavg. apply rsum_ext. intros i Hi. rewrite (P x), (P y) by auto. unfold headVertex.
  change (vertexId (edgeAt es (fst x)) (snd x)) with (s_start es x).
  change (vertexId (edgeAt es (fst y)) (snd y)) with (s_start es y). now rewrite E.
Qed.
Lemma at_any : forall x y, is_prop es x -> is_prop es y -> avg (H x) (T (partner x)) = avg (H y) (T (partner y)).
Proof.
  assert (R : forall u v, clos_refl_trans _ (adjacent es) u v -> forall x y, is_prop es x -> is_prop es y -> s_start es x = u -> s_start es y = v ->
    avg (H x) (T (partner x)) = avg (H y) (T (partner y))).
  { intros u v C. apply clos_rt_rt1n in C. induction C as [u|u w v [b [Hb E]] _ IH]; intros x y Hx Hy Sx Sy.
    - apply at_vertex; auto; congruence.
    - set (z := if Nat.eqb (fst (s_edge es b)) u then (b, false) else (b, true)).
      assert (Hz : is_prop es z) by (unfold z; destruct (fst (s_edge es b) =? u)%nat; exact Hb).
      assert (Sz : s_start es z = u /\ s_end es z = w).
      { unfold z. destruct (Nat.eqb_spec (fst (s_edge es b)) u) as [F|F];
          unfold s_start, s_end; cbn [fst snd]; destruct E as [E|E]; rewrite E in *; simpl in *; try congruence; auto. }
      destruct Sz as [Sz Ez].
      rewrite (at_vertex x z Hx Hz) by congruence. rewrite (Hblk z Hz).
      rewrite <- (partner_partner z) at 2. apply IH; auto. rewrite s_start_partner. auto. }
  intros x y Hx Hy. destruct HT as [HW HC]. apply (R (s_start es x) (s_start es y)); auto. apply HC; apply start_le; auto.
Qed.
End Q.

Lemma RInt_rev : forall (f : R -> R) L, (forall s, continuous f s) -> RInt (fun s => f (L - s)) 0 L = RInt f 0 L.
Proof.
  intros f L C.
  assert (X : ex_RInt f (-1 * 0 + L) (-1 * L + L)) by (apply (@ex_RInt_continuous R_CompleteNormedModule); auto).
  assert (E := RInt_comp_lin f (-1) L 0 L X). replace (-1 * 0 + L) with L in E by ring. replace (-1 * L + L) with 0 in E by ring.
  rewrite <- (opp_RInt_swap f) in E by (apply (@ex_RInt_continuous R_CompleteNormedModule); auto).
  assert (E2 : RInt (fun y => scal (-1) (f (-1 * y + L))) 0 L = - RInt (fun s => f (L - s)) 0 L).
  { assert (CR : ex_RInt (fun s => f (L - s)) 0 L).
    { apply (@ex_RInt_continuous R_CompleteNormedModule). intros s _. apply (continuous_comp (fun s => L - s) f); auto.
      apply (continuous_minus (fun _ => L) (fun s => s)); [apply continuous_const|apply continuous_id]. }
    rewrite <- (RInt_opp (fun s => f (L - s))) by auto. apply RInt_ext. intros s _. unfold scal, opp. cbn. unfold mult. cbn.
    replace (-1 * s + L) with (L - s) by ring. ring. }
  assert (E3 : - RInt (fun s => f (L - s)) 0 L = - RInt f 0 L) by (rewrite <- E2; exact E). lra.
Qed.

Section G.
Variables (dims : list Z).
Hypothesis Hne : dims <> [].
Hypothesis HP : positive dims.
Notation n := (nR dims).
Notation avg := (wavg (nR dims) (fun _ : nat => 1 / INR (nR dims))).

(** Matrix of the right-hand side of the modified diffusion equation. *)
Definition kernel (K : list Z -> R) (i j : nat) : R :=
  rsum n (fun p => K (gridPos dims p) * cos (phase dims (gridPos dims p) (gridPos dims i) - phase dims (gridPos dims p) (gridPos dims j))) / INR n.
Definition mdeMat (K : list Z -> R) (kuhn : R) (w : nat -> R) (i j : nat) : R :=
  kuhn * kuhn / 6 * - kernel K i j - (if (i =? j)%nat then w i else 0).
Lemma kernel_sym : forall K i j, kernel K i j = kernel K j i.
Proof.
  intros. unfold kernel. f_equal. apply rsum_ext. intros p _. f_equal. rewrite <- cos_neg. f_equal. ring.
Qed.
Lemma mdeMat_sym : forall K kuhn w i j, mdeMat K kuhn w i j = mdeMat K kuhn w j i.
Proof.
  intros. unfold mdeMat. rewrite (kernel_sym K i j). rewrite (Nat.eqb_sym i j). destruct (Nat.eqb_spec j i); [now subst|reflexivity].
Qed.
Lemma mdeMat_apply : forall K kuhn w f i, (i < n)%nat ->
  rsum n (fun j => mdeMat K kuhn w i j * f j) = kuhn * kuhn / 6 * laplacian dims K f i - w i * f i.
Proof.
  intros K kuhn w f i Hi. unfold mdeMat.
  rewrite (rsum_ext n _ (fun j => (kuhn * kuhn / 6) * (- (kernel K i j * f j)) - (if (i =? j)%nat then w i * f j else 0))).
  2:{ intros j _. destruct (Nat.eqb i j); ring. }
  rewrite rsum_minus, rsum_scal, rsum_opp. f_equal.
  - f_equal. unfold laplacian. f_equal. apply rsum_ext. intros j _. unfold kernel, Rdiv. ring.
  - rewrite (rsum_single n i); auto; [now rewrite Nat.eqb_refl|]. intros j _ N. destruct (Nat.eqb_spec i j); congruence.
Qed.
Lemma mde_msolves : forall K kuhn w u, mde dims K kuhn w u -> msolves n (mdeMat K kuhn w) u.
Proof. intros K kuhn w u H s i Hi. rewrite mdeMat_apply by auto. now apply H. Qed.

Lemma avg_dot : forall f g, avg f g = 1 / INR n * dot n f g.
Proof. intros. unfold wavg, dot. rewrite <- rsum_scal. reflexivity. Qed.

(** The kernel between two fields, as a sum over the half grid. *)
Lemma kernel_waveSum : forall K kSq f g, evenWaves dims K kSq ->
  1 / INR n * rsum n (fun i => rsum n (fun j => kernel K i j * (f j * g i))) = waveSum dims (fun m => c2rWeight dims m * kSq m) f g.
Proof.
  intros K kSq f g [HK Hk]. rewrite <- kOp_parseval. rewrite avg_dot. f_equal. unfold dot. apply rsum_ext. intros i Hi.
  rewrite (kOp_kern dims Hne HP K) by auto. rewrite <- rsum_scal_r. apply rsum_ext. intros j Hj. unfold kernel, kern, psi, Rdiv. ring.
Qed.

Section F.
Variables (K : list Z -> R -> R) (w : nat -> nat -> R -> R) (bs : list pblock) (es : list (nat * nat)) (fuel : nat) (p : polymer).
Variable U : R -> nat * bool -> R -> field.
Variables (t0 : R) (dK : list Z -> R) (dw : nat -> nat -> R).
Hypothesis HT : tree es.
Hypothesis Hes : es <> [].
Hypothesis HLen : length bs = length es.
Hypothesis HB : Forall (fun b => 0 < pb_length b) bs.
Hypothesis Hf : (2 * length es <= fuel)%nat.
Hypothesis HG : readGraph fuel es = Ok p.
Notation len := (fun b => pb_length (pblockAt bs b)).
Notation kuhn := (fun b => pb_kuhn (pblockAt bs b)).
Notation mono := (fun b => pb_monomer (pblockAt bs b)).
Hypothesis HU : forall t, reference dims (fun q => K q t) bs (fun m i => w m i t) es (U t).
Hypothesis HdK : forall q, in_box dims q -> is_derive (K q) t0 (dK q).
Hypothesis Hdw : forall b i, (b < length es)%nat -> (i < n)%nat -> is_derive (w (mono b) i) t0 (dw (mono b) i).
Notation vs := (p_vertices p).

Definition aMat (b : nat) (t : R) : nat -> nat -> R := mdeMat (fun q => K q t) (kuhn b) (fun i => w (mono b) i t).
Definition daMat (b : nat) : nat -> nat -> R := mdeMat dK (kuhn b) (dw (mono b)).
Lemma aMat_derive : forall b i j, (b < length es)%nat -> (i < n)%nat -> (j < n)%nat -> is_derive (fun t => aMat b t i j) t0 (daMat b i j).
Proof.
  intros b i j Hb Hi Hj. unfold aMat, daMat, mdeMat.
  apply (is_derive_minus (fun t => kuhn b * kuhn b / 6 * - kernel (fun q => K q t) i j) (fun t => if (i =? j)%nat then w (mono b) i t else 0)).
  - apply (is_derive_scal (fun t => - kernel (fun q => K q t) i j)). apply (is_derive_opp (fun t => kernel (fun q => K q t) i j)).
    unfold kernel, Rdiv. set (c := / INR n).
    apply (is_derive_ext (fun t => c * rsum n (fun q => K (gridPos dims q) t * cos (phase dims (gridPos dims q) (gridPos dims i) - phase dims (gridPos dims q) (gridPos dims j))))).
    { intros t. apply Rmult_comm. }
    rewrite Rmult_comm. apply (is_derive_scal (fun t => rsum n _)).
    apply (is_derive_rsum n (fun q t => K (gridPos dims q) t * cos (phase dims (gridPos dims q) (gridPos dims i) - phase dims (gridPos dims q) (gridPos dims j)))).
    intros q Hq. set (d := cos _).
    apply (is_derive_ext (fun t => d * K (gridPos dims q) t)). { intros; apply Rmult_comm. }
    rewrite Rmult_comm. apply (is_derive_scal (K (gridPos dims q))). apply HdK. now apply gridPos_in_box.
  - destruct (i =? j)%nat; [now apply Hdw|apply @is_derive_const].
Qed.
Lemma U_msolves : forall t x, is_prop es x -> msolves n (aMat (fst x) t) (U t x).
Proof. intros t x Px. apply mde_msolves. now apply (HU t). Qed.

Definition blockTerm (b : nat) : R :=
  1 / INR n * rsum n (fun i => rsum n (fun j => daMat b i j * RInt (fun s => U t0 (b, false) s j * U t0 (b, true) (len b - s) i) 0 (len b))).

Lemma U_head : forall x t i, is_prop es x -> (i < n)%nat -> U t x 0 i = lprod (fun y => U t y (len (fst y)) i) (sources es vs x).
Proof.
  intros x t i Px Hi. destruct (sources_feeds bs es fuel p HT HLen Hf HG x Px) as [ND F].
  now apply (proj2 (HU t)).
Qed.
Lemma U_block : forall x t, is_prop es x -> avg (U t x 0) (U t (partner x) (len (fst x))) = avg (U t (partner x) 0) (U t x (len (fst x))).
Proof.
  intros x t Px. rewrite !avg_dot. f_equal.
  assert (D := duhamel n (aMat (fst x) t) (aMat (fst x) t) (U t x) (U t (partner x)) (len (fst x)) (U_msolves t x Px) (U_msolves t (partner x) Px)
    ltac:(intros; apply mdeMat_sym)).
  rewrite (rsum_ext n _ (fun _ => 0)) in D.
  2:{ intros i _. rewrite (rsum_ext n _ (fun _ => 0)); [apply rsum_zero|]. intros; ring. }
  rewrite rsum_zero, Rplus_0_r in D. rewrite <- D. unfold dot. apply rsum_ext. intros; ring.
Qed.
Definition refQAt (t : R) : R := average dims (fun i => U t (O, false) 0 i * U t (O, true) (len O) i).
Lemma U_Q : forall x t, is_prop es x -> avg (U t x 0) (U t (partner x) (len (fst x))) = refQAt t.
Proof.
  intros x t Px. destruct (plan_facts bs es fuel p HT HLen Hf HG) as [HV _].
  assert (P0 : is_prop es (O, false)) by (unfold is_prop; cbn [fst]; destruct es; [congruence|cbn; lia]).
  assert (E := at_any es vs HT HV n (fun _ => 1 / INR n) (fun x => U t x 0) (fun y => U t y (len (fst y)))
    (fun x i Px Hi => U_head x t i Px Hi) (fun x Px => U_block x t Px) x (O, false) Px P0).
  etransitivity; [exact E|]. unfold refQAt, average, wavg, partner. cbn [fst snd negb].
  unfold Rdiv. rewrite <- rsum_scal_r. apply rsum_ext. intros; ring.
Qed.

Lemma U_response : is_derive refQAt t0 (rsum (length es) blockTerm).
Proof.
  destruct (plan_facts bs es fuel p HT HLen Hf HG) as [HV _].
  apply (tree_derivative es vs HT HV Hes n (fun _ => 1 / INR n) t0 (fun x t => U t x 0) (fun x t => U t x (len (fst x)))
    U_head blockTerm) with (fuel := fuel) (p := p); auto.
  2:{ intros x t Px. exact (U_Q x t Px). }
  intros x dH Px DH. set (b := fst x). assert (Hb : (b < length es)%nat) by exact Px.
  assert (PL : 0 < len b) by now apply (len_pos bs es fuel HLen HB Hf x).
  destruct (final_derive n (fun i j t => aMat b t i j) (daMat b) (fun t => U t x) dH (len b) t0 ltac:(lra)
    (fun t => U_msolves t x Px) ltac:(intros; now apply aMat_derive) DH ltac:(intros; apply mdeMat_sym)) as [dT [D1 D2]].
  exists dT. split; [exact D1|]. rewrite !avg_dot. rewrite (D2 (U t0 (partner x)) (U_msolves t0 (partner x) Px)).
  change (fst (partner x)) with b. rewrite Rmult_plus_distr_l. f_equal. unfold blockTerm. f_equal.
  destruct x as [b' []]; cbn [fst] in b; subst b; unfold partner; cbn [fst snd negb]; [|reflexivity].
  rewrite (rsum_swap n n (fun i j => daMat b' i j * RInt (fun s => U t0 (b', true) s j * U t0 (b', false) (len b' - s) i) 0 (len b'))).
  apply rsum_ext. intros i Hi. apply rsum_ext. intros j Hj. unfold daMat. rewrite (mdeMat_sym dK _ _ j i). f_equal.
  rewrite <- (RInt_rev (fun s => U t0 (b', false) s j * U t0 (b', true) (len b' - s) i)).
  - apply RInt_ext. intros s _. replace (len b' - (len b' - s)) with s by ring. apply Rmult_comm.
  - intros s. apply (pair_continuous n (aMat b' t0) (aMat b' t0)); auto.
    + apply (U_msolves t0 (b', false)). exact Px.
    + apply (U_msolves t0 (b', true)). exact Px.
Qed.
End F.
End G.
