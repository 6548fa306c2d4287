(** C35, C36, C37: interactions and SCFT residuals. *)
From Coq Require Import Reals List Arith Bool ZArith Lia Lra SpecFloat.
From Coquelicot Require Import Coquelicot.
From Verif Require Import Base RSum Interaction.
Import ListNotations.
Local Open Scope R_scope.

(* ---------- specification ---------- *)
Definition delta (i j : nat) : R := if Nat.eqb i j then 1 else 0.
Definition mat_mul (n : nat) (a b : nat -> nat -> R) (i j : nat) : R := rsum n (fun k => a i k * b k j).
(** Two-sided inverse. *)
Definition is_inverse (n : nat) (a b : nat -> nat -> R) : Prop :=
  forall i j, (i < n)%nat -> (j < n)%nat -> mat_mul n a b i j = delta i j /\ mat_mul n b a i j = delta i j.
Definition symmetric (n : nat) (a : nat -> nat -> R) : Prop :=
  forall i j, (i < n)%nat -> (j < n)%nat -> a i j = a j i.
Definition total (n : nat) (a : nat -> nat -> R) : R := rsum n (fun i => rsum n (fun j => a i j)).

Lemma delta_sum : forall n i f, (i < n)%nat -> rsum n (fun j => delta i j * f j) = f i.
Proof.
  intros n i f Hi. rewrite (rsum_single n i).
  - unfold delta. rewrite Nat.eqb_refl. ring.
  - exact Hi.
  - intros j _ Hj. unfold delta. destruct (Nat.eqb_spec i j); [congruence|ring].
Qed.
Lemma delta_sum_l : forall n i f, (i < n)%nat -> rsum n (fun j => delta j i * f j) = f i.
Proof.
  intros n i f Hi. rewrite <- (delta_sum n i f Hi). apply rsum_ext. intros j _. unfold delta. rewrite Nat.eqb_sym. reflexivity.
Qed.
(** b (a x) = x *)
Lemma inverse_apply : forall n a b x i, (forall i j, (i < n)%nat -> (j < n)%nat -> mat_mul n b a i j = delta i j) -> (i < n)%nat ->
  rsum n (fun j => b i j * rsum n (fun k => a j k * x k)) = x i.
Proof.
  intros n a b x i H Hi.
  rewrite (rsum_ext n _ (fun j => rsum n (fun k => b i j * a j k * x k))).
  2:{ intros j Hj. rewrite <- rsum_scal. apply rsum_ext. intros k Hk. ring. }
  rewrite rsum_swap. rewrite (rsum_ext n _ (fun k => delta i k * x k)).
  2:{ intros k Hk. rewrite rsum_scal_r. f_equal. apply (H i k); auto. }
  apply delta_sum; auto.
Qed.

(* ---------- C35 ---------- *)
Theorem interaction_xi_recovered : forall n chi inv c lambda, is_inverse n chi inv -> total n inv <> 0 ->
  rsum n c = 1 -> computeXi n inv (fun i => computeW n chi c i + lambda) = lambda.
Proof.
  intros n chi inv c lam HI HT HC. unfold computeXi, computeW. fold (total n inv).
  rewrite (rsum_ext n _ (fun i => c i + lam * rsum n (fun j => inv i j))).
  - rewrite rsum_plus, rsum_scal. fold (total n inv). rewrite HC. field. auto.
  - intros i Hi. rewrite (rsum_ext n _ (fun j => inv i j * rsum n (fun k => chi j k * c k) + lam * inv i j)) by (intros; ring).
    rewrite rsum_plus, rsum_scal, inverse_apply; auto. intros a b Ha Hb. apply HI; auto.
Qed.

Theorem interaction_roundtrip : forall n chi inv c lambda, is_inverse n chi inv -> total n inv <> 0 ->
  rsum n c = 1 -> forall i, (i < n)%nat -> computeC n inv (fun i => computeW n chi c i + lambda) i = c i.
Proof.
  intros n chi inv c lam HI HT HC i Hi. unfold computeC. rewrite (interaction_xi_recovered n chi inv c lam); auto.
  rewrite (rsum_ext n _ (fun j => inv i j * rsum n (fun k => chi j k * c k))) by (intros; unfold computeW; ring).
  apply inverse_apply; auto. intros a b Ha Hb. apply HI; auto.
Qed.

Theorem interaction_c_sums_to_one : forall n inv w, total n inv <> 0 -> rsum n (computeC n inv w) = 1.
Proof.
  intros n inv w HT. unfold computeC.
  rewrite (rsum_ext n _ (fun i => rsum n (fun j => inv i j * w j) - computeXi n inv w * rsum n (fun j => inv i j))).
  - rewrite rsum_minus, rsum_scal. fold (total n inv). unfold computeXi. fold (total n inv). field. auto.
  - intros i Hi. rewrite <- rsum_scal, <- rsum_minus. apply rsum_ext. intros; ring.
Qed.

(** The other direction: the fields are recovered from the concentrations and
    the Lagrange multiplier. *)
Theorem interaction_fields_recovered : forall n chi inv w, is_inverse n chi inv ->
  forall i, (i < n)%nat -> computeW n chi (computeC n inv w) i + computeXi n inv w = w i.
Proof.
  intros n chi inv w HI i Hi. unfold computeW, computeC.
  rewrite (inverse_apply n inv chi (fun j => w j - computeXi n inv w)); auto. { ring. }
  intros a b Ha Hb. apply HI; auto.
Qed.

Definition upd (c : nat -> R) (k : nat) (x : R) (i : nat) : R := if Nat.eqb i k then x else c i.

Lemma is_derive_sum : forall n (f : nat -> R -> R) (df : nat -> R) (x : R),
  (forall i, (i < n)%nat -> is_derive (f i) x (df i)) -> is_derive (fun y : R => rsum n (fun i => f i y)) x (rsum n df).
Proof.
  induction n; intros f df x H; cbn [rsum].
  - apply (is_derive_const (0 : R) x).
  - apply (is_derive_plus (fun y : R => rsum n (fun i => f i y)) (f n) x); auto.
Qed.
Lemma upd_derive : forall c k i (x : R), is_derive (fun y : R => upd c k y i) x (delta i k).
Proof.
  intros c k i x. unfold upd, delta. destruct (Nat.eqb i k); [exact (is_derive_id (K := R_AbsRing) x)|exact (is_derive_const (K := R_AbsRing) (V := R_NormedModule) (c i) x)].
Qed.

Theorem interaction_fHelmholtz_gradient : forall n chi c k, symmetric n chi -> (k < n)%nat ->
  is_derive (fun x : R => fHelmholtz n chi (upd c k x)) (c k) (computeW n chi c k).
Proof.
  intros n chi c k HS Hk.
  assert (E : computeW n chi c k = (1/2) * rsum n (fun i => rsum n (fun j => chi i j * (delta i k * c j + c i * delta j k)))).
  { unfold computeW.
    rewrite (rsum_ext n (fun i => rsum n (fun j => chi i j * (delta i k * c j + c i * delta j k)))
              (fun i => delta i k * rsum n (fun j => chi i j * c j) + chi i k * c i)).
    - rewrite rsum_plus, delta_sum_l by auto.
      rewrite (rsum_ext n (fun i => chi i k * c i) (fun i => chi k i * c i)) by (intros i Hi; rewrite (HS i k); auto). field.
    - intros i Hi. rewrite (rsum_ext n _ (fun j => delta i k * (chi i j * c j) + delta j k * (chi i j * c i))) by (intros; ring).
      rewrite rsum_plus, rsum_scal, delta_sum_l by auto. reflexivity. }
  rewrite E. unfold fHelmholtz.
  assert (U : forall i, upd c k (c k) i = c i) by (intros i; unfold upd; destruct (Nat.eqb_spec i k); subst; auto).
  apply (is_derive_scal (fun x : R => rsum n (fun i => rsum n (fun j => chi i j * upd c k x i * upd c k x j)))).
  apply is_derive_sum. intros i Hi. apply is_derive_sum. intros j Hj.
  assert (D1 := upd_derive c k i (c k)). assert (D2 := upd_derive c k j (c k)).
  assert (D3 : is_derive (fun y : R => chi i j * upd c k y i) (c k) (chi i j * delta i k)).
  { apply (is_derive_scal (fun y : R => upd c k y i)). auto. }
  assert (D := is_derive_mult (fun y : R => chi i j * upd c k y i) (fun y : R => upd c k y j) (c k) _ _ D3 D2 Rmult_comm).
  replace (chi i j * (delta i k * c j + c i * delta j k)) with
    (plus (mult (chi i j * delta i k) (upd c k (c k) j)) (mult (chi i j * upd c k (c k) i) (delta j k))).
  - exact D.
  - rewrite !U. unfold plus, mult. simpl. ring.
Qed.

Theorem interaction_dWdC : forall n chi c i j, (j < n)%nat ->
  is_derive (fun x : R => computeW n chi (upd c j x) i) (c j) (computeDwDc n chi c i j).
Proof.
  intros n chi c i j Hj. unfold computeW, computeDwDc.
  replace (chi i j) with (rsum n (fun m => chi i m * delta m j)).
  - apply is_derive_sum. intros m Hm. apply (is_derive_scal (fun y : R => upd c j y m)). apply upd_derive.
  - rewrite (rsum_ext n _ (fun m => delta m j * chi i m)) by (intros; ring). apply delta_sum_l; auto.
Qed.

(* ---------- C36 ---------- *)
Definition det2 (a : nat -> nat -> R) : R := a 0%nat 0%nat * a 1%nat 1%nat - a 0%nat 1%nat * a 1%nat 0%nat.
Definition norm2 (a : nat -> nat -> R) : R :=
  a 0%nat 0%nat * a 0%nat 0%nat + a 0%nat 1%nat * a 0%nat 1%nat + a 1%nat 0%nat * a 1%nat 0%nat + a 1%nat 1%nat * a 1%nat 1%nat.
Definition zero2 (a : nat -> nat -> R) : Prop := forall i j, (i < 2)%nat -> (j < 2)%nat -> a i j = 0.

Lemma norm2_zero : forall a, norm2 a = 0 -> zero2 a.
Proof.
  intros a H. unfold norm2 in H.
  assert (A := Rle_0_sqr (a 0%nat 0%nat)). assert (B := Rle_0_sqr (a 0%nat 1%nat)).
  assert (C := Rle_0_sqr (a 1%nat 0%nat)). assert (D := Rle_0_sqr (a 1%nat 1%nat)). unfold Rsqr in *.
  intros i j Hi Hj. destruct i as [|[|i]]; [| |lia]; (destruct j as [|[|j]]; [| |lia]); apply Rsqr_0_uniq; unfold Rsqr; lra.
Qed.

Lemma norm2_nonneg : forall a, 0 <= norm2 a.
Proof.
  intros a. unfold norm2. assert (A := Rle_0_sqr (a 0%nat 0%nat)). assert (B := Rle_0_sqr (a 0%nat 1%nat)).
  assert (C := Rle_0_sqr (a 1%nat 0%nat)). assert (D := Rle_0_sqr (a 1%nat 1%nat)). unfold Rsqr in *. lra.
Qed.

(** What the two-monomer branch does on a symmetric matrix. *)
Lemma update2_cases : forall chi, symmetric 2 chi ->
  let m := update2 Rnum (fun i j => Some (chi i j)) in
  (zero2 chi /\ exists x, m = Ok x /\ forall i j, x i j = None) \/
  (~ zero2 chi /\ Rabs (det2 chi) < norm2 chi / 100000000 /\ m = Throw) \/
  (~ zero2 chi /\ norm2 chi / 100000000 <= Rabs (det2 chi) /\ exists x, m = Ok x /\
     exists inv, (forall i j, x i j = Some (inv i j)) /\ is_inverse 2 chi inv).
Proof.
  intros chi HS m. unfold m, update2, Rnum. cbn [nT nadd nsub nmul ndiv nopp nabs nlt ntwo ntol op2 option_map].
  assert (S01 : chi 1%nat 0%nat = chi 0%nat 1%nat) by (apply HS; lia).
  fold (det2 chi).
  replace (chi 0%nat 0%nat * chi 0%nat 0%nat + chi 1%nat 1%nat * chi 1%nat 1%nat + 2 * chi 0%nat 1%nat * chi 1%nat 0%nat) with (norm2 chi) by (unfold norm2; rewrite S01; ring).
  assert (NN := norm2_nonneg chi).
  destruct (Req_EM_T (norm2 chi) 0) as [Z|NZ].
  - assert (T : olt (option_map Rabs (odiv (Some (det2 chi)) (Some (norm2 chi)))) (Some (1 / 100000000)) = false).
    { unfold odiv. destruct (Req_EM_T (norm2 chi) 0); [reflexivity|contradiction]. }
    rewrite T. left. assert (ZZ := norm2_zero _ Z). split; auto.
    eexists. split; [reflexivity|]. assert (D0 : det2 chi = 0) by (unfold det2; rewrite !ZZ by lia; ring).
    intros i j. destruct i, j; cbn [odiv]; destruct (Req_EM_T (det2 chi) 0); auto; contradiction.
  - right. assert (NZ2 : ~ zero2 chi).
    { intros Z. apply NZ. unfold norm2. rewrite !Z by lia. ring. }
    assert (P : 0 < norm2 chi) by lra.
    assert (T : olt (option_map Rabs (odiv (Some (det2 chi)) (Some (norm2 chi)))) (Some (1 / 100000000)) =
      if Rlt_dec (Rabs (det2 chi) * / norm2 chi) (1 / 100000000) then true else false).
    { unfold odiv. destruct (Req_EM_T (norm2 chi) 0); [contradiction|]. cbv beta iota delta [option_map olt].
      replace (Rabs (det2 chi / norm2 chi)) with (Rabs (det2 chi) * / norm2 chi); [reflexivity|].
      unfold Rdiv; rewrite Rabs_mult; f_equal; symmetry; apply Rabs_pos_eq; left; apply Rinv_0_lt_compat; auto. }
    rewrite T. clear T.
    assert (IV : 0 < / norm2 chi) by (apply Rinv_0_lt_compat; auto).
    assert (IV1 : / norm2 chi * norm2 chi = 1) by (field; lra).
    destruct (Rlt_dec _ _) as [L|L].
    + left. split; auto. split; auto.
      apply (Rmult_lt_compat_r (norm2 chi)) in L; auto. rewrite Rmult_assoc, IV1, Rmult_1_r in L. unfold Rdiv in *. lra.
    + right. split; auto. assert (LE : norm2 chi / 100000000 <= Rabs (det2 chi)).
      { apply Rnot_lt_le in L. apply (Rmult_le_compat_r (norm2 chi)) in L; [|lra]. rewrite Rmult_assoc, IV1, Rmult_1_r in L. unfold Rdiv in *. lra. }
      split; auto. assert (DN : det2 chi <> 0). { intros D0. rewrite D0, Rabs_R0 in LE. lra. }
      eexists. split; [reflexivity|].
      exists (fun i j => match i, j with O, O => chi 1%nat 1%nat / det2 chi | O, _ => - chi 0%nat 1%nat / det2 chi | _, O => - chi 1%nat 0%nat / det2 chi | _, _ => chi 0%nat 0%nat / det2 chi end).
      split.
      * intros i j. destruct i, j; cbn [odiv option_map]; destruct (Req_EM_T (det2 chi) 0); auto; contradiction.
      * intros i j Hi Hj. unfold mat_mul, delta. destruct i as [|[|i]]; [| |lia]; (destruct j as [|[|j]]; [| |lia]); cbn [rsum Nat.eqb];
        split; unfold det2 in *; rewrite S01 in *; field; auto.
Qed.

(** Every nonzero singular matrix raises the error; when no error is raised
    for a nonzero matrix the stored matrix is the inverse. *)
Theorem singular_chi_detected_partial : forall lu chi, symmetric 2 chi -> ~ zero2 chi ->
  (det2 chi = 0 -> updateMembers lu 2 chi = Throw) /\
  (forall x, updateMembers lu 2 chi = Ok x -> exists inv, (forall i j, x i j = Some (inv i j)) /\ is_inverse 2 chi inv) /\
  (updateMembers lu 2 chi = Throw <-> Rabs (det2 chi) < norm2 chi / 100000000).
Proof.
  intros lu chi HS HZ. unfold updateMembers. cbn [Nat.eqb].
  destruct (update2_cases chi HS) as [[Z _]|[[_ [L E]]|[_ [L [x [E [inv [H1 H2]]]]]]]]; [contradiction| |]; rewrite E.
  - repeat split; auto. intros x X; discriminate.
  - repeat split.
    + intros D. exfalso. rewrite D, Rabs_R0 in L. apply HZ. apply norm2_zero. assert (N := norm2_nonneg chi). lra.
    + intros y Y. inversion Y; subst. eauto.
    + intros X; discriminate.
    + intros X. lra.
Qed.

(** The zero matrix is singular but accepted, and all elements of its
    "inverse" are non-finite. *)
Theorem singular_chi_detected_refuted : forall lu, exists chi x, symmetric 2 chi /\ det2 chi = 0 /\
  updateMembers lu 2 chi = Ok x /\ x 0%nat 1%nat = None.
Proof.
  intros lu. exists (fun _ _ => 0).
  destruct (update2_cases (fun _ _ => 0)) as [[_ [x [E H]]]|[[Z _]|[Z _]]].
  - intros i j _ _. reflexivity.
  - exists x. unfold updateMembers. cbn [Nat.eqb]. repeat split; auto. unfold det2; ring.
  - exfalso. apply Z. intros i j _ _; reflexivity.
  - exfalso. apply Z. intros i j _ _; reflexivity.
Qed.

(** The same code run with IEEE doubles: NaN for the zero matrix, and infinite
    elements for a nonsingular matrix whose determinant underflows
    (off-diagonal elements 2^-600, diagonal zero). *)
Theorem singular_chi_detected_double_refuted :
  (exists x, update2 Fnum (fun _ _ => S754_zero false) = Ok x /\ x 0%nat 1%nat = S754_nan /\ x 0%nat 0%nat = S754_nan) /\
  (exists x, update2 Fnum (fun i j => if Nat.eqb i j then S754_zero false else binary_normalize 53 1024 1 (-600) false) = Ok x /\
     exists s, x 0%nat 1%nat = S754_infinity s).
Proof.
  split.
  - eexists. split; [vm_compute; reflexivity|]. split; vm_compute; reflexivity.
  - eexists. split; [vm_compute; reflexivity|]. eexists. vm_compute. reflexivity.
Qed.

(** Sequences of setChi calls keep chi symmetric and the inverse current. *)
Fixpoint setChis (lu : nat -> (nat -> nat -> R) -> nat -> nat -> R) (s : interaction) (l : list (nat * nat * R)) : outcome interaction :=
  match l with
  | [] => Ok s
  | (i, j, x) :: l' => s' <- setChi lu s i j x ;; setChis lu s' l'
  end.
Theorem setChi_current : forall lu l s s', symmetric (iN s) (iChi s) -> updateMembers lu (iN s) (iChi s) = Ok (iInv s) ->
  setChis lu s l = Ok s' ->
  iN s' = iN s /\ symmetric (iN s') (iChi s') /\ updateMembers lu (iN s') (iChi s') = Ok (iInv s').
Proof.
  induction l as [|[[i j] x] l IH]; intros s s' HS HI H; cbn [setChis] in H.
  - inversion H; subst; auto.
  - unfold setChi in H. destruct (updateMembers lu (iN s) (putChi (iChi s) i j x)) as [m| | |] eqn:E; try discriminate.
    cbn [bind] in H. destruct (IH (mkInter (iN s) (putChi (iChi s) i j x) m) s') as [A [B C]]; auto.
    intros a b Ha Hb. unfold putChi. cbn [iN iChi].
    destruct (Nat.eqb_spec i j); [subst j|];
    repeat match goal with |- context [Nat.eqb ?a ?b] => destruct (Nat.eqb_spec a b) end; cbn [andb]; subst; try congruence; auto.
Qed.
(** The value that is set is the value that is stored, other elements keep theirs. *)
Theorem setChi_value : forall lu s i j x s', setChi lu s i j x = Ok s' ->
  iChi s' i j = x /\ iChi s' j i = x /\
  forall a b, ~ (a = i /\ b = j) -> ~ (a = j /\ b = i) -> iChi s' a b = iChi s a b.
Proof.
  intros lu s i j x s' H. unfold setChi in H. destruct (updateMembers lu (iN s) (putChi (iChi s) i j x)); try discriminate.
  cbn [bind] in H. inversion H; subst. cbn [iChi]. unfold putChi.
  split; [|split]; [| |intros a b0 N1 N2];
    (destruct (Nat.eqb_spec i j); [subst j|];
    repeat match goal with |- context [Nat.eqb ?a ?b] => destruct (Nat.eqb_spec a b) end; cbn [andb]; subst; try congruence; try tauto).
Qed.

(* ---------- C37 ---------- *)
(** SCFT equations for component k: incompressibility (with the mask value
    [m]) and fields given by the interaction, the external field and a
    Lagrange multiplier. *)
Definition scft_equations (n : nat) (chi : nat -> nat -> R) (c w h : nat -> R) (m : R) : Prop :=
  rsum n c = m /\ exists xi, forall i, (i < n)%nat -> w i = rsum n (fun j => chi i j * c j) + h i + xi.

Lemma sumChiInverse_total : forall n inv, sumChiInverse n inv = total n inv.
Proof.
  intros n inv. unfold sumChiInverse, ambdRow, total. rewrite rsum_swap. apply rsum_ext. intros i Hi.
  rewrite rsum_minus, rsum_zero. ring.
Qed.
(** Column sums of the inverse. *)
Definition colsum (n : nat) (inv : nat -> nat -> R) (j : nat) : R := rsum n (fun i => inv i j).
Lemma ambdP_formula : forall n inv i j, ambdP n inv i j = delta i j - colsum n inv j / total n inv.
Proof.
  intros. unfold ambdP. rewrite sumChiInverse_total. unfold ambdRow. rewrite rsum_minus, rsum_zero.
  fold (colsum n inv j). unfold delta. destruct (Nat.eqb i j); unfold Rdiv; ring.
Qed.
Lemma total_colsum : forall n inv, rsum n (colsum n inv) = total n inv.
Proof. intros. unfold total, colsum. apply rsum_swap. Qed.
Lemma ambdP_apply : forall n inv x i, (i < n)%nat ->
  rsum n (fun j => ambdP n inv i j * x j) = x i - rsum n (fun j => colsum n inv j * x j) / total n inv.
Proof.
  intros n inv x i Hi.
  rewrite (rsum_ext n _ (fun j => delta i j * x j - / total n inv * (colsum n inv j * x j))).
  - rewrite rsum_minus, delta_sum, rsum_scal by auto. unfold Rdiv. ring.
  - intros j Hj. rewrite ambdP_formula. unfold Rdiv. ring.
Qed.
Lemma colsum_chi : forall n chi inv c, is_inverse n chi inv ->
  rsum n (fun i => colsum n inv i * rsum n (fun j => chi i j * c j)) = rsum n c.
Proof.
  intros n chi inv c HI. unfold colsum.
  rewrite (rsum_ext n _ (fun i => rsum n (fun m => inv m i * rsum n (fun j => chi i j * c j)))).
  - rewrite rsum_swap. apply rsum_ext. intros m Hm. apply inverse_apply; auto. intros a b Ha Hb. apply HI; auto.
  - intros i Hi. rewrite rsum_scal_r. reflexivity.
Qed.

(** P is the projector used by Matsen: idempotent, annihilates constants, and
    is annihilated by the column sums of the inverse. *)
Theorem ambd_projector : forall n inv, total n inv <> 0 ->
  (forall i, (i < n)%nat -> rsum n (fun j => ambdP n inv i j) = 0) /\
  (forall j, (j < n)%nat -> rsum n (fun i => colsum n inv i * ambdP n inv i j) = 0) /\
  (forall i j, (i < n)%nat -> (j < n)%nat -> mat_mul n (ambdP n inv) (ambdP n inv) i j = ambdP n inv i j).
Proof.
  intros n inv HT.
  assert (A : forall i, (i < n)%nat -> rsum n (fun j => ambdP n inv i j) = 0).
  { intros i Hi. rewrite (rsum_ext n _ (fun j => ambdP n inv i j * 1)) by (intros; ring).
    rewrite (ambdP_apply n inv (fun _ => 1)) by auto.
    rewrite (rsum_ext n (fun j => colsum n inv j * 1) (colsum n inv)) by (intros; ring). rewrite total_colsum. field. auto. }
  assert (B : forall j, (j < n)%nat -> rsum n (fun i => colsum n inv i * ambdP n inv i j) = 0).
  { intros j Hj. rewrite (rsum_ext n _ (fun i => delta i j * colsum n inv i - colsum n inv i * (colsum n inv j / total n inv))).
    - rewrite rsum_minus, delta_sum_l, rsum_scal_r, total_colsum by auto. field. auto.
    - intros i Hi. rewrite ambdP_formula. ring. }
  split; [exact A|]. split; [exact B|].
  intros i j Hi Hj. unfold mat_mul. rewrite (ambdP_apply n inv (fun k => ambdP n inv k j)) by auto. rewrite B by auto. unfold Rdiv. ring.
Qed.

(** The algebra shared by all Anderson mixing residuals. *)
Lemma residual_core : forall n chi inv c u m, is_inverse n chi inv -> total n inv <> 0 ->
  let r := fun i => rsum n (fun j => chi i j * c j - ambdP n inv i j * u j) + (-1) / total n inv * m in
  (forall i, (i < n)%nat -> r i = 0) <->
  (rsum n c = m /\ exists xi, forall i, (i < n)%nat -> u i = rsum n (fun j => chi i j * c j) + xi).
Proof.
  intros n chi inv c u m HI HT r.
  assert (RF : forall i, (i < n)%nat -> r i = rsum n (fun j => chi i j * c j) - u i + (rsum n (fun j => colsum n inv j * u j) - m) / total n inv).
  { intros i Hi. unfold r. rewrite rsum_minus, ambdP_apply by auto. field. auto. }
  split.
  - intros H.
    assert (S : rsum n (fun i => colsum n inv i * r i) = rsum n c - m).
    { rewrite (rsum_ext n _ (fun i => colsum n inv i * rsum n (fun j => chi i j * c j) - colsum n inv i * u i
        + colsum n inv i * ((rsum n (fun j => colsum n inv j * u j) - m) / total n inv))).
      - rewrite rsum_plus, rsum_minus, colsum_chi, rsum_scal_r, total_colsum by auto. field. auto.
      - intros i Hi. rewrite RF by auto. ring. }
    split.
    + assert (Z : rsum n (fun i => colsum n inv i * r i) = 0).
      { rewrite (rsum_ext n _ (fun _ => 0)); [apply rsum_zero|]. intros i Hi. rewrite H by auto. ring. }
      lra.
    + exists ((rsum n (fun j => colsum n inv j * u j) - m) / total n inv). intros i Hi. assert (X := H i Hi). rewrite RF in X by auto. lra.
  - intros [HM [xi HX]] i Hi. rewrite RF by auto.
    rewrite (rsum_ext n (fun j => colsum n inv j * u j) (fun j => colsum n inv j * rsum n (fun l => chi j l * c l) + xi * colsum n inv j)).
    + rewrite rsum_plus, rsum_scal, colsum_chi, total_colsum, HM, (HX i) by auto. field. auto.
    + intros j Hj. rewrite HX by auto. ring.
Qed.

Definition hval (h : option (nat -> nat -> R)) (i k : nat) : R := match h with Some hf => hf i k | None => 0 end.
Lemma scfSum_formula : forall n chi inv c w h i k,
  scfSum n chi inv c w h i k = rsum n (fun j => chi i j * c j k - ambdP n inv i j * (w j k - hval h j k)).
Proof. intros. unfold scfSum, hval. apply rsum_ext. intros j Hj. destruct h; ring. Qed.

Lemma residual_point : forall n chi inv c w h m k, is_inverse n chi inv -> total n inv <> 0 ->
  (forall i, (i < n)%nat -> scfSum n chi inv c w h i k + (-1) / sumChiInverse n inv * m = 0) <->
  scft_equations n chi (fun j => c j k) (fun j => w j k) (fun j => hval h j k) m.
Proof.
  intros n chi inv c w h m k HI HT.
  assert (Q := residual_core n chi inv (fun j => c j k) (fun j => w j k - hval h j k) m HI HT). cbv zeta in Q.
  unfold scft_equations. split.
  - intros H. destruct (proj1 Q) as [A [xi B]].
    + intros i Hi. rewrite <- (H i Hi), sumChiInverse_total, scfSum_formula. reflexivity.
    + split; auto. exists xi. intros i Hi. specialize (B i Hi). lra.
  - intros [A [xi B]] i Hi. rewrite sumChiInverse_total, scfSum_formula. apply (proj2 Q); auto.
    split; auto. exists xi. intros j Hj. rewrite (B j Hj). ring.
Qed.

(** Mask coefficient: without a mask, one for the homogeneous basis function
    (grid: one everywhere). *)
Definition mask_basis (mask : option (nat -> R)) (k : nat) : R := match mask with Some m => m k | None => delta k 0 end.
Definition mask_grid (mask : option (nat -> R)) (k : nat) : R := match mask with Some m => m k | None => 1 end.

Lemma residualBasis_formula : forall n chi inv canonical c w h mask i k,
  residualBasis n chi inv canonical c w h mask i k =
  if canonical && (k =? 0)%nat then 0 else scfSum n chi inv c w h i k + (-1) / sumChiInverse n inv * mask_basis mask k.
Proof.
  intros. unfold residualBasis, mask_basis, delta. destruct (canonical && (k =? 0)%nat); auto. f_equal.
  destruct mask; auto. destruct (k =? 0)%nat; unfold Rdiv; ring.
Qed.

(** Open ensemble, basis functions. *)
Theorem residual_basis_zero_iff : forall n chi inv c w h mask k, is_inverse n chi inv -> total n inv <> 0 ->
  (forall i, (i < n)%nat -> residualBasis n chi inv false c w h mask i k = 0) <->
  scft_equations n chi (fun j => c j k) (fun j => w j k) (fun j => hval h j k) (mask_basis mask k).
Proof.
  intros n chi inv c w h mask k HI HT. rewrite <- (residual_point n chi inv c w h _ k HI HT).
  split; intros H i Hi; specialize (H i Hi); rewrite residualBasis_formula in *; auto.
Qed.

(** Canonical ensemble: the homogeneous components are not part of the
    residual; they satisfy the equations because the number of monomers is
    conserved (C09) and because of how the fields were updated. *)
Theorem residual_basis_zero_iff_canonical : forall n chi inv c c0 new h mask, is_inverse n chi inv -> total n inv <> 0 ->
  (forall j, (j < n)%nat -> c j 0%nat = c0 j 0%nat) -> rsum n (fun j => c j 0%nat) = mask_basis mask 0 ->
  let w := updateBasis n chi true c0 h new in
  (forall i k, (i < n)%nat -> residualBasis n chi inv true c w h mask i k = 0) <->
  (forall k, scft_equations n chi (fun j => c j k) (fun j => w j k) (fun j => hval h j k) (mask_basis mask k)).
Proof.
  intros n chi inv c c0 new h mask HI HT HC HM w. split.
  - intros H k. destruct k as [|k].
    + split; auto. exists 0. intros i Hi. unfold w, updateBasis. cbn [andb Nat.eqb].
      rewrite (rsum_ext n (fun j => chi i j * c0 j 0%nat) (fun j => chi i j * c j 0%nat)) by (intros j Hj; rewrite HC; auto).
      unfold hval. destruct h; ring.
    + apply (residual_point n chi inv c w h _ (S k) HI HT). intros i Hi. rewrite <- (H i (S k) Hi), residualBasis_formula. reflexivity.
  - intros H i k Hi. rewrite residualBasis_formula. destruct (true && (k =? 0)%nat); auto.
    apply (proj2 (residual_point n chi inv c w h _ k HI HT)); auto.
Qed.

Lemma residualGrid_formula : forall n nMesh chi inv c w h mask i k,
  residualGrid n nMesh chi inv false c w h mask i k = scfSum n chi inv c w h i k + (-1) / sumChiInverse n inv * mask_grid mask k.
Proof. intros. unfold residualGrid, mask_grid. destruct mask; ring. Qed.

(** Open ensemble, grid. *)
Theorem residual_grid_zero_iff : forall n nMesh chi inv c w h mask k, is_inverse n chi inv -> total n inv <> 0 ->
  (forall i, (i < n)%nat -> residualGrid n nMesh chi inv false c w h mask i k = 0) <->
  scft_equations n chi (fun j => c j k) (fun j => w j k) (fun j => hval h j k) (mask_grid mask k).
Proof.
  intros n nMesh chi inv c w h mask k HI HT. rewrite <- (residual_point n chi inv c w h _ k HI HT).
  split; intros H i Hi; specialize (H i Hi); rewrite residualGrid_formula in *; auto.
Qed.

Definition mean (N : nat) (f : nat -> R) : R := rsum N f / INR N.

(** Canonical ensemble, grid. *)
Theorem residual_grid_zero_iff_canonical : forall n N chi inv c c0 new h mask, is_inverse n chi inv -> total n inv <> 0 ->
  (0 < N)%nat ->
  (forall j, (j < n)%nat -> mean N (c j) = mean N (c0 j)) -> rsum n (fun j => mean N (c j)) = mean N (mask_grid mask) ->
  let w := updateGrid n N chi true c0 h new in
  (forall i k, (i < n)%nat -> (k < N)%nat -> residualGrid n N chi inv true c w h mask i k = 0) <->
  (forall k, (k < N)%nat -> scft_equations n chi (fun j => c j k) (fun j => w j k) (fun j => hval h j k) (mask_grid mask k)).
Proof.
  intros n N chi inv c c0 new h mask HI HT HN HC HM w.
  assert (NZ : INR N <> 0) by (apply not_0_INR; lia).
  (* averages of the residual vanish *)
  assert (M0 : forall i, (i < n)%nat -> rsum N (fun k => residualGrid n N chi inv false c w h mask i k) = 0).
  { assert (PT := residual_point n chi inv (fun j _ => mean N (c j)) (fun j _ => mean N (w j))
                    (Some (fun j _ => mean N (hval h j))) (mean N (mask_grid mask)) 0 HI HT).
    assert (EQ : scft_equations n chi (fun j => mean N (c j)) (fun j => mean N (w j)) (fun j => mean N (hval h j)) (mean N (mask_grid mask))).
    { split; auto. exists 0. intros i Hi. unfold w, updateGrid. unfold mean at 1.
      rewrite !rsum_plus, rsum_minus, !rsum_const. unfold average.
      rewrite (rsum_ext n (fun j => chi i j * (rsum N (c0 j) / INR N)) (fun j => chi i j * mean N (c j))) by (intros j Hj; rewrite HC; auto).
      unfold hval. destruct h as [hf|].
      - change (fun i0 => hf i i0) with (hf i). change (fun i0 => new i i0) with (new i). fold (mean N (hf i)). unfold mean. field. auto.
      - unfold mean. rewrite rsum_zero. field. auto. }
    intros i Hi. assert (Q := proj2 PT EQ i Hi). rewrite scfSum_formula in Q.
    rewrite (rsum_ext N _ (fun k => rsum n (fun j => chi i j * c j k - ambdP n inv i j * (w j k - hval h j k)) + (-1) / sumChiInverse n inv * mask_grid mask k)).
    2:{ intros k Hk. rewrite residualGrid_formula, scfSum_formula. reflexivity. }
    rewrite rsum_plus, rsum_scal, rsum_swap.
    rewrite (rsum_ext n _ (fun j => INR N * (chi i j * mean N (c j) - ambdP n inv i j * (mean N (w j) - mean N (hval h j))))).
    2:{ intros j Hj. rewrite rsum_minus, !rsum_scal, rsum_minus. unfold mean. field. auto. }
    rewrite rsum_scal. cbn [hval] in Q.
    replace (rsum N (mask_grid mask)) with (INR N * mean N (mask_grid mask)) by (unfold mean; field; auto).
    transitivity (INR N * (rsum n (fun j => chi i j * mean N (c j) - ambdP n inv i j * (mean N (w j) - mean N (hval h j))) + (-1) / sumChiInverse n inv * mean N (mask_grid mask))); [ring|].
    rewrite Q. ring. }
  assert (F : forall i k, (i < n)%nat -> residualGrid n N chi inv true c w h mask i k = residualGrid n N chi inv false c w h mask i k).
  { intros i k Hi. assert (X := M0 i Hi). unfold residualGrid in *.
    set (r := fun k0 => scfSum n chi inv c w h i k0 + match mask with Some m => (-1) / sumChiInverse n inv * m k0 | None => (-1) / sumChiInverse n inv end) in *.
    change (r k - rsum N r / INR N = r k). assert (Y : rsum N r = 0) by exact X. rewrite Y. unfold Rdiv. ring. }
  split.
  - intros H k Hk. apply (residual_grid_zero_iff n N chi inv c w h mask k HI HT). intros i Hi. rewrite <- F by auto. auto.
  - intros H i k Hi Hk. rewrite F by auto. apply (proj2 (residual_grid_zero_iff n N chi inv c w h mask k HI HT)); auto.
Qed.

(** The stress elements vanish iff every flexible parameter has zero stress. *)
Theorem stress_residual_zero_iff : forall s flexible stress, s <> 0 ->
  ((forall x, In x (stressResidual s flexible stress) -> x = 0) <->
   (forall i, nth i flexible false = true -> stress i = 0)) /\
  length (stressResidual s flexible stress) = count_occ bool_dec flexible true.
Proof.
  intros s fl st Hs. split.
  - unfold stressResidual. split.
    + intros H i Hi. assert (L : (i < length fl)%nat). { destruct (le_lt_dec (length fl) i); auto. rewrite nth_overflow in Hi by auto. discriminate. }
      assert (X : -1 * s * st i = 0). { apply H. apply (in_map (fun i => -1 * s * st i)). apply filter_In. split; auto. apply in_seq. lia. }
      assert (Y : s * st i = 0) by lra. apply Rmult_integral in Y. tauto.
    + intros H x Hx. apply in_map_iff in Hx. destruct Hx as [i [<- Hi]]. apply filter_In in Hi. rewrite (H i) by tauto. ring.
  - unfold stressResidual. rewrite map_length.
    assert (G : forall l m, length (filter (fun i => nth i (m ++ l) false) (seq (length m) (length l))) = count_occ bool_dec l true).
    { induction l as [|b l IH]; intros m; [reflexivity|]. cbn [length seq filter].
      rewrite app_nth2, Nat.sub_diag by lia. cbn [nth].
      assert (E := IH (m ++ [b])). rewrite <- app_assoc, app_length in E. cbn [length app] in E. rewrite Nat.add_1_r in E.
      destruct b; cbn [count_occ]; [destruct (bool_dec true true); [|congruence]; cbn [length]; rewrite E; auto|].
      destruct (bool_dec false true); [congruence|]. exact E. }
    apply (G fl []).
Qed.

(** r1d: Anderson mixing. *)
Theorem residual_r1d_zero_iff : forall n chi inv c w k, is_inverse n chi inv -> total n inv <> 0 ->
  (forall i, (i < n)%nat -> residualR1d n chi inv c w i k = 0) <->
  scft_equations n chi (fun j => c j k) (fun j => w j k) (fun _ => 0) 1.
Proof.
  intros n chi inv c w k HI HT. rewrite <- (residual_point n chi inv c w None 1 k HI HT).
  split; intros H i Hi; specialize (H i Hi); unfold residualR1d in *; lra.
Qed.

(** r1d: Newton-Raphson, open ensemble. *)
Theorem residual_nr_zero_iff : forall n nx chi c w i, (0 < n)%nat ->
  (forall j, (j < n)%nat -> residualNr n nx chi false c w j i = 0) <->
  scft_equations n chi (fun j => c j i) (fun j => w j i) (fun _ => 0) 1.
Proof.
  intros n nx chi c w i Hn. unfold scft_equations, residualNr, computeW. cbn [andb]. split.
  - intros H. split.
    + assert (X := H 0%nat Hn). cbv beta iota in X. lra.
    + exists (w 0%nat i - rsum n (fun j => chi 0%nat j * c j i)). intros j Hj. destruct j as [|j]; [ring|].
      assert (X := H (S j) Hj). cbv beta iota zeta in X. lra.
  - intros [A [xi B]] j Hj. destruct j as [|j]; [lra|]. rewrite (B (S j) Hj), (B 0%nat Hn). ring.
Qed.
(** In the canonical ensemble the last incompressibility condition is
    implied by the others if a positively weighted sum of the total
    concentration equals that of one, which is what mass conservation gives. *)
Theorem residual_nr_zero_iff_canonical : forall n nx chi c w (weight : nat -> R), (0 < n)%nat -> (0 < nx)%nat ->
  weight (nx - 1)%nat <> 0 ->
  rsum nx (fun i => weight i * rsum n (fun j => c j i)) = rsum nx weight ->
  (forall j i, (j < n)%nat -> (i < nx)%nat -> residualNr n nx chi true c w j i = 0) <->
  (w (n - 1)%nat (nx - 1)%nat = 0 /\
   forall i, (i < nx)%nat -> scft_equations n chi (fun j => c j i) (fun j => w j i) (fun _ => 0) 1).
Proof.
  intros n nx chi c w weight Hn Hx Hw HM. split.
  - intros H. assert (L := H 0%nat (nx - 1)%nat Hn ltac:(lia)). unfold residualNr in L. cbv zeta iota in L. rewrite Nat.eqb_refl in L. cbn [andb] in L.
    split; auto.
    assert (INC : forall i, (i < nx)%nat -> rsum n (fun j => c j i) = 1).
    { assert (I1 : forall i, (i < nx)%nat -> i <> (nx - 1)%nat -> rsum n (fun j => c j i) = 1).
      { intros i Hi Ni. assert (X := H 0%nat i Hn Hi). unfold residualNr in X. cbv zeta iota in X.
        apply Nat.eqb_neq in Ni. rewrite Ni in X. cbn [andb] in X. lra. }
      intros i Hi. destruct (Nat.eq_dec i (nx - 1)) as [->|]; auto.
      destruct nx as [|m]; [lia|]. replace (S m - 1)%nat with m in * by lia. cbn [rsum] in HM.
      rewrite (rsum_ext m _ weight) in HM by (intros i0 Hi0; rewrite I1 by lia; ring).
      assert (X : weight m * (rsum n (fun j => c j m) - 1) = 0) by lra. apply Rmult_integral in X. destruct X; [contradiction|lra]. }
    intros i Hi. apply (residual_nr_zero_iff n nx); auto. intros j Hj. destruct j as [|j].
    + unfold residualNr. cbn [andb]. rewrite INC by auto. ring.
    + exact (H (S j) i Hj Hi).
  - intros [A B] j i Hj Hi. destruct j as [|j].
    + unfold residualNr. cbn [andb]. destruct (Nat.eqb_spec i (nx - 1)); auto. destruct (B i Hi) as [X _]. rewrite X. ring.
    + exact (proj2 (residual_nr_zero_iff n nx chi c w i Hn) (B i Hi) (S j) Hj).
Qed.

(** r1d: binary relaxation iterator.  It uses only chi(0,1), so it solves the
    equations when the diagonal elements are zero. *)
Theorem binary_relax_zero_iff_partial : forall chi lp lm c w i, symmetric 2 chi -> chi 0%nat 0%nat = 0 -> chi 1%nat 1%nat = 0 ->
  chi 0%nat 1%nat <> 0 -> lp <> 0 -> lm <> 0 ->
  (forall j, (j < 2)%nat -> binaryDW chi lp lm c w j i = 0) <->
  scft_equations 2 chi (fun j => c j i) (fun j => w j i) (fun _ => 0) 1.
Proof.
  intros chi lp lm c w i HS D0 D1 HX Hp Hm. assert (S10 : chi 1%nat 0%nat = chi 0%nat 1%nat) by (apply HS; lia).
  unfold scft_equations, binaryDW. cbn [rsum]. split.
  - intros H. assert (A := H 0%nat ltac:(lia)). assert (B := H 1%nat ltac:(lia)). cbv beta iota zeta in A, B.
    set (x := c 1%nat i + c 0%nat i - 1) in *. set (y := 1 / 2 * (c 0%nat i - c 1%nat i - (w 1%nat i - w 0%nat i) / chi 0%nat 1%nat)) in *.
    assert (X0 : x = 0) by (assert (Q : lp * x = 0) by lra; apply Rmult_integral in Q; tauto).
    assert (Y0 : y = 0) by (assert (Q : lm * y = 0) by lra; apply Rmult_integral in Q; tauto).
    split; [unfold x in X0; lra|].
    assert (Z : w 1%nat i - w 0%nat i = chi 0%nat 1%nat * (c 0%nat i - c 1%nat i)).
    { unfold y in Y0. assert (Q : (w 1%nat i - w 0%nat i) / chi 0%nat 1%nat = c 0%nat i - c 1%nat i) by lra. rewrite <- Q. field. auto. }
    exists (w 0%nat i - chi 0%nat 1%nat * c 1%nat i). intros j Hj. destruct j as [|[|j]]; [| |lia]; rewrite ?D0, ?D1, ?S10; lra.
  - intros [A [xi B]] j Hj. assert (B0 := B 0%nat ltac:(lia)). assert (B1 := B 1%nat ltac:(lia)). rewrite D0 in B0. rewrite D1, S10 in B1.
    assert (Z : (w 1%nat i - w 0%nat i) / chi 0%nat 1%nat = c 0%nat i - c 1%nat i) by (rewrite B0, B1; field; auto).
    destruct j as [|[|j]]; [| |lia]; rewrite Z; replace (c 1%nat i + c 0%nat i - 1) with 0 by lra; ring.
Qed.
(** With a nonzero diagonal element it converges to other fields. *)
Theorem binary_relax_zero_iff_refuted : exists chi inv c w, symmetric 2 chi /\ is_inverse 2 chi inv /\ chi 0%nat 1%nat <> 0 /\
  (forall lp lm j, (j < 2)%nat -> binaryDW chi lp lm c w j 0 = 0) /\
  ~ scft_equations 2 chi (fun j => c j 0%nat) (fun j => w j 0%nat) (fun _ => 0) 1.
Proof.
  exists (fun i j => match i, j with 0%nat, 0%nat => 1 | 1%nat, 1%nat => 0 | _, _ => 2 end).
  exists (fun i j => match i, j with 0%nat, 0%nat => 0 | 1%nat, 1%nat => -1/4 | _, _ => 1/2 end).
  exists (fun j _ => 1/2), (fun _ _ => 0).
  repeat split.
  - intros i j Hi Hj. destruct i as [|[|i]]; [| |lia]; (destruct j as [|[|j]]; [| |lia]); auto.
  - unfold mat_mul, delta. destruct i as [|[|i]]; [| |lia]; (destruct j as [|[|j]]; [| |lia]); cbn [rsum Nat.eqb]; lra.
  - unfold mat_mul, delta. destruct i as [|[|i]]; [| |lia]; (destruct j as [|[|j]]; [| |lia]); cbn [rsum Nat.eqb]; lra.
  - lra.
  - intros lp lm j Hj. unfold binaryDW. destruct j; unfold Rdiv; ring_simplify; lra.
  - intros [_ [xi H]]. assert (A := H 0%nat ltac:(lia)). assert (B := H 1%nat ltac:(lia)). cbn [rsum] in A, B. lra.
Qed.

(** The step goes in the right direction: with the concentrations held fixed, the
    difference of the two fields approaches chi times the difference of the
    concentrations by the factor 1 - lambdaMinus/chi, and both fields rise together
    by lambdaPlus times the excess of the total concentration. *)
Theorem binary_relax_direction : forall chi lp lm c w i, chi 0%nat 1%nat <> 0 ->
  let w' := fun j i => w j i + binaryDW chi lp lm c w j i in
  (w' 1%nat i - w' 0%nat i) - chi 0%nat 1%nat * (c 0%nat i - c 1%nat i) =
    (1 - lm / chi 0%nat 1%nat) * ((w 1%nat i - w 0%nat i) - chi 0%nat 1%nat * (c 0%nat i - c 1%nat i)) /\
  (w' 0%nat i + w' 1%nat i) / 2 = (w 0%nat i + w 1%nat i) / 2 + lp * (c 0%nat i + c 1%nat i - 1).
Proof. intros chi lp lm c w i H w'. unfold w', binaryDW. split; field; assumption. Qed.

(* ---------- examples ---------- *)
(** Three monomer types with all interactions equal to one. *)
Example ex_inverse3 : let chi := fun i j : nat => if Nat.eqb i j then 0 else 1 in
  let inv := fun i j : nat => if Nat.eqb i j then -1/2 else 1/2 in
  is_inverse 3 chi inv /\ symmetric 3 chi /\ total 3 inv <> 0.
Proof.
  cbv zeta. repeat split.
  - unfold mat_mul, delta. destruct i as [|[|[|i]]]; try (exfalso; lia); (destruct j as [|[|[|j]]]; try (exfalso; lia)); cbn [rsum Nat.eqb]; lra.
  - unfold mat_mul, delta. destruct i as [|[|[|i]]]; try (exfalso; lia); (destruct j as [|[|[|j]]]; try (exfalso; lia)); cbn [rsum Nat.eqb]; lra.
  - intros i j _ _. rewrite Nat.eqb_sym. reflexivity.
  - unfold total. cbn [rsum Nat.eqb]. lra.
Qed.
Example ex_setChi : forall lu, exists s, setChi lu (mkInter 2 (fun _ _ => 0) (fun _ _ => None)) 0 1 3 = Ok s.
Proof.
  intros lu. unfold setChi, updateMembers. cbn [iN Nat.eqb].
  match goal with |- context [update2 Rnum ?f] => assert (E := update2_cases (putChi (fun _ _ => 0) 0 1 3)) end.
  cbn [iChi] in *. destruct E as [[Z _]|[[_ [L _]]|[_ [_ [x [E _]]]]]].
  - intros i j Hi Hj. unfold putChi. destruct i as [|[|i]]; [| |lia]; (destruct j as [|[|j]]; [| |lia]); reflexivity.
  - exfalso. assert (Q := Z 0%nat 1%nat ltac:(lia) ltac:(lia)). unfold putChi in Q. cbn in Q. lra.
  - exfalso. unfold det2, norm2, putChi in L. cbn [Nat.eqb andb] in L. unfold Rabs in L. destruct (Rcase_abs _); lra.
  - rewrite E. cbn [bind]. eauto.
Qed.

Print Assumptions interaction_xi_recovered.
Print Assumptions interaction_roundtrip.
Print Assumptions interaction_c_sums_to_one.
Print Assumptions interaction_fields_recovered.
Print Assumptions interaction_fHelmholtz_gradient.
Print Assumptions interaction_dWdC.
Print Assumptions singular_chi_detected_partial.
Print Assumptions singular_chi_detected_refuted.
Print Assumptions singular_chi_detected_double_refuted.
Print Assumptions setChi_current.
Print Assumptions setChi_value.
Print Assumptions ambd_projector.
Print Assumptions residual_basis_zero_iff.
Print Assumptions residual_basis_zero_iff_canonical.
Print Assumptions residual_grid_zero_iff.
Print Assumptions residual_grid_zero_iff_canonical.
Print Assumptions stress_residual_zero_iff.
Print Assumptions residual_r1d_zero_iff.
Print Assumptions residual_nr_zero_iff.
Print Assumptions residual_nr_zero_iff_canonical.
Print Assumptions binary_relax_zero_iff_partial.
Print Assumptions binary_relax_zero_iff_refuted.
Print Assumptions binary_relax_direction.
