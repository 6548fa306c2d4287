(** Property C55: the comparison of fields reports the true maximum and
    root-mean-square differences. *)
From Coq Require Import Reals List Arith Bool Lra Lia.
From Verif Require Import Base RSum Compare.
Import ListNotations.
Local Open Scope R_scope.

(** Specification.  [isMax m l]: m is the largest member of l, 0 for an empty list of
    nonnegative numbers. [isRms r l n]: r is the root of the sum of squares over n. *)
Definition isMax (m : R) (l : list R) : Prop :=
  (forall x, In x l -> x <= m) /\ (In m l \/ m = 0 /\ l = []).
Definition isRms (r : R) (l : list R) (n : nat) : Prop :=
  0 <= r /\ r * r * INR n = lsum (fun x => x * x) l.
Definition absDiff (p : R * R) : R := Rabs (fst p - snd p).
(** Modulus of the difference of two complex numbers *)
Definition cAbsDiff (p : (R * R) * (R * R)) : R :=
  sqrt ((fst (fst p) - fst (snd p)) * (fst (fst p) - fst (snd p)) + (snd (fst p) - snd (snd p)) * (snd (fst p) - snd (snd p))).
(** Corresponding elements of two arrays of fields *)
Definition pairs {A} (a b : list (list A)) : list (A * A) :=
  concat (map (fun p => combine (fst p) (snd p)) (combine a b)).

Section Generic.
Variables E F : Type.
Variables diff diffSq : E -> E -> option R.
Variable inj : F -> E.
Variable d : F * F -> R.
Hypothesis d_pos : forall p, 0 <= d p.
Hypothesis diff_inj : forall x y, diff (inj x) (inj y) = Some (d (x, y)).
Hypothesis diffSq_inj : forall x y, diffSq (inj x) (inj y) = Some (d (x, y) * d (x, y)).

Definition inj2 (p : F * F) : E * E := (inj (fst p), inj (snd p)).

Lemma elements_spec l : forall m s, 0 <= m ->
  exists m', elements E diff diffSq (map inj2 l) m s = Some (m', s + lsum (fun p => d p * d p) l) /\
    m <= m' /\ (forall p, In p l -> d p <= m') /\ (m' = m \/ exists p, In p l /\ m' = d p).
Proof.
  induction l as [|[x y] r IH]; intros m s Hm; cbn [map elements lsum].
  - exists m. rewrite Rplus_0_r. repeat split; [lra|contradiction|left; reflexivity].
  - unfold inj2 at 1. cbn [fst snd]. rewrite diff_inj, diffSq_inj.
    destruct (IH (if Rlt_dec m (d (x, y)) then d (x, y) else m) (s + d (x, y) * d (x, y))) as (m' & E1 & E2 & E3 & E4).
    { destruct (Rlt_dec _ _); lra. }
    exists m'. rewrite E1. split; [f_equal; f_equal; lra|].
    destruct (Rlt_dec m (d (x, y))).
    + split; [lra|]. split.
      * intros p [<-|Hp]; [lra|auto].
      * right. destruct E4 as [->|(p & Hp & ->)]; [exists (x, y); cbn; auto|exists p; cbn; auto].
    + split; [lra|]. split.
      * intros p [<-|Hp]; [lra|auto].
      * destruct E4 as [->|(p & Hp & ->)]; [left; reflexivity|right; exists p; cbn; auto].
Qed.

Lemma combine_inj a : forall b, combine (map inj a) (map inj b) = map inj2 (combine a b).
Proof. induction a; intros [|y b]; cbn; [reflexivity..|]. rewrite IHa. reflexivity. Qed.
Lemma combine_map2 (a : list (list F)) : forall b,
  combine (map (map inj) a) (map (map inj) b) = map (fun p => (map inj (fst p), map inj (snd p))) (combine a b).
Proof. induction a; intros [|y b]; cbn; [reflexivity..|]. rewrite IHa. reflexivity. Qed.
Lemma skipn_map' {X Y} (f : X -> Y) n : forall l, skipn n (map f l) = map f (skipn n l).
Proof. induction n; intros [|x l]; cbn; auto. Qed.

Lemma isMax_of l m' : 0 <= m' -> (forall p, In p l -> d p <= m') -> (m' = 0 \/ exists p, In p l /\ m' = d p) -> isMax m' (map d l).
Proof.
  intros P H1 H2. split.
  - intros x Hx. apply in_map_iff in Hx. destruct Hx as (p & <- & Hp). auto.
  - destruct H2 as [H2|(p & Hp & ->)]; [|left; apply in_map, Hp].
    destruct l as [|p r]; [right; auto|]. left. subst m'. left. assert (d p <= 0) by (apply H1; left; reflexivity). specialize (d_pos p). lra.
Qed.
Lemma lsum_map {X Y} (f : Y -> R) (g : X -> Y) l : lsum f (map g l) = lsum (fun x => f (g x)) l.
Proof. induction l; cbn; [reflexivity|]. rewrite IHl. reflexivity. Qed.
Lemma isRms_of l n : (0 < n)%nat -> isRms (sqrt (lsum (fun p => d p * d p) l / INR n)) (map d l) n.
Proof.
  intros Hn. assert (0 < INR n) by (apply lt_0_INR; lia).
  assert (0 <= lsum (fun p => d p * d p) l). { clear. induction l; cbn; [lra|]. pose proof (Rle_0_sqr (d a)). unfold Rsqr in *. lra. }
  split; [apply sqrt_pos|]. rewrite sqrt_sqrt, lsum_map. 2:{ apply Rmult_le_pos; [assumption|]. left. apply Rinv_0_lt_compat. assumption. }
  field. lra.
Qed.

Lemma compare1_spec begin (a b : list F) : (0 < length a)%nat -> length a = length b ->
  exists m r, compare1 E diff diffSq begin (map inj a) (map inj b) = Ok (m, r) /\
    isMax m (map d (skipn begin (combine a b))) /\ isRms r (map d (skipn begin (combine a b))) (length a).
Proof.
  intros HP HL. unfold compare1. rewrite !map_length, <- HL, Nat.eqb_refl. apply Nat.ltb_lt in HP. rewrite HP. cbn [check bind].
  rewrite combine_inj, skipn_map'. destruct (elements_spec (skipn begin (combine a b)) 0 0) as (m & -> & A1 & A2 & A3); [lra|].
  rewrite Rplus_0_l. eexists _, _. split; [reflexivity|]. split; [apply isMax_of; assumption|].
  apply isRms_of. apply Nat.ltb_lt, HP.
Qed.

Lemma fieldsLoop_spec n l : (0 < n)%nat -> (forall p, In p l -> length (fst p) = n /\ length (snd p) = n) -> forall m s n0, 0 <= m ->
  let P := concat (map (fun p => combine (fst p) (snd p)) l) in
  exists m', fieldsLoop E diff diffSq 0 (map (fun p => (map inj (fst p), map inj (snd p))) l) m s n0 =
      Ok (Some (m', s + lsum (fun p => d p * d p) P, match l with [] => n0 | _ => n end)) /\
    m <= m' /\ (forall p, In p P -> d p <= m') /\ (m' = m \/ exists p, In p P /\ m' = d p).
Proof.
  intros Hn. induction l as [|[x y] r IH]; intros HL m s n0 Hm; cbn [map fieldsLoop concat fst snd].
  - exists m. cbn. rewrite Rplus_0_r. repeat split; [lra|contradiction|left; reflexivity].
  - destruct (HL (x, y)) as [Lx Ly]; [left; reflexivity|]. cbn in Lx, Ly.
    rewrite !map_length, Lx, Ly, Nat.eqb_refl. assert (E0 := Hn). apply Nat.ltb_lt in E0. rewrite E0. cbn [check bind]. rewrite combine_inj. cbn [skipn].
    destruct (elements_spec (combine x y) m s Hm) as (m1 & -> & A1 & A2 & A3).
    destruct (IH (fun p Hp => HL p (or_intror Hp)) m1 (s + lsum (fun p => d p * d p) (combine x y)) n) as (m2 & -> & B1 & B2 & B3); [lra|].
    exists m2. rewrite lsum_app. split; [f_equal; f_equal; f_equal; [f_equal; lra|destruct r; reflexivity]|].
    split; [lra|]. split.
    + intros p Hp. apply in_app_or in Hp. destruct Hp as [Hp|Hp]; [specialize (A2 p Hp); lra|auto].
    + destruct B3 as [->|(p & Hp & ->)]; [|right; exists p; split; [apply in_or_app; auto|reflexivity]].
      destruct A3 as [->|(p & Hp & ->)]; [left; reflexivity|right; exists p; split; [apply in_or_app; auto|reflexivity]].
Qed.

Lemma compareN_spec n (a b : list (list F)) : (0 < n)%nat -> (0 < length a)%nat -> length a = length b ->
  (forall x, In x a \/ In x b -> length x = n) ->
  exists m r, compareN E diff diffSq 0 (map (map inj) a) (map (map inj) b) = Ok (m, r) /\
    isMax m (map d (pairs a b)) /\ isRms r (map d (pairs a b)) (length a * n).
Proof.
  intros Hn HP HL HS. unfold compareN. rewrite !map_length, <- HL, Nat.eqb_refl. assert (E0 := HP). apply Nat.ltb_lt in E0. rewrite E0. cbn [check bind].
  destruct a as [|x a]; [cbn in HP; lia|]. destruct b as [|y b]; [discriminate|]. cbn [map hd]. rewrite map_length, (HS x) by (left; left; reflexivity).
  assert (E1 := Hn). apply Nat.ltb_lt in E1. rewrite E1. cbn [check bind].
  change (map inj x :: map (map inj) a) with (map (map inj) (x :: a)). change (map inj y :: map (map inj) b) with (map (map inj) (y :: b)).
  set (A := x :: a) in *. set (B := y :: b) in *.
  rewrite combine_map2. destruct (fieldsLoop_spec n (combine A B) Hn) with (m := 0) (s := 0) (n0 := 0%nat) as (m & EL & A1 & A2 & A3); [| lra |].
  { intros [u v] Hp. split; apply HS; [left; apply (in_combine_l _ _ _ _ Hp)|right; apply (in_combine_r _ _ _ _ Hp)]. }
  rewrite EL. cbn [bind]. replace (match combine A B with [] => 0%nat | _ => n end) with n by reflexivity. rewrite Rplus_0_l.
  eexists _, _. split; [reflexivity|]. split; [apply isMax_of; assumption|].
  apply isRms_of. apply Nat.mul_pos_pos; assumption.
Qed.
End Generic.

(** What the reported numbers tell about equality. *)
Lemma max_zero m l : (forall x, In x l -> 0 <= x) -> isMax m l -> m = 0 <-> (forall x, In x l -> x = 0).
Proof.
  intros P [H1 H2]. split.
  - intros -> x Hx. specialize (P x Hx). specialize (H1 x Hx). lra.
  - intros H. destruct H2 as [H2|[H2 _]]; [auto|exact H2].
Qed.
Lemma lsum_sq_zero l : lsum (fun x => x * x) l = 0 -> forall x, In x l -> x = 0.
Proof.
  induction l as [|y r IH]; cbn; intros H x Hx; [contradiction|].
  assert (0 <= lsum (fun x => x * x) r). { clear. induction r; cbn; [lra|]. pose proof (Rle_0_sqr a). unfold Rsqr in *. lra. }
  pose proof (Rle_0_sqr y). unfold Rsqr in *. destruct Hx as [<-|Hx]; [apply Rsqr_0_uniq; unfold Rsqr; lra|apply IH; [lra|exact Hx]].
Qed.
Lemma rms_zero r l n : (0 < n)%nat -> isRms r l n -> r = 0 <-> (forall x, In x l -> x = 0).
Proof.
  intros Hn [P H]. split.
  - intros ->. apply lsum_sq_zero. rewrite <- H. ring.
  - intros Z. assert (lsum (fun x => x * x) l = 0). { rewrite (lsum_ext _ (fun _ => 0)); [clear; induction l; cbn; lra|]. intros x Hx. rewrite (Z x Hx). ring. }
    rewrite H0 in H. assert (0 < INR n) by (apply lt_0_INR; lia). assert (r * r = 0). { apply Rmult_integral in H. lra. }
    apply Rsqr_0_uniq. exact H2.
Qed.
Lemma all_zero_eq a : forall b, length a = length b -> (forall x, In x (map absDiff (combine a b)) -> x = 0) <-> a = b.
Proof.
  induction a as [|x a IH]; intros [|y b] HL; try discriminate; cbn.
  - split; [auto|intros _ z []].
  - split.
    + intros H. assert (Hx : Rabs (x - y) = 0) by (apply H; left; reflexivity). f_equal.
      * destruct (Req_dec (x - y) 0) as [?|N]; [lra|]. apply Rabs_no_R0 in N. contradiction.
      * apply IH; [injection HL; auto|]. intros z Hz. apply H. right. exact Hz.
    + intros E z [<-|Hz]; injection E as -> ->.
      * unfold absDiff. cbn. rewrite Rminus_diag_eq, Rabs_R0; reflexivity.
      * revert z Hz. apply IH; auto.
Qed.
Lemma all_nonneg {X} (f : X -> R) l : (forall p, 0 <= f p) -> forall x, In x (map f l) -> 0 <= x.
Proof. intros H x Hx. apply in_map_iff in Hx. destruct Hx as (p & <- & _). apply H. Qed.

Lemma rDiff_inj x y : rDiff (Some x) (Some y) = Some (absDiff (x, y)).
Proof. reflexivity. Qed.
Lemma rDiffSq_inj x y : rDiffSq (Some x) (Some y) = Some (absDiff (x, y) * absDiff (x, y)).
Proof. reflexivity. Qed.
Lemma absDiff_pos p : 0 <= absDiff p.
Proof. apply Rabs_pos. Qed.

(** C55, one real field: for all sizes and values. *)
Theorem C55_field : forall a b : list R, (0 < length a)%nat -> length a = length b ->
  exists m r, compareField 0 (map Some a) (map Some b) = Ok (m, r) /\
    isMax m (map absDiff (combine a b)) /\ isRms r (map absDiff (combine a b)) (length a) /\
    (m = 0 <-> a = b) /\ (r = 0 <-> a = b).
Proof.
  intros a b HP HL. destruct (compare1_spec _ _ rDiff rDiffSq Some absDiff absDiff_pos rDiff_inj rDiffSq_inj 0 a b HP HL) as (m & r & E & M & S).
  exists m, r. cbn [skipn] in M, S. split; [exact E|]. split; [exact M|]. split; [exact S|].
  rewrite <- (all_zero_eq a b HL). split; [apply max_zero; [apply all_nonneg, absDiff_pos|exact M]|apply (rms_zero _ _ _ HP S)].
Qed.
Print Assumptions C55_field.

Lemma pairs_zero_eq n (a : list (list R)) : forall b, length a = length b -> (forall x, In x a \/ In x b -> length x = n) ->
  (forall x, In x (map absDiff (pairs a b)) -> x = 0) <-> a = b.
Proof.
  induction a as [|x a IH]; intros [|y b] HL HS; try discriminate; cbn.
  - split; [auto|intros _ z []].
  - unfold pairs in *. cbn. rewrite map_app.
    assert (L : length x = length y) by (rewrite (HS x), (HS y); auto; [right|left]; left; reflexivity).
    assert (IH' : (forall z, In z (map absDiff (concat (map (fun p => combine (fst p) (snd p)) (combine a b)))) -> z = 0) <-> a = b).
    { apply IH; [injection HL; auto|]. intros z [Hz|Hz]; apply HS; [left|right]; right; exact Hz. }
    split.
    + intros H. f_equal; [apply (all_zero_eq x y L)|apply IH']; intros z Hz; apply H, in_or_app; auto.
    + intros E z Hz. injection E as E1 E2. apply in_app_or in Hz. destruct Hz as [Hz|Hz].
      * revert z Hz. apply (all_zero_eq x y L). exact E1.
      * revert z Hz. apply IH'. exact E2.
Qed.
(** C55, arrays of fields of equal size: the mean is over all elements. *)
Theorem C55_fields : forall n (a b : list (list R)), (0 < n)%nat -> (0 < length a)%nat -> length a = length b ->
  (forall x, In x a \/ In x b -> length x = n) ->
  exists m r, compareFields 0 (map (map Some) a) (map (map Some) b) = Ok (m, r) /\
    isMax m (map absDiff (pairs a b)) /\ isRms r (map absDiff (pairs a b)) (length a * n) /\
    (m = 0 <-> a = b) /\ (r = 0 <-> a = b).
Proof.
  intros n a b Hn HP HL HS. destruct (compareN_spec _ _ rDiff rDiffSq Some absDiff absDiff_pos rDiff_inj rDiffSq_inj n a b Hn HP HL HS) as (m & r & E & M & S).
  exists m, r. split; [exact E|]. split; [exact M|]. split; [exact S|].
  rewrite <- (pairs_zero_eq n a b HL HS). split; [apply max_zero; [apply all_nonneg, absDiff_pos|exact M]|].
  apply (rms_zero _ _ _ (Nat.mul_pos_pos _ _ HP Hn) S).
Qed.
Print Assumptions C55_fields.

Definition cinj (z : R * R) : option R * option R := (Some (fst z), Some (snd z)).
Lemma cDiff_inj x y : cDiff (cinj x) (cinj y) = Some (cAbsDiff (x, y)).
Proof. reflexivity. Qed.
Lemma cDiffSq_inj x y : cDiffSq (cinj x) (cinj y) = Some (cAbsDiff (x, y) * cAbsDiff (x, y)).
Proof.
  unfold cDiffSq, cinj, cAbsDiff. cbn [fst snd]. rewrite sqrt_sqrt; [reflexivity|].
  pose proof (Rle_0_sqr (fst x - fst y)). pose proof (Rle_0_sqr (snd x - snd y)). unfold Rsqr in *. lra.
Qed.
Lemma cAbsDiff_pos p : 0 <= cAbsDiff p.
Proof. apply sqrt_pos. Qed.
Lemma cAbsDiff_zero x y : cAbsDiff (x, y) = 0 <-> x = y.
Proof.
  unfold cAbsDiff. cbn [fst snd]. destruct x as [x0 x1], y as [y0 y1]. cbn [fst snd].
  pose proof (Rle_0_sqr (x0 - y0)) as P0. pose proof (Rle_0_sqr (x1 - y1)) as P1. unfold Rsqr in *. split.
  - intros H. apply sqrt_eq_0 in H; [|lra]. f_equal; apply Rminus_diag_uniq, Rsqr_0_uniq; unfold Rsqr; lra.
  - intros E. injection E as -> ->. rewrite !Rminus_diag_eq by reflexivity. rewrite Rmult_0_l, Rplus_0_l. apply sqrt_0.
Qed.
Lemma call_zero_eq a : forall b, length a = length b -> (forall x, In x (map cAbsDiff (combine a b)) -> x = 0) <-> a = b.
Proof.
  induction a as [|x a IH]; intros [|y b] HL; try discriminate; cbn [combine map].
  - split; [auto|intros _ z []].
  - split.
    + intros H. f_equal.
      * apply cAbsDiff_zero. apply H. left. reflexivity.
      * apply IH; [injection HL; auto|]. intros z Hz. apply H. right. exact Hz.
    + intros E z [<-|Hz]; injection E as -> ->; [apply cAbsDiff_zero; reflexivity|]. revert z Hz. apply IH; auto.
Qed.
(** C55, complex fields (CFieldComparison). *)
Theorem C55_complex_field : forall a b : list (R * R), (0 < length a)%nat -> length a = length b ->
  exists m r, compareCField (map cinj a) (map cinj b) = Ok (m, r) /\
    isMax m (map cAbsDiff (combine a b)) /\ isRms r (map cAbsDiff (combine a b)) (length a) /\
    (m = 0 <-> a = b) /\ (r = 0 <-> a = b).
Proof.
  intros a b HP HL. destruct (compare1_spec _ _ cDiff cDiffSq cinj cAbsDiff cAbsDiff_pos cDiff_inj cDiffSq_inj 0 a b HP HL) as (m & r & E & M & S).
  exists m, r. cbn [skipn] in M, S. split; [exact E|]. split; [exact M|]. split; [exact S|].
  rewrite <- (call_zero_eq a b HL). split; [apply max_zero; [apply all_nonneg, cAbsDiff_pos|exact M]|apply (rms_zero _ _ _ HP S)].
Qed.
Print Assumptions C55_complex_field.
Theorem C55_complex_fields : forall n (a b : list (list (R * R))), (0 < n)%nat -> (0 < length a)%nat -> length a = length b ->
  (forall x, In x a \/ In x b -> length x = n) ->
  exists m r, compareCFields (map (map cinj) a) (map (map cinj) b) = Ok (m, r) /\
    isMax m (map cAbsDiff (pairs a b)) /\ isRms r (map cAbsDiff (pairs a b)) (length a * n).
Proof. intros. apply (compareN_spec _ _ cDiff cDiffSq cinj cAbsDiff cAbsDiff_pos cDiff_inj cDiffSq_inj); assumption. Qed.
Print Assumptions C55_complex_fields.

(** The comparison of basis components (begin_ = 1) covers the elements from 1 on. *)
Theorem C55_begin : forall begin (a b : list R), (0 < length a)%nat -> length a = length b ->
  exists m r, compareField begin (map Some a) (map Some b) = Ok (m, r) /\
    isMax m (map absDiff (skipn begin (combine a b))) /\ isRms r (map absDiff (skipn begin (combine a b))) (length a).
Proof. intros. apply (compare1_spec _ _ rDiff rDiffSq Some absDiff absDiff_pos rDiff_inj rDiffSq_inj); assumption. Qed.
Print Assumptions C55_begin.

(** Symmetry in the arguments, NaN included. *)
Section Symmetry.
Variable E : Type.
Variables diff diffSq : E -> E -> option R.
Hypothesis diff_sym : forall x y, diff x y = diff y x.
Hypothesis diffSq_sym : forall x y, diffSq x y = diffSq y x.
Lemma elements_sym a begin : forall b m s, elements E diff diffSq (skipn begin (combine a b)) m s = elements E diff diffSq (skipn begin (combine b a)) m s.
Proof.
  revert begin. induction a as [|x a IH]; intros begin [|y b] m s; cbn [combine]; try (destruct begin; reflexivity).
  destruct begin as [|k]; cbn [skipn]; [|apply IH]. cbn [elements]. rewrite (diff_sym x y), (diffSq_sym x y).
  destruct (diff y x), (diffSq y x); try reflexivity. apply (IH 0%nat).
Qed.
Lemma compare1_sym begin a b : compare1 E diff diffSq begin a b = compare1 E diff diffSq begin b a.
Proof.
  unfold compare1. rewrite (Nat.eqb_sym (length b)). destruct (Nat.eqb_spec (length a) (length b)) as [L|N].
  - rewrite L, elements_sym. reflexivity.
  - destruct (0 <? length a)%nat, (0 <? length b)%nat; reflexivity.
Qed.
Lemma fieldsLoop_sym begin a : forall b m s n, fieldsLoop E diff diffSq begin (combine a b) m s n = fieldsLoop E diff diffSq begin (combine b a) m s n.
Proof.
  induction a as [|x a IH]; intros [|y b] m s n; cbn [combine fieldsLoop]; try reflexivity.
  rewrite (Nat.eqb_sym (length y)). destruct (Nat.eqb_spec (length x) (length y)) as [L|N].
  - rewrite L, elements_sym. destruct (elements _ _ _ _ m s) as [[m' s']|]; [|reflexivity]. rewrite IH. reflexivity.
  - destruct (0 <? length x)%nat, (0 <? length y)%nat; reflexivity.
Qed.
Lemma compareN_sym begin a b : compareN E diff diffSq begin a b = compareN E diff diffSq begin b a.
Proof.
  unfold compareN. rewrite (Nat.eqb_sym (length b)). destruct (Nat.eqb_spec (length a) (length b)) as [L|N].
  - rewrite L. destruct (0 <? length b)%nat; [|reflexivity]. cbn [check bind]. rewrite fieldsLoop_sym.
    destruct a as [|x a], b as [|y b]; try discriminate; [reflexivity|]. cbn [hd].
    destruct (0 <? length x)%nat eqn:Ex, (0 <? length y)%nat eqn:Ey; cbn [check bind]; try reflexivity;
      cbn [combine fieldsLoop]; rewrite ?Ex, ?Ey; cbn [check bind]; try reflexivity.
    destruct (Nat.eqb_spec (length y) (length x)) as [L'|N']; [rewrite L', Ex in Ey; discriminate|reflexivity].
  - destruct (0 <? length a)%nat, (0 <? length b)%nat; reflexivity.
Qed.
End Symmetry.
Lemma rDiff_sym x y : rDiff x y = rDiff y x.
Proof. destruct x, y; cbn; try reflexivity. rewrite Rabs_minus_sym. reflexivity. Qed.
Lemma rDiffSq_sym x y : rDiffSq x y = rDiffSq y x.
Proof. unfold rDiffSq. rewrite rDiff_sym. reflexivity. Qed.
Lemma cDiffSq_sym x y : cDiffSq x y = cDiffSq y x.
Proof. destruct x as [[x0|] [x1|]], y as [[y0|] [y1|]]; cbn; try reflexivity. f_equal. ring. Qed.
Lemma cDiff_sym x y : cDiff x y = cDiff y x.
Proof. unfold cDiff. rewrite cDiffSq_sym. reflexivity. Qed.
Theorem C55_symmetric :
  (forall begin a b, compareField begin a b = compareField begin b a) /\
  (forall begin a b, compareFields begin a b = compareFields begin b a) /\
  (forall a b, compareCField a b = compareCField b a) /\
  (forall a b, compareCFields a b = compareCFields b a).
Proof.
  split; [|split; [|split]]; intros.
  - apply compare1_sym; [apply rDiff_sym|apply rDiffSq_sym].
  - apply compareN_sym; [apply rDiff_sym|apply rDiffSq_sym].
  - apply compare1_sym; [apply cDiff_sym|apply cDiffSq_sym].
  - apply compareN_sym; [apply cDiff_sym|apply cDiffSq_sym].
Qed.
Print Assumptions C55_symmetric.

(** Arrays of different sizes are refused; a NaN among the compared elements is
    reported as the value 1e8. *)
Theorem C55_sizes : forall begin a b, (0 < length a)%nat -> length a <> length b -> compareField begin a b = Throw.
Proof.
  intros begin a b HP HN. unfold compareField, compare1. apply Nat.ltb_lt in HP. rewrite HP. cbn [check bind].
  apply Nat.eqb_neq in HN. rewrite HN. reflexivity.
Qed.
Print Assumptions C55_sizes.
Lemma elements_nan l : forall m s, (exists p, In p l /\ (fst p = None \/ snd p = None)) -> elements _ rDiff rDiffSq l m s = None.
Proof.
  induction l as [|[x y] r IH]; intros m s (p & Hp & H); [contradiction|]. cbn [elements].
  destruct Hp as [<-|Hp].
  - cbn in H. destruct x, y; cbn; try reflexivity. destruct H; discriminate.
  - destruct (rDiff x y), (rDiffSq x y); try reflexivity. apply IH. exists p. auto.
Qed.
Theorem C55_nan : forall begin a b i, length a = length b -> (begin <= i < length a)%nat ->
  (nth_error a i = Some None \/ nth_error b i = Some None) -> compareField begin a b = Ok (10 ^ 8, 10 ^ 8).
Proof.
  intros begin a b i HL Hi H. unfold compareField, compare1. rewrite <- HL, Nat.eqb_refl.
  replace (0 <? length a)%nat with true by (symmetry; apply Nat.ltb_lt; lia). cbn [check bind].
  rewrite elements_nan; [unfold nanValue; do 2 f_equal; lra|].
  assert (exists x y, nth_error a i = Some x /\ nth_error b i = Some y) as (x & y & Hx & Hy).
  { destruct (nth_error a i) as [x|] eqn:Ea; [|apply nth_error_None in Ea; lia].
    destruct (nth_error b i) as [y|] eqn:Eb; [|apply nth_error_None in Eb; lia]. eauto. }
  exists (x, y). split; [|cbn; rewrite Hx, Hy in H; destruct H as [H|H]; inversion H; auto].
  assert (Hc : nth_error (combine a b) i = Some (x, y)).
  { clear - Hx Hy. revert b i Hx Hy. induction a as [|u a IH]; intros [|v b] [|i] Hx Hy; cbn in *; try discriminate; [congruence|]. apply IH; assumption. }
  clear - Hc Hi. destruct Hi as [Hi _]. revert i Hi Hc. generalize (combine a b). induction begin as [|k IH]; intros l i Hi Hc; [apply (nth_error_In _ _ Hc)|].
  destruct l as [|q l]; [destruct i; discriminate|]. destruct i as [|i]; [lia|]. cbn [skipn]. apply (IH l i); [lia|exact Hc].
Qed.
Print Assumptions C55_nan.

(** Disagreement 1: fields of different sizes are accepted, and the mean then uses the
    size of the last one. *)
Theorem C55_unequal_sizes_refuted : exists (a b : list (list R)) m r,
  compareFields 0 (map (map Some) a) (map (map Some) b) = Ok (m, r) /\
  ~ isRms r (map absDiff (pairs a b)) (length (concat a)).
Proof.
  exists [[0]; [0; 0; 0]], [[1]; [0; 0; 0]]. unfold compareFields, compareN. cbn -[INR]. rewrite !Rminus_0_r, !Rabs_R0.
  replace (0 - 1) with (-(1)) by ring. rewrite Rabs_Ropp, Rabs_R1.
  destruct (Rlt_dec 0 1); [|lra]. destruct (Rlt_dec 1 0); [lra|]. 
  eexists _, _. split; [reflexivity|]. unfold isRms, pairs, absDiff. cbn -[INR sqrt]. rewrite !Rminus_0_r, !Rabs_R0.
  replace (0 - 1) with (-(1)) by ring. rewrite Rabs_Ropp, Rabs_R1. intros [_ H].
  rewrite sqrt_sqrt in H; [cbn in H; lra|cbn; lra].
Qed.
Print Assumptions C55_unequal_sizes_refuted.

(** Disagreement 2: the comparison of basis components leaves out component 0 of every
    field, so that different fields are reported as equal, even with NaN there; and its
    mean is not taken over the compared elements. *)
Theorem C55_basis_refuted : exists a b : list (list (option R)), a <> b /\ compareFieldsBasis a b = Ok (0, 0).
Proof.
  exists [[Some 0; Some 2]], [[None; Some 2]]. split; [discriminate|]. unfold compareFieldsBasis, compareFields, compareN. cbn -[INR].
  rewrite Rminus_diag_eq, Rabs_R0 by reflexivity. destruct (Rlt_dec 0 0); [lra|]. do 2 f_equal.
  replace ((0 + 0 * 0) / INR 2) with 0 by (cbn; lra). apply sqrt_0.
Qed.
Print Assumptions C55_basis_refuted.
Theorem C55_basis_mean_refuted : exists (a b : list R) m r, compareField 1 (map Some a) (map Some b) = Ok (m, r) /\
  ~ isRms r (map absDiff (skipn 1 (combine a b))) (length (skipn 1 a)).
Proof.
  exists [0; 0], [0; 1]. destruct (C55_begin 1 [0; 0] [0; 1]) as (m & r & E & _ & _ & H); [cbn; lia|reflexivity|].
  exists m, r. split; [exact E|]. intros [_ H']. rewrite <- H' in H. cbn in H. assert (Z : r * r = 0) by lra.
  cbn in H'. rewrite Z in H'. unfold absDiff in H'. cbn in H'. replace (0 - 1) with (-(1)) in H' by ring. rewrite Rabs_Ropp, Rabs_R1 in H'. lra.
Qed.
Print Assumptions C55_basis_mean_refuted.

(** A case: the differences are 3 and 4. *)
Example C55_case : exists r, compareField 0 (map Some [1; 2]) (map Some [4; -2]) = Ok (4, r) /\ r * r * 2 = 25.
Proof.
  destruct (C55_field [1; 2] [4; -2]) as (m & r & E & M & S & _); [cbn; lia|reflexivity|].
  assert (D1 : absDiff (1, 4) = 3) by (unfold absDiff; cbn; replace (1 - 4) with (-(3)) by ring; rewrite Rabs_Ropp; apply Rabs_right; lra).
  assert (D2 : absDiff (2, -2) = 4) by (unfold absDiff; cbn; replace (2 - -2) with 4 by ring; apply Rabs_right; lra).
  cbn [combine map] in M, S. rewrite D1, D2 in *. assert (m = 4). { destruct M as [M1 [[M2|[M2|[]]]|[_ M2]]]; [|lra|discriminate]. specialize (M1 4). cbn in M1. lra. }
  subst m. exists r. split; [exact E|]. destruct S as [_ S]. cbn in S. lra.
Qed.
