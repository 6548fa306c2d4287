(** C23: minimum images of wavevectors. *)
From Coq Require Import Reals List Arith ZArith Bool Lia Lra FunctionalExtensionality.
From Verif Require Import Base RSum UnitCell UnitCellProofs ShiftMin.
Import ListNotations.
Local Open Scope R_scope.

(* ---------- specification ---------- *)
(** u is the image of v with shift s. *)
Definition is_image (D : nat) (v d s : nat -> Z) (u : nat -> Z) : Prop :=
  forall i, (i < D)%nat -> u i = (v i + s i * d i)%Z.
Definition small_shift (D : nat) (s : nat -> Z) : Prop := forall i, (i < D)%nat -> (-2 <= s i <= 2)%Z.
(** Vectors only have D components. *)
Definition vec (D : nat) (v : nat -> Z) : Prop := forall i, (D <= i)%nat -> v i = 0%Z.
Definition precedes (D : nat) (u v : nat -> Z) : Prop :=
  exists i, (i < D)%nat /\ (u i < v i)%Z /\ forall j, (j < i)%nat -> u j = v j.
(** Squared length of a wavevector. *)
Definition norm2 (D : nat) (k : nat -> nat -> R) (v : nat -> Z) : R :=
  rsum D (fun j => (rsum D (fun i => k i j * IZR (v i))) ^ 2).

(* ---------- lexicographic order ---------- *)
Lemma lexlt_from_spec : forall n i u v, lexlt_from n i u v = true <->
  exists m, (i <= m < i + n)%nat /\ (u m < v m)%Z /\ forall j, (i <= j < m)%nat -> u j = v j.
Proof.
  induction n; intros i u v; cbn [lexlt_from].
  - split; [discriminate|]. intros [m [H _]]. lia.
  - destruct (Z.ltb_spec (v i) (u i)).
    + split; [discriminate|]. intros [m [H1 [H2 H3]]]. destruct (Nat.eq_dec m i); [subst; lia|]. specialize (H3 i). lia.
    + destruct (Z.ltb_spec (u i) (v i)).
      * split; auto. intros _. exists i. split; [lia|]. split; auto. intros; lia.
      * rewrite IHn. split; intros [m [H1 [H2 H3]]].
        -- exists m. split; [lia|]. split; auto. intros j Hj. destruct (Nat.eq_dec j i); [subst; lia|]. apply H3. lia.
        -- destruct (Nat.eq_dec m i); [subst; lia|]. exists m. split; [lia|]. split; auto. intros j Hj. apply H3. lia.
Qed.
Lemma lexlt_spec : forall D u v, lexlt D u v = true <-> precedes D u v.
Proof.
  intros. unfold lexlt, precedes. rewrite lexlt_from_spec. split; intros [m [H1 [H2 H3]]]; exists m; (split; [lia|]); (split; [auto|]); intros; apply H3; lia.
Qed.
Lemma precedes_trans : forall D u v w, precedes D u v -> precedes D v w -> precedes D u w.
Proof.
  intros D u v w [i [A [B C]]] [j [A' [B' C']]].
  destruct (lt_eq_lt_dec i j) as [[H|H]|H].
  - exists i. split; auto. split; [rewrite <- C' by auto; auto|]. intros m Hm. rewrite C, C' by lia; auto.
  - subst j. exists i. split; auto. split; [lia|]. intros m Hm. rewrite C, C' by lia; auto.
  - exists j. split; auto. split; [rewrite C by auto; auto|]. intros m Hm. rewrite C, C' by lia; auto.
Qed.

(* ---------- candidates ---------- *)
Lemma shifts_in : forall D s, In s (shifts D) <-> length s = D /\ Forall (fun x => -2 <= x <= 2)%Z s.
Proof.
  induction D; intros s; cbn [shifts].
  - split.
    + intros [<-|[]]. auto.
    + intros [H _]. destruct s; [left; auto|discriminate].
  - rewrite in_flat_map. split.
    + intros [x [Hx H]]. apply in_map_iff in H. destruct H as [t [<- H]]. apply IHD in H. destruct H.
      split; [cbn; auto|]. constructor; auto. cbn in Hx. lia.
    + intros [H1 H2]. destruct s as [|x s]; [discriminate|]. inversion H2; subst. exists x.
      split; [cbn; lia|]. apply in_map. apply IHD. split; auto.
Qed.
Lemma shifts_length : forall D, length (shifts D) = (5 ^ D)%nat.
Proof. induction D; [reflexivity|]. cbn [shifts range2 flat_map]. rewrite !app_length, !map_length, IHD. cbn [length Nat.pow]. lia. Qed.

Lemma candidate_image : forall D v d u, In u (candidates D v d) ->
  exists s, small_shift D s /\ is_image D v d s u /\ vec D u.
Proof.
  intros D v d u H. apply in_map_iff in H. destruct H as [s [<- H]]. apply shifts_in in H. destruct H as [L F].
  exists (fun i => nth i s 0%Z). split; [|split].
  - intros i Hi. rewrite Forall_forall in F. apply F. apply nth_In. lia.
  - intros i Hi. unfold image. apply Nat.ltb_lt in Hi. rewrite Hi. auto.
  - intros i Hi. unfold image. apply Nat.ltb_ge in Hi. rewrite Hi. auto.
Qed.
Lemma image_candidate : forall D v d s u, small_shift D s -> is_image D v d s u -> vec D u -> In u (candidates D v d).
Proof.
  intros D v d s u Hs Hu Hv. apply in_map_iff. exists (map s (seq 0 D)). split.
  - apply functional_extensionality. intros i. unfold image. destruct (Nat.ltb_spec i D).
    + rewrite Hu by auto. rewrite (nth_indep _ _ (s O)) by (rewrite map_length, seq_length; auto). rewrite map_nth, seq_nth; auto.
    + symmetry. apply Hv; auto.
  - apply shifts_in. rewrite map_length, seq_length. split; auto. rewrite Forall_forall. intros x Hx.
    apply in_map_iff in Hx. destruct Hx as [i [<- Hi]]. apply in_seq in Hi. apply Hs. lia.
Qed.

(* ---------- the loop ---------- *)
Lemma eps_pos : 0 < epsilon.
Proof. unfold epsilon. lra. Qed.

Section Loop.
Variables (D : nat) (g : (nat -> Z) -> R).
Let run L st := fold_left (consider D g) L st.

Lemma consider_cases : forall st u,
  (consider D g st u = (u, g u) /\ g u < snd st + epsilon) \/
  (consider D g st u = st /\ snd st <= g u + epsilon).
Proof.
  intros st u. unfold consider. destruct (Rlt_dec (g u) (snd st + epsilon)).
  - destruct (Rlt_dec (g u) (snd st - epsilon)); auto. destruct (lexlt D (fst st) u); auto. right. split; auto. lra.
  - right. split; auto. assert (X := eps_pos). lra.
Qed.

Lemma loop_in : forall L r, exists r', run L (r, g r) = (r', g r') /\ In r' (r :: L).
Proof.
  induction L as [|u L IH]; intros r; unfold run; cbn [fold_left].
  - exists r. split; auto. left; auto.
  - destruct (consider_cases (r, g r) u) as [[E _]|[E _]]; rewrite E.
    + destruct (IH u) as [r' [H1 H2]]. exists r'. split; auto. right; auto.
    + destruct (IH r) as [r' [H1 H2]]. exists r'. split; auto. destruct H2; [left; auto|right; right; auto].
Qed.

Lemma loop_drift : forall L r u, In u (r :: L) ->
  snd (run L (r, g r)) <= g u + INR (length L) * epsilon.
Proof.
  assert (E0 := eps_pos).
  induction L as [|x L IH]; intros r u H; unfold run; cbn [fold_left].
  - destruct H as [<-|[]]. cbn [snd length INR]. lra.
  - replace (length (x :: L)) with (S (length L)) by reflexivity. rewrite S_INR.
    destruct (consider_cases (r, g r) x) as [[E H1]|[E H1]]; rewrite E; cbn [snd] in H1.
    + destruct H as [<-|H].
      * assert (Q := IH x x (or_introl eq_refl)). unfold run in Q. lra.
      * assert (Q := IH x u H). unfold run in Q. lra.
    + destruct H as [<-|[<-|H]].
      * assert (Q := IH r r (or_introl eq_refl)). unfold run in Q. lra.
      * assert (Q := IH r r (or_introl eq_refl)). unfold run in Q. lra.
      * assert (Q := IH r u (or_intror H)). unfold run in Q. lra.
Qed.

(** No two candidates have different norms closer than the tolerance. *)
Definition gap (L : list (nat -> Z)) : Prop :=
  forall x y, In x L -> In y L -> g x = g y \/ Rabs (g x - g y) > epsilon.

Lemma loop_exact : forall L r seen, gap (r :: L ++ seen) ->
  (forall u, In u seen -> g r <= g u /\ (g u = g r -> lexlt D r u = false)) ->
  let r' := fst (run L (r, g r)) in
  forall u, In u (r :: L ++ seen) -> g r' <= g u /\ (g u = g r' -> lexlt D r' u = false).
Proof.
  assert (E0 := eps_pos).
  assert (IRR : forall u, lexlt D u u = false).
  { intros u. destruct (lexlt D u u) eqn:E; auto. apply lexlt_spec in E. destruct E as [i [_ [X _]]]. lia. }
  assert (TR : forall a b c, lexlt D a b = true -> lexlt D a c = false -> lexlt D b c = false).
  { intros a b c H1 H2. destruct (lexlt D b c) eqn:E; auto. apply lexlt_spec in H1. apply lexlt_spec in E.
    assert (lexlt D a c = true) by (apply lexlt_spec; eapply precedes_trans; eauto). congruence. }
  induction L as [|x L IH]; intros r seen HG HS; cbn zeta; unfold run; cbn [fold_left].
  - intros u [<-|H]; cbn [fst]; auto. split; [lra|auto].
  - intros u Hu.
    assert (STEP : exists r1, consider D g (r, g r) x = (r1, g r1) /\ (r1 = r \/ r1 = x) /\
       forall w, In w (x :: r :: seen) -> g r1 <= g w /\ (g w = g r1 -> lexlt D r1 w = false)).
    { unfold consider. cbn [snd fst].
      assert (GX : g x = g r \/ Rabs (g x - g r) > epsilon).
      { apply HG; [right; apply in_or_app; left; left; auto|left; auto]. }
      destruct (Rlt_dec (g x) (g r + epsilon)) as [A|A].
      - destruct (Rlt_dec (g x) (g r - epsilon)) as [B|B].
        + exists x. split; auto. split; auto. intros w [<-|[<-|Hw]].
          * split; [lra|auto].
          * split; [lra|]. intros; lra.
          * destruct (HS w Hw). split; [lra|]. intros; lra.
        + assert (EQ : g x = g r). { destruct GX as [GX|GX]; auto. unfold Rabs in GX. destruct (Rcase_abs (g x - g r)); lra. }
          destruct (lexlt D r x) eqn:LX.
          * exists x. split; auto. split; auto. intros w [<-|[<-|Hw]].
            -- split; [lra|auto].
            -- split; [lra|]. intros _. apply (TR r x r); auto.
            -- destruct (HS w Hw) as [H1 H2]. split; [lra|]. intros Q. apply (TR r x w); auto. apply H2; lra.
          * exists r. split; auto. split; auto. intros w [<-|[<-|Hw]]; auto.
            -- split; [lra|auto].
            -- split; [lra|auto].
      - exists r. split; auto. split; auto. intros w [<-|[<-|Hw]]; auto.
        + split; [lra|]. intros; lra.
        + split; [lra|auto]. }
    destruct STEP as [r1 [E [HR HW]]]. rewrite E.
    apply (IH r1 (x :: r :: seen)); auto.
    + intros a b Ha Hb. apply HG.
      * destruct Ha as [<-|Ha]; [destruct HR; subst; [left; auto|right; apply in_or_app; left; left; auto]|].
        apply in_app_or in Ha. destruct Ha as [Ha|[<-|[<-|Ha]]];
        [right; apply in_or_app; left; right; auto|right; apply in_or_app; left; left; auto|left; auto|right; apply in_or_app; right; auto].
      * destruct Hb as [<-|Hb]; [destruct HR; subst; [left; auto|right; apply in_or_app; left; left; auto]|].
        apply in_app_or in Hb. destruct Hb as [Hb|[<-|[<-|Hb]]];
        [right; apply in_or_app; left; right; auto|right; apply in_or_app; left; left; auto|left; auto|right; apply in_or_app; right; auto].
    + destruct Hu as [<-|Hu]; [right; apply in_or_app; right; right; left; auto|].
      apply in_app_or in Hu. destruct Hu as [[<-|Hu]|Hu].
      * right. apply in_or_app. right. left. auto.
      * right. apply in_or_app. left. auto.
      * right. apply in_or_app. right. right. right. auto.
Qed.
End Loop.

Lemma ksq_norm2 : forall D k v, ksq D k v = norm2 D k v.
Proof. intros. unfold ksq, norm2. apply rsum_ext. intros j Hj. cbn zeta. ring. Qed.

(* ---------- theorems ---------- *)
Lemma self_candidate : forall D v d, vec D v -> In v (candidates D v d).
Proof.
  intros D v d H. apply (image_candidate D v d (fun _ => 0%Z)); auto.
  - intros i Hi. lia.
  - intros i Hi. lia.
Qed.

(** The result is an image of v, in every number of dimensions. *)
Theorem shiftToMinimum_image : forall D v d k, (1 <= D)%nat -> vec D v ->
  exists s, small_shift D s /\ is_image D v d s (shiftToMinimum D v d k) /\ vec D (shiftToMinimum D v d k).
Proof.
  intros D v d k HD HV.
  assert (LOOP : exists s, small_shift D s /\ is_image D v d s (shiftLoop D (ksq D k) v d) /\ vec D (shiftLoop D (ksq D k) v d)).
  { unfold shiftLoop. destruct (loop_in D (ksq D k) (candidates D v d) v) as [r [E H]]. cbv zeta in E. rewrite E. cbn [fst].
    apply candidate_image. destruct H as [<-|H]; auto. apply self_candidate; auto. }
  destruct D as [|[|D]]; [lia| |exact LOOP]. clear LOOP. unfold shiftToMinimum, shift1.
  assert (V : forall z, vec 1 (fun i => if (i =? 0)%nat then z else 0%Z)).
  { intros z i Hi. destruct i; [lia|]. reflexivity. }
  destruct (Z.ltb_spec (Z.quot (d 0%nat) 2) (v 0%nat)); [|destruct (Z.ltb_spec (v 0%nat) (- Z.quot (d 0%nat) 2))].
  - exists (fun _ => (-1)%Z). split; [intros i Hi; lia|]. split; auto. intros i Hi. destruct i; [cbn [Nat.eqb]; lia|lia].
  - exists (fun _ => 1%Z). split; [intros i Hi; lia|]. split; auto. intros i Hi. destruct i; [cbn [Nat.eqb]; lia|lia].
  - exists (fun _ => 0%Z). split; [intros i Hi; lia|]. split; auto. intros i Hi. destruct i; [cbn [Nat.eqb]; lia|lia].
Qed.

(** The norm is minimal up to the accumulated tolerance; 5^D is the number of
    candidates.  That it is minimal up to one tolerance is refuted below. *)
Theorem shiftToMinimum_minimal_partial : forall D v d k s u, (2 <= D)%nat -> vec D v ->
  small_shift D s -> is_image D v d s u -> vec D u ->
  norm2 D k (shiftToMinimum D v d k) <= norm2 D k u + INR (5 ^ D) * epsilon.
Proof.
  intros D v d k s u HD HV HS HI HU. destruct D as [|[|D]]; [lia|lia|]. unfold shiftToMinimum, shiftLoop.
  assert (Q := loop_drift (S (S D)) (ksq (S (S D)) k) (candidates (S (S D)) v d) v u (or_intror (image_candidate _ _ _ _ _ HS HI HU))).
  destruct (loop_in (S (S D)) (ksq (S (S D)) k) (candidates (S (S D)) v d) v) as [r [E _]]. cbv zeta in *. rewrite E in *. cbn [fst snd] in *.
  assert (LEN : length (candidates (S (S D)) v d) = (5 ^ S (S D))%nat) by (unfold candidates; rewrite map_length; apply shifts_length).
  rewrite LEN in Q. rewrite <- !ksq_norm2. rewrite E in Q. exact Q.
Qed.

(** If different norms differ by more than the tolerance the result is the
    exact minimum over the candidates and, among several minima, the one that
    comes last in lexicographic order. *)
Theorem shiftToMinimum_exact : forall D v d k, (2 <= D)%nat -> vec D v ->
  (forall x y s t, small_shift D s -> small_shift D t -> is_image D v d s x -> is_image D v d t y ->
     norm2 D k x = norm2 D k y \/ Rabs (norm2 D k x - norm2 D k y) > epsilon) ->
  forall s u, small_shift D s -> is_image D v d s u -> vec D u ->
  norm2 D k (shiftToMinimum D v d k) <= norm2 D k u /\
  (norm2 D k u = norm2 D k (shiftToMinimum D v d k) -> ~ precedes D (shiftToMinimum D v d k) u).
Proof.
  intros D v d k HD HV HG s u HS HI HU. destruct D as [|[|D]]; [lia|lia|]. unfold shiftToMinimum, shiftLoop.
  set (n := S (S D)) in *. rewrite <- !ksq_norm2.
  assert (C : forall x, In x (v :: candidates n v d ++ []) -> exists s, small_shift n s /\ is_image n v d s x).
  { intros x [<-|Hx].
    - exists (fun _ => 0%Z). split; intros i Hi; lia.
    - rewrite app_nil_r in Hx. destruct (candidate_image _ _ _ _ Hx) as [t [A [B _]]]. eauto. }
  assert (H1 : gap (ksq n k) (v :: candidates n v d ++ [])).
  { intros x y Hx Hy. destruct (C x Hx) as [a [A1 A2]]. destruct (C y Hy) as [b [B1 B2]]. rewrite !ksq_norm2. apply (HG x y a b); auto. }
  assert (H2 : In u (v :: candidates n v d ++ [])).
  { right. rewrite app_nil_r. eapply image_candidate; eauto. }
  destruct (loop_exact n (ksq n k) (candidates n v d) v [] H1 (fun w H => match H with end) u H2) as [A B].
  split; [exact A|]. intros E P. apply lexlt_spec in P. specialize (B E). cbv zeta in B. rewrite P in B. discriminate.
Qed.

Lemma abs_min : forall d r t, (0 < d)%Z -> (- d <= 2 * r <= d)%Z -> (Z.abs r <= Z.abs (r + t * d))%Z.
Proof.
  intros d r t H1 H2. destruct (Z.lt_trichotomy t 0) as [H|[->|H]]; [|rewrite Z.mul_0_l, Z.add_0_r; lia|].
  - assert (t * d <= - d)%Z by nia. lia.
  - assert (d <= t * d)%Z by nia. lia.
Qed.

(** One dimension. *)
Theorem shiftToMinimum_1d : forall v d k, (0 < d 0%nat)%Z -> (- d 0%nat < v 0%nat < d 0%nat)%Z ->
  let r := shiftToMinimum 1 v d k in
  (- d 0%nat <= 2 * r 0%nat <= d 0%nat)%Z /\
  (forall s u, is_image 1 v d s u -> norm2 1 k r <= norm2 1 k u) /\
  shiftToMinimum 1 r d k = r.
Proof.
  intros v d k HD HV r.
  assert (Q : (2 * Z.quot (d 0%nat) 2 <= d 0%nat < 2 * Z.quot (d 0%nat) 2 + 2)%Z).
  { rewrite Z.quot_div_nonneg by lia. assert (X := Z_div_mod_eq_full (d 0%nat) 2). assert (Y := Z.mod_pos_bound (d 0%nat) 2). lia. }
  assert (B : (- d 0%nat <= 2 * r 0%nat <= d 0%nat)%Z /\ (- Z.quot (d 0%nat) 2 <= r 0%nat <= Z.quot (d 0%nat) 2)%Z).
  { unfold r, shiftToMinimum, shift1. cbn [Nat.eqb].
    destruct (Z.ltb_spec (Z.quot (d 0%nat) 2) (v 0%nat)); [lia|]. destruct (Z.ltb_spec (v 0%nat) (- Z.quot (d 0%nat) 2)); lia. }
  split; [tauto|]. split.
  - intros s u HI.
    assert (C : exists t, (u 0%nat = r 0%nat + t * d 0%nat)%Z).
    { assert (X := HI 0%nat ltac:(lia)). unfold r, shiftToMinimum, shift1. cbn [Nat.eqb].
      destruct (Z.ltb_spec (Z.quot (d 0%nat) 2) (v 0%nat)); [exists (s 0%nat + 1)%Z; lia|].
      destruct (Z.ltb_spec (v 0%nat) (- Z.quot (d 0%nat) 2)); [exists (s 0%nat - 1)%Z; lia|exists (s 0%nat); lia]. }
    destruct C as [t Ht].
    assert (M : (Z.abs (r 0%nat) <= Z.abs (u 0%nat))%Z) by (rewrite Ht; apply abs_min; tauto).
    unfold norm2. cbn [rsum]. rewrite !Rplus_0_l.
    assert (M2 : IZR (r 0%nat) * IZR (r 0%nat) <= IZR (u 0%nat) * IZR (u 0%nat)).
    { rewrite <- !mult_IZR. apply IZR_le. nia. }
    assert (0 <= k 0%nat 0%nat * k 0%nat 0%nat) by apply Rle_0_sqr. nra.
  - apply functional_extensionality. intros i. destruct B as [_ B]. cbv beta iota delta [shiftToMinimum].
    destruct i as [|i]; [|reflexivity]. cbn [Nat.eqb]. unfold shift1.
    destruct (Z.ltb_spec (Z.quot (d 0%nat) 2) (r 0%nat)); [lia|]. destruct (Z.ltb_spec (r 0%nat) (- Z.quot (d 0%nat) 2)); [lia|]. reflexivity.
Qed.

(** Orthogonal lattice vectors: the minimum over the candidates is the minimum
    over all images, and repeating the call does not change the norm. *)
Theorem shiftToMinimum_orthogonal : forall D v d k, (2 <= D)%nat -> vec D v ->
  (forall i j, (i < D)%nat -> (j < D)%nat -> i <> j -> k i j = 0) ->
  (forall i, (i < D)%nat -> (0 < d i)%Z /\ (- d i < v i < d i)%Z) ->
  (forall x y s t, is_image D v d s x -> is_image D v d t y ->
     norm2 D k x = norm2 D k y \/ Rabs (norm2 D k x - norm2 D k y) > epsilon) ->
  let r := shiftToMinimum D v d k in
  (forall s u, is_image D v d s u -> norm2 D k r <= norm2 D k u) /\
  norm2 D k (shiftToMinimum D r d k) = norm2 D k r.
Proof.
  intros D v d k HD HV HO HB HG r.
  assert (N : forall x, norm2 D k x = rsum D (fun j => (k j j * IZR (x j)) ^ 2)).
  { intros x. unfold norm2. apply rsum_ext. intros j Hj. f_equal.
    rewrite (rsum_ext D (fun i => k i j * IZR (x i)) (fun i => if Nat.eqb i j then k j j * IZR (x j) else 0)).
    - clear - Hj. induction D; [lia|]. cbn [rsum]. destruct (Nat.eqb_spec D j).
      + subst. rewrite (rsum_ext j _ (fun _ => 0)); [rewrite rsum_zero; ring|]. intros i Hi. destruct (Nat.eqb_spec i j); [lia|auto].
      + rewrite IHD by lia. ring.
    - intros i Hi. destruct (Nat.eqb_spec i j); [subst; auto|]. rewrite HO by auto. ring. }
  assert (MIN : forall s u, is_image D v d s u -> norm2 D k r <= norm2 D k u).
  { intros s u HI.
    set (t := fun i => (if Z.quot (d i) 2 <? v i then -1 else if v i <? - Z.quot (d i) 2 then 1 else 0)%Z).
    set (w := fun i => if (i <? D)%nat then (v i + t i * d i)%Z else 0%Z).
    assert (W : norm2 D k r <= norm2 D k w).
    { apply (shiftToMinimum_exact D v d k HD HV) with (s := t).
      - intros. eapply HG; eauto.
      - intros i Hi. unfold t. destruct (_ <? _)%Z; [lia|]. destruct (_ <? _)%Z; lia.
      - intros i Hi. unfold w. apply Nat.ltb_lt in Hi. rewrite Hi. auto.
      - intros i Hi. unfold w. apply Nat.ltb_ge in Hi. rewrite Hi. auto. }
    apply Rle_trans with (1 := W). rewrite !N.
    assert (LE : forall m f g, (forall j, (j < m)%nat -> f j <= g j) -> rsum m f <= rsum m g).
    { induction m; intros f g0 H; cbn [rsum]; [lra|]. apply Rplus_le_compat; auto. }
    apply LE. intros j Hj. destruct (HB j Hj) as [B1 B2].
    assert (Q : (2 * Z.quot (d j) 2 <= d j < 2 * Z.quot (d j) 2 + 2)%Z).
    { rewrite Z.quot_div_nonneg by lia. assert (X := Z_div_mod_eq_full (d j) 2). assert (Y := Z.mod_pos_bound (d j) 2). lia. }
    assert (M : (Z.abs (w j) <= Z.abs (u j))%Z).
    { rewrite (HI j Hj). unfold w, t. assert (X := Hj). apply Nat.ltb_lt in X. rewrite X.
      destruct (Z.ltb_spec (Z.quot (d j) 2) (v j)).
      - replace (v j + s j * d j)%Z with (v j + -1 * d j + (s j + 1) * d j)%Z by ring. apply abs_min; lia.
      - destruct (Z.ltb_spec (v j) (- Z.quot (d j) 2)).
        + replace (v j + s j * d j)%Z with (v j + 1 * d j + (s j - 1) * d j)%Z by ring. apply abs_min; lia.
        + replace (v j + s j * d j)%Z with (v j + 0 * d j + s j * d j)%Z by ring. apply abs_min; lia. }
    assert (M2 : IZR (w j) * IZR (w j) <= IZR (u j) * IZR (u j)).
    { rewrite <- !mult_IZR. apply IZR_le. nia. }
    assert (0 <= k j j * k j j) by apply Rle_0_sqr. nra. }
  split; auto.
  destruct (shiftToMinimum_image D v d k ltac:(lia) HV) as [s0 [S1 [S2 S3]]]. fold r in S2, S3.
  assert (TR : forall t x, is_image D r d t x -> is_image D v d (fun i => (s0 i + t i)%Z) x).
  { intros t x Hx i Hi. rewrite (Hx i Hi), (S2 i Hi). lia. }
  apply Rle_antisym.
  - apply (shiftToMinimum_exact D r d k HD S3) with (s := fun _ => 0%Z).
    + intros x y s t _ _ Hx Hy. eapply HG; apply TR; eauto.
    + intros i Hi. lia.
    + intros i Hi. lia.
    + exact S3.
  - destruct (shiftToMinimum_image D r d k ltac:(lia) S3) as [s1 [T1 [T2 T3]]].
    eapply MIN. apply TR. exact T2.
Qed.

(* ---------- refutations ---------- *)
Lemma consider_accept : forall D g r c u, lexlt D r u = true -> g u < c + epsilon -> consider D g (r, c) u = (u, g u).
Proof. intros D g r c u H1 H2. unfold consider. cbn [fst snd]. rewrite H1. destruct (Rlt_dec _ _); [|contradiction]. destruct (Rlt_dec _ _); auto. Qed.
Lemma consider_reject : forall D g r c u, lexlt D r u = false -> c - epsilon <= g u -> consider D g (r, c) u = (r, c).
Proof. intros D g r c u H1 H2. unfold consider. cbn [fst snd]. rewrite H1. destruct (Rlt_dec _ _); auto. destruct (Rlt_dec _ _); auto. lra. Qed.

(** Large cell: each step of the loop may move to a longer vector. *)
Theorem shiftToMinimum_minimal_refuted : exists v d p s u,
  volume Square p <> 0 /\ vec 2 v /\ (forall i, (i < 2)%nat -> (0 <= v i < d i)%Z) /\
  small_shift 2 s /\ is_image 2 v d s u /\ vec 2 u /\
  norm2 2 (kBasis Square p) (shiftToMinimum 2 v d (kBasis Square p)) > norm2 2 (kBasis Square p) u + epsilon.
Proof.
  exists (fun _ => 0%Z), (fun _ => 4%Z), (fun _ => 600000), (fun _ => 0%Z), (fun _ => 0%Z).
  split; [ccell; lra|]. split; [intros i _; auto|]. split; [intros; lia|]. split; [intros i _; lia|].
  split; [intros i _; reflexivity|]. split; [intros i _; auto|].
  set (k := kBasis Square (fun _ => 600000)).
  set (q := (2 * PI / 600000) * (2 * PI / 600000)).
  assert (K : forall x, ksq 2 k x = q * IZR (x 0%nat * x 0%nat + x 1%nat * x 1%nat)).
  { intros x. unfold ksq, k, q. ccell. unfold twoPi. rewrite plus_IZR, !mult_IZR. field. }
  assert (Q1 : 1 / 10000000000 <= q).
  { assert (X := PI2_3_2). unfold q. assert (3 < PI) by lra. assert (1 / 100000 <= 2 * PI / 600000) by lra. nra. }
  assert (Q2 : q <= 18 / 100000000000).
  { assert (X := PI_4). assert (Y := PI_RGT_0). unfold q. assert (2 * PI / 600000 <= 1334 / 100000000) by lra. assert (0 <= 2 * PI / 600000) by lra. nra. }
  clearbody q. rewrite <- !ksq_norm2.
  assert (RES : shiftToMinimum 2 (fun _ => 0%Z) (fun _ => 4%Z) k 0%nat = 8%Z /\ shiftToMinimum 2 (fun _ => 0%Z) (fun _ => 4%Z) k 1%nat = 8%Z).
  { unfold shiftToMinimum, shiftLoop, candidates. cbn [shifts range2 flat_map map app]. cbn [fold_left].
    repeat (first [rewrite consider_reject; [|reflexivity|rewrite !K; cbn -[IZR]; unfold epsilon; lra]
                  |rewrite consider_accept; [|reflexivity|rewrite !K; cbn -[IZR]; unfold epsilon; lra]]).
    cbn [fst]. split; reflexivity. }
  destruct RES as [R0 R1]. rewrite !K, R0, R1. cbn -[IZR]. unfold epsilon. lra.
Qed.

(** The norm is not invariant when the call is repeated: vectors outside the
    first two cells are only moved one step. *)
Theorem shiftToMinimum_stable_refuted : exists v d p, volume Lamellar p <> 0 /\ vec 1 v /\ (0 < d 0%nat)%Z /\
  let k := kBasis Lamellar p in
  let r := shiftToMinimum 1 v d k in
  norm2 1 k (shiftToMinimum 1 r d k) <> norm2 1 k r.
Proof.
  exists (fun i => match i with O => 10 | _ => 0 end)%Z, (fun _ => 4%Z), (fun _ => 1).
  split; [ccell; lra|]. split; [intros i Hi; destruct i; [lia|auto]|]. split; [lia|]. cbv zeta.
  unfold norm2. ccell. unfold twoPi. assert (X := PI_RGT_0). unfold shiftToMinimum, shift1. cbn -[IZR].
  assert (0 < PI * PI) by (apply Rmult_lt_0_compat; auto). intros E. unfold Rdiv in E. rewrite Rinv_1 in E. ring_simplify in E. nra.
Qed.

(* ---------- examples ---------- *)
(** A square cell in which different norms of integer vectors differ by at
    least (2 pi)^2. *)
Example ex_gap : forall x y : nat -> Z,
  let k := kBasis Square (fun _ => 1) in
  norm2 2 k x = norm2 2 k y \/ Rabs (norm2 2 k x - norm2 2 k y) > epsilon.
Proof.
  intros x y k.
  assert (K : forall x, norm2 2 k x = 4 * (PI * PI) * IZR (x 0%nat * x 0%nat + x 1%nat * x 1%nat)).
  { intros z. unfold norm2, k. ccell. unfold twoPi. rewrite plus_IZR, !mult_IZR. field. }
  rewrite !K. set (a := (x 0%nat * x 0%nat + x 1%nat * x 1%nat)%Z). set (b := (y 0%nat * y 0%nat + y 1%nat * y 1%nat)%Z).
  destruct (Z.eq_dec a b) as [->|N]; auto. right. rewrite <- Rmult_minus_distr_l, <- minus_IZR, Rabs_mult, <- abs_IZR.
  assert (X := PI2_3_2). assert (P : 9 < PI * PI) by nra.
  rewrite Rabs_pos_eq by nra. assert (1 <= IZR (Z.abs (a - b))) by (apply (IZR_le 1); lia). unfold epsilon. nra.
Qed.
Example ex_shift1d : shiftToMinimum 1 (fun i => match i with O => 7 | _ => 0 end)%Z (fun _ => 9%Z) (fun _ _ => 1) 0%nat = (-2)%Z.
Proof. reflexivity. Qed.

Print Assumptions shiftToMinimum_image.
Print Assumptions shiftToMinimum_minimal_partial.
Print Assumptions shiftToMinimum_exact.
Print Assumptions shiftToMinimum_1d.
Print Assumptions shiftToMinimum_orthogonal.
Print Assumptions shiftToMinimum_minimal_refuted.
Print Assumptions shiftToMinimum_stable_refuted.
