(** makeBasis constructs a good basis. *)
From Coq Require Import ZArith QArith Qcanon Reals List Bool Lia Lra Permutation.
From Coquelicot Require Import Complex Rcomplements.
From Verif Require Import Base RSum MeshSpec Mesh MeshProofs PropsMesh FieldIo FieldIoProofs Symmetry Basis BasisSpec BasisProofs BasisValid MakeBasis.
From Coq Require Import List.
Import ListNotations.
Local Open Scope Z_scope.
Local Open Scope list_scope.

(** ** Arrays *)
Definition wv {A} (ws : list A) (j : Z) : option A := if j <? 0 then None else nth_error ws (Z.to_nat j).
Lemma at1_wv : forall A (ws : list A) j w, at1 ws j = Ok w <-> wv ws j = Some w.
Proof.
  intros. unfold at1, wv. destruct (j <? 0); [split; discriminate|]. destruct (nth_error ws (Z.to_nat j)); split; congruence.
Qed.
Lemma wv_range : forall A (ws : list A) j w, wv ws j = Some w -> 0 <= j < Z.of_nat (length ws).
Proof.
  intros A ws j w H. unfold wv in H. destruct (Z.ltb_spec j 0); [discriminate|].
  assert (Z.to_nat j < length ws)%nat by (apply nth_error_Some; congruence). lia.
Qed.
Lemma nth_error_update : forall A (l : list A) n x k, nth_error (update l n x) k = if (k =? n)%nat && (n <? length l)%nat then Some x else nth_error l k.
Proof.
  induction l as [|y l IH]; intros n x k.
  - cbn [update length]. destruct n; destruct (k =? _)%nat; reflexivity.
  - destruct n, k; cbn [update nth_error Nat.eqb andb length]; auto. rewrite IH. reflexivity.
Qed.
Lemma set1_ok : forall A (l : list A) j x l', set1 l j x = Ok l' -> length l' = length l /\ 0 <= j < Z.of_nat (length l) /\
  forall i, wv l' i = if i =? j then Some x else wv l i.
Proof.
  intros A l j x l' H. unfold set1 in H. destruct (Z.leb_spec 0 j), (Z.ltb_spec j (Z.of_nat (length l))); cbn in H; try discriminate.
  injection H as <-. split; [apply update_length|]. split; [lia|]. intros i. unfold wv. destruct (Z.ltb_spec i 0).
  - destruct (Z.eqb_spec i j); auto; lia.
  - rewrite nth_error_update. destruct (Z.eqb_spec i j) as [->|N].
    + rewrite Nat.eqb_refl. destruct (Nat.ltb_spec (Z.to_nat j) (length l)); auto; lia.
    + destruct (Nat.eqb_spec (Z.to_nat i) (Z.to_nat j)); auto; lia.
Qed.
Lemma modWave_ok : forall ws j f ws', modWave ws j f = Ok ws' -> length ws' = length ws /\ (exists w, wv ws j = Some w) /\
  forall i, wv ws' i = if i =? j then option_map f (wv ws i) else wv ws i.
Proof.
  intros ws j f ws' H. unfold modWave in H. inv_bind H. apply at1_wv in E. apply set1_ok in H. destruct H as [H1 [H2 H3]].
  split; auto. split; eauto. intros i. rewrite H3. destruct (Z.eqb_spec i j) as [->|]; auto. rewrite E. reflexivity.
Qed.
Lemma modWaves_ok : forall hi f lo ws ws', modWaves ws (range lo hi) f = Ok ws' -> length ws' = length ws /\
  (forall i, wv ws' i = if (lo <=? i) && (i <? hi) then option_map f (wv ws i) else wv ws i).
Proof.
  intros hi f. refine (range_ind_up hi _ _ _).
  - intros lo Hlo ws ws' H. rewrite range_nil in H by auto. injection H as <-. split; auto. intros i.
    destruct (Z.leb_spec lo i), (Z.ltb_spec i hi); auto; lia.
  - intros lo Hlo IH ws ws' H. rewrite range_cons in H by auto. cbn [modWaves] in H. inv_bind H. apply modWave_ok in E. destruct E as [E1 [_ E2]].
    apply IH in H. destruct H as [H1 H2]. split; [congruence|]. intros i. rewrite H2, E2.
    destruct (Z.eqb_spec i lo); destruct (Z.leb_spec (lo + 1) i), (Z.leb_spec lo i), (Z.ltb_spec i hi); try lia; cbn [andb]; auto.
Qed.

Lemma withInv_self : forall w, w = withInv w (wInv w).
Proof. intros []; reflexivity. Qed.
Lemma withInv_inv : forall w k, wInv (withInv w k) = k.
Proof. reflexivity. Qed.

Lemma setPair_ok : forall ws j k ws', setPair ws j k = Ok ws' -> length ws' = length ws /\
  (forall i w, wv ws i = Some w -> exists w', wv ws' i = Some w' /\ w' = withInv w (wInv w') /\ (i = j -> wInv w' = k) /\ (i <> j -> i <> k -> w' = w)).
Proof.
  intros ws j k ws' H. unfold setPair in H. inv_bind H. apply modWave_ok in E, H. destruct E as [E1 [_ E2]], H as [H1 [_ H2]].
  split; [congruence|]. intros i w Hw. rewrite H2, E2, Hw.
  destruct (Z.eqb_spec i k) as [Ek|Nk]; destruct (Z.eqb_spec i j) as [Ej|Nj]; cbn [option_map]; eexists; (split; [reflexivity|]);
  (split; [reflexivity || apply withInv_self|]); (split; intros; [rewrite ?withInv_inv; congruence|congruence]).
Qed.
Lemma findDft_in : forall ws v l k, findDft ws v l = Ok (Some k) -> In k l.
Proof.
  induction l as [|x l IH]; intros k H; cbn [findDft] in H; [discriminate|]. inv_bind H. destruct (eqbL v (wDft a)).
  - injection H as ->. left; auto.
  - right; auto.
Qed.
Lemma assignInv_ok : forall m ws j k l ws', assignInv m ws j k l = Ok ws' -> forall Q : Z -> Prop, Q k -> (forall x, In x l -> Q x) ->
  length ws' = length ws /\
  (forall i w, wv ws i = Some w -> exists w', wv ws' i = Some w' /\ w' = withInv w (wInv w') /\
     (i = j -> wInv w < 0 -> Q (wInv w')) /\ (i <> j -> ~ Q i -> w' = w)).
Proof.
  intros m ws j k l ws' H Q HK HL. unfold assignInv in H. inv_bind H. apply at1_wv in E. destruct (Z.ltb_spec (wInv a) 0).
  - assert (S : exists k', Q k' /\ setPair ws j k' = Ok ws').
    { inv_bind H. destruct (eqbL _ _); [exists k; auto|]. inv_bind H. destruct a1 as [k'|]; [|discriminate]. exists k'. split; auto. apply HL. eapply findDft_in; eauto. }
    destruct S as [k' [Q' S]]. apply setPair_ok in S. destruct S as [S1 S2]. split; auto. intros i w Hw. destruct (S2 i w Hw) as [w' [A [B [C D]]]].
    exists w'. split; auto. split; auto. split.
    + intros Ei _. rewrite (C Ei). auto.
    + intros Ni Nq. apply D; auto. intros ->. contradiction.
  - injection H as <-. split; auto. intros i w Hw. exists w. split; auto. split; [apply withInv_self|]. split; auto. intros -> Hlt. rewrite Hw in E. injection E as ->. lia.
Qed.
Lemma withInv_trans : forall w w1 w2, w1 = withInv w (wInv w1) -> w2 = withInv w1 (wInv w2) -> w2 = withInv w (wInv w2).
Proof. intros w w1 w2 E1 E2. rewrite E2, E1. reflexivity. Qed.
Lemma assignAll_ok : forall m expected search (Q : Z -> Prop) js ws ws', assignAll m expected search js ws = Ok ws' ->
  (forall j, In j js -> Q (expected j) /\ forall x, In x (search j) -> Q x) ->
  length ws' = length ws /\
  (forall i w, wv ws i = Some w -> exists w', wv ws' i = Some w' /\ w' = withInv w (wInv w') /\ (~ In i js -> ~ Q i -> w' = w)).
Proof.
  induction js as [|j js IH]; intros ws ws' H HQ; cbn [assignAll] in H.
  - injection H as <-. split; auto. intros i w Hw. exists w. split; auto. split; [apply withInv_self|auto].
  - inv_bind H. destruct (HQ j (or_introl eq_refl)) as [Q1 Q2]. destruct (assignInv_ok _ _ _ _ _ _ E Q Q1 Q2) as [A1 A2].
    destruct (IH _ _ H) as [B1 B2]; [intros; apply HQ; right; auto|]. split; [congruence|].
    intros i w Hw. destruct (A2 i w Hw) as [w1 [C1 [C2 [_ C3]]]]. destruct (B2 i w1 C1) as [w2 [D1 [D2 D3]]].
    exists w2. split; auto. split; [eapply withInv_trans; eauto|]. intros N1 N2. rewrite D3, C3; auto; intros Hx; apply N1; [left; auto|right; auto].
Qed.

(** ** Moduli *)
Definition unitary (w : wave) : Prop := (9 / 10 <= Cmod (wCoeff w) <= 1)%R.
Lemma near_spec : forall x y t, near x y t = true -> (Rabs (x - y) < t)%R.
Proof. intros x y t. unfold near. destruct (Rlt_dec _ _); auto. discriminate. Qed.
Lemma sq_abs : forall x, (Rabs x * Rabs x = x * x)%R.
Proof. intros. rewrite <- Rabs_mult. apply Rabs_pos_eq. nra. Qed.
Lemma Cmod_sq : forall z, (Cmod z * Cmod z = fst z * fst z + snd z * snd z)%R.
Proof. intros z. unfold Cmod. rewrite sqrt_def; cbn; nra. Qed.
Lemma csqrt_mod : forall z, (Cmod (csqrt z) * Cmod (csqrt z) = Cmod z)%R.
Proof.
  intros z. rewrite Cmod_sq. unfold csqrt; cbn [fst snd].
  assert (B : (Rabs (fst z) <= Cmod z)%R).
  { apply Rsqr_incr_0; [|apply Rabs_pos|apply Cmod_ge_0]. unfold Rsqr. rewrite sq_abs, Cmod_sq. nra. }
  apply Rabs_le_between in B.
  rewrite sqrt_sqrt by lra.
  replace ((if Rlt_dec (snd z) 0 then (- sqrt ((Cmod z - fst z) / 2))%R else sqrt ((Cmod z - fst z) / 2)) * (if Rlt_dec (snd z) 0 then (- sqrt ((Cmod z - fst z) / 2))%R else sqrt ((Cmod z - fst z) / 2)))%R with ((Cmod z - fst z) / 2)%R; [lra|].
  rewrite <- (sqrt_sqrt ((Cmod z - fst z) / 2)) at 1 by lra. destruct (Rlt_dec (snd z) 0); ring.
Qed.
Lemma phasor_mod : forall z, (Cmod (phasor z) * Cmod (phasor z) = Cmod z)%R.
Proof.
  intros z. unfold phasor. destruct (Rlt_dec _ _); [rewrite Cmod_opp; apply csqrt_mod|].
  destruct (Rle_dec _ _); [|apply csqrt_mod]. destruct (Rlt_dec _ _); [rewrite Cmod_opp|]; apply csqrt_mod.
Qed.
Lemma Cdiv_mod : forall a c, (0 < Cmod c)%R -> Cmod (Cdiv a c) = (Cmod a / Cmod c)%R.
Proof. intros a c H. unfold Cdiv. rewrite Cmod_mult, Cmod_inv; [reflexivity|]. apply Cmod_gt_0. auto. Qed.
Lemma div_low : forall a c, (9 / 10 <= Cmod a)%R -> (9 / 10 <= Cmod c <= 1)%R -> (9 / 10 <= Cmod (Cdiv a c) )%R.
Proof.
  intros a c Ha Hc. rewrite Cdiv_mod by lra. apply Rmult_le_reg_r with (Cmod c); [lra|]. unfold Rdiv. rewrite (Rmult_assoc (Cmod a)), Rinv_l by lra. nra.
Qed.
Lemma div_low2 : forall a c, (9 / 10 <= Cmod a)%R -> (Rabs (Cmod c - 1) < 1 / 10^9)%R -> (8 / 10 <= Cmod (Cdiv a (phasor c)))%R.
Proof.
  intros a c Ha Hc. pose proof (phasor_mod c) as P. pose proof (Cmod_ge_0 (phasor c)) as P0. apply Rabs_lt_between in Hc.
  assert (L : (9 / 10 <= Cmod (phasor c) <= 11 / 10)%R) by nra.
  rewrite Cdiv_mod by lra. apply Rmult_le_reg_r with (Cmod (phasor c)); [lra|]. unfold Rdiv. rewrite (Rmult_assoc (Cmod a)), Rinv_l by lra. nra.
Qed.
Lemma coeffOf_unit : forall p, (9 / 10 <= Cmod (coeffOf p) <= 1)%R.
Proof.
  intros p. unfold coeffOf. set (x := cos (2 * PI * p)). set (y := sin (2 * PI * p)).
  assert (U : (x * x + y * y = 1)%R) by (pose proof (sin2_cos2 (2 * PI * p)) as H; unfold Rsqr in H; fold x y in H; lra).
  clearbody x y. cbn [fst snd]. assert (X0 : (0 <= x * x)%R) by nra. assert (Y0 : (0 <= y * y)%R) by nra.
  assert (M : forall z : C, (81 / 100 <= fst z * fst z + snd z * snd z <= 1)%R -> (9 / 10 <= Cmod z <= 1)%R).
  { intros z H. rewrite <- Cmod_sq in H. pose proof (Cmod_ge_0 z). nra. }
  assert (SA : forall r, (Rabs r < 1 / 10^6)%R -> (r * r < 1 / 10^6)%R). { intros r H. rewrite <- sq_abs. pose proof (Rabs_pos r). nra. }
  destruct (Rlt_dec (Rabs y) (1 / 10^6)) as [L|L]; cbn [fst snd].
  - apply SA in L. destruct (Rlt_dec (Rabs x) (1 / 10^6)) as [K|K]; [apply SA in K; lra|]. apply M; cbn [fst snd]. lra.
  - destruct (Rlt_dec (Rabs x) (1 / 10^6)) as [K|K]; [apply SA in K|]; apply M; cbn [fst snd]; lra.
Qed.
Lemma tidy_low : forall c, (1 / 10^7 < Cmod c)%R -> (1 / 10^8 < Cmod (tidy c))%R.
Proof.
  intros c H. pose proof (Cmod_sq c) as S. destruct c as [x y]. unfold tidy. cbn [fst snd] in *.
  assert (M : forall z : C, (1 / 10^16 < fst z * fst z + snd z * snd z)%R -> (1 / 10^8 < Cmod z)%R).
  { intros z Hz. rewrite <- Cmod_sq in Hz. pose proof (Cmod_ge_0 z). nra. }
  assert (SA : forall r, (Rabs r < 1 / 10^8)%R -> (r * r <= 1 / 10^16)%R). { intros r Hr. rewrite <- sq_abs. pose proof (Rabs_pos r). nra. }
  assert (L : (1 / 10^14 < x * x + y * y)%R) by nra. assert (X0 : (0 <= x * x)%R) by nra. assert (Y0 : (0 <= y * y)%R) by nra.
  destruct (Rlt_dec (Rabs x) (1 / 10^8)) as [X|X]; cbn [fst snd].
  - apply SA in X. destruct (Rlt_dec (Rabs y) (1 / 10^8)) as [Y|Y]; [apply SA in Y; lra|]. apply M; cbn [fst snd]. lra.
  - destruct (Rlt_dec (Rabs y) (1 / 10^8)) as [Y|Y]; [apply SA in Y|]; apply M; cbn [fst snd]; lra.
Qed.

(** ** Phases of the stars *)
Definition sameStar (s s' : star) : Prop :=
  sSize s' = sSize s /\ sBegin s' = sBegin s /\ sEnd s' = sEnd s /\ sFlag s' = sFlag s /\ sCancel s' = sCancel s.
Inductive pairs : Z -> list star -> Prop :=
| pairs_nil : forall iw, pairs iw []
| pairs_closed : forall iw s r, sFlag s = 0 -> sBegin s = iw -> iw < sEnd s -> sSize s = sEnd s - sBegin s -> pairs (sEnd s) r -> pairs iw (s :: r)
| pairs_open : forall iw s1 s2 r, sFlag s1 = 1 -> sFlag s2 = -1 -> sBegin s1 = iw -> iw < sEnd s1 -> sBegin s2 = sEnd s1 ->
    sSize s1 = sEnd s1 - sBegin s1 -> sSize s2 = sEnd s2 - sBegin s2 -> sSize s2 = sSize s1 ->
    pairs (sEnd s2) r -> pairs iw (s1 :: s2 :: r).

Definition inR (s : star) (i : Z) : Prop := sBegin s <= i < sEnd s.
Lemma inR_dec : forall s i, (sBegin s <=? i) && (i <? sEnd s) = true <-> inR s i.
Proof. intros. unfold inR. rewrite andb_true_iff, Z.leb_le, Z.ltb_lt. tauto. Qed.
Lemma modWaves_in : forall s f ws ws', modWaves ws (range (sBegin s) (sEnd s)) f = Ok ws' -> length ws' = length ws /\
  (forall i, inR s i -> wv ws' i = option_map f (wv ws i)) /\ (forall i, ~ inR s i -> wv ws' i = wv ws i).
Proof.
  intros s f ws ws' H. apply modWaves_ok in H. destruct H as [H1 H2]. split; auto. split; intros i Hi; rewrite H2.
  - rewrite (proj2 (inR_dec s i) Hi). auto.
  - destruct (_ && _) eqn:E; auto. apply inR_dec in E. contradiction.
Qed.

Lemma closedStar_ok : forall m ws s ws' s', closedStar m ws s = Ok (ws', s') -> sBegin s < sEnd s ->
  (forall i w, inR s i -> wv ws i = Some w -> unitary w) ->
  length ws' = length ws /\ sameStar s s' /\ (forall i, ~ inR s i -> wv ws' i = wv ws i) /\
  (sCancel s = false -> forall i w, inR s i -> wv ws' i = Some w -> (8 / 10 <= Cmod (wCoeff w))%R).
Proof.
  intros m ws s ws' s' H HL HU. unfold closedStar in H. inv_bind H.
  destruct (assignAll_ok m _ _ (inR s) _ _ _ E) as [A1 A2].
  { intros j Hj. apply range_in in Hj. split; [unfold inR; lia|]. intros x Hx. apply range_in in Hx. unfold inR; lia. }
  clear E. rename a into ws1.
  assert (OUT : forall i, ~ inR s i -> wv ws1 i = wv ws i).
  { intros i Hi. destruct (wv ws i) as [w|] eqn:Ew.
    - destruct (A2 i w Ew) as [w' [B1 [B2 B3]]]. rewrite B1. f_equal. apply B3; auto. rewrite range_in. exact Hi.
    - destruct (wv ws1 i) as [w'|] eqn:Ew'; auto. apply wv_range in Ew'. unfold wv in Ew. destruct (Z.ltb_spec i 0); [lia|]. apply nth_error_None in Ew. lia. }
  assert (IN : forall i w, inR s i -> wv ws1 i = Some w -> unitary w).
  { intros i w Hi Hw. destruct (wv ws i) as [w0|] eqn:Ew.
    - destruct (A2 i w0 Ew) as [w' [B1 [B2 _]]]. rewrite B1 in Hw. injection Hw as <-. unfold unitary. rewrite B2. exact (HU i w0 Hi Ew).
    - apply wv_range in Hw. unfold wv in Ew. destruct (Z.ltb_spec i 0); [lia|]. apply nth_error_None in Ew. lia. }
  inv_bind H. apply at1_wv in E. rename a into root.
  assert (RI : inR s (sBegin s)) by (unfold inR; lia). pose proof (IN _ _ RI E) as RU.
  assert (SS : sameStar s (withBz s (wBz root))) by (repeat split).
  cbn [withBz sCancel sBegin sEnd] in H. destruct (sCancel s) eqn:EC.
  - inv_bind H. injection H as <- <-. apply (modWaves_in s) in E0. destruct E0 as [E1 [E2 E3]]. split; [congruence|]. split; auto. split; [|discriminate].
    intros i Hi. rewrite E3, OUT; auto.
  - inv_bind H. apply (modWaves_in s) in E0. destruct E0 as [E1 [E2 E3]]. rename a into ws2.
    assert (IN2 : forall i w, inR s i -> wv ws2 i = Some w -> (9 / 10 <= Cmod (wCoeff w))%R).
    { intros i w Hi Hw. rewrite E2 in Hw by auto. destruct (wv ws1 i) as [w0|] eqn:Ew; [|discriminate]. injection Hw as <-.
      cbn [withCoeff wCoeff]. apply div_low; [apply (IN i w0 Hi Ew)|exact RU]. }
    assert (FIN : length ws2 = length ws /\ sameStar s (withBz s (wBz root)) /\ (forall i, ~ inR s i -> wv ws2 i = wv ws i) /\
      (false = false -> forall i w, inR s i -> wv ws2 i = Some w -> (8 / 10 <= Cmod (wCoeff w))%R)).
    { split; [congruence|]. split; auto. split; [intros i Hi; rewrite E3, OUT; auto|]. intros _ i w Hi Hw. specialize (IN2 i w Hi Hw). lra. }
    inv_bind H. inv_check H. inv_check H. destruct (wInv root =? sBegin s); [injection H as <- <-; exact FIN|].
    inv_bind H. inv_check H. destruct (Rlt_dec _ _); [|injection H as <- <-; exact FIN].
    inv_bind H. injection H as <- <-. apply (modWaves_in s) in E8. destruct E8 as [F1 [F2 F3]]. apply near_spec in E7.
    split; [congruence|]. split; auto. split; [intros i Hi; rewrite F3, E3, OUT; auto|].
    intros _ i w Hi Hw. rewrite F2 in Hw by auto. destruct (wv ws2 i) as [w0|] eqn:Ew; [|discriminate]. injection Hw as <-. cbn [withCoeff wCoeff].
    apply div_low2; [apply (IN2 i w0 Hi Ew)|]. auto.
Qed.

Lemma openStars_ok : forall m ws s1 s2 ws' s1' s2', openStars m ws s1 s2 = Ok (ws', s1', s2') ->
  sBegin s1 < sEnd s1 -> sBegin s2 = sEnd s1 -> sEnd s2 - sBegin s2 = sEnd s1 - sBegin s1 ->
  (forall i w, inR s1 i \/ inR s2 i -> wv ws i = Some w -> unitary w /\ wInv w = -1) ->
  length ws' = length ws /\ sameStar s1 s1' /\ sameStar s2 s2' /\ sCancel s2 = sCancel s1 /\
  (forall i, ~ inR s1 i -> ~ inR s2 i -> wv ws' i = wv ws i) /\
  (sCancel s1 = false -> forall i w, inR s1 i \/ inR s2 i -> wv ws' i = Some w -> (8 / 10 <= Cmod (wCoeff w))%R).
Proof.
  intros m ws s1 s2 ws' s1' s2' H HL H21 HS HU. unfold openStars in H. inv_check H. inv_check H. apply eqb_prop in E0. inv_bind H.
  assert (DIS : forall i, inR s1 i -> ~ inR s2 i) by (unfold inR; intros; lia).
  assert (QQ : forall j, In j (range (sBegin s1) (sEnd s1)) -> inR s2 (sEnd s2 - 1 - (j - sBegin s1)) /\ (forall x, In x (range (sBegin s2) (sEnd s2)) -> inR s2 x)).
  { intros j Hj. apply range_in in Hj. split; [unfold inR; lia|]. intros x Hx. apply range_in in Hx. exact Hx. }
  destruct (assignAll_ok m _ _ (inR s2) _ _ _ E1 QQ) as [A1 A2]. rename a into ws1.
  (* the inverse of the root is in the second star *)
  assert (ROOT : forall w, wv ws1 (sBegin s1) = Some w -> inR s2 (wInv w)).
  { rewrite (range_cons (sBegin s1) (sEnd s1) HL) in E1. cbn [assignAll] in E1. inv_bind E1. rename a into wsa.
    destruct (QQ (sBegin s1) ltac:(apply range_in; lia)) as [Q1 Q2].
    destruct (assignInv_ok _ _ _ _ _ _ E2 (inR s2) Q1 Q2) as [B1 B2].
    destruct (assignAll_ok m _ _ (inR s2) _ _ _ E1) as [C1 C2].
    { intros j Hj. apply QQ. apply range_in in Hj. apply range_in. lia. }
    intros w Hw. destruct (wv ws (sBegin s1)) as [w0|] eqn:Ew0.
    - destruct (B2 _ _ Ew0) as [wa [D1 [_ [D2 _]]]]. destruct (C2 _ _ D1) as [wb [F1 [_ F2]]]. rewrite Hw in F1. injection F1 as <-.
      rewrite F2; [apply D2; auto; destruct (HU _ w0 (or_introl (conj (Z.le_refl _) HL)) Ew0) as [_ ->]; lia| |apply DIS; unfold inR; lia].
      rewrite range_in. lia.
    - apply wv_range in Hw. unfold wv in Ew0. destruct (Z.ltb_spec (sBegin s1) 0); [lia|]. apply nth_error_None in Ew0. lia. }
  assert (OUT : forall i, ~ inR s1 i -> ~ inR s2 i -> wv ws1 i = wv ws i).
  { intros i Hi Hi2. destruct (wv ws i) as [w|] eqn:Ew.
    - destruct (A2 i w Ew) as [w' [B1 [B2 B3]]]. rewrite B1. f_equal. apply B3; auto. rewrite range_in. exact Hi.
    - destruct (wv ws1 i) as [w'|] eqn:Ew'; auto. apply wv_range in Ew'. unfold wv in Ew. destruct (Z.ltb_spec i 0); [lia|]. apply nth_error_None in Ew. lia. }
  assert (IN : forall i w, inR s1 i \/ inR s2 i -> wv ws1 i = Some w -> unitary w).
  { intros i w Hi Hw. destruct (wv ws i) as [w0|] eqn:Ew.
    - destruct (A2 i w0 Ew) as [w' [B1 [B2 _]]]. rewrite B1 in Hw. injection Hw as <-. unfold unitary. rewrite B2. exact (proj1 (HU i w0 Hi Ew)).
    - apply wv_range in Hw. unfold wv in Ew. destruct (Z.ltb_spec i 0); [lia|]. apply nth_error_None in Ew. lia. }
  inv_bind H. inv_check H. inv_bind H. inv_bind H. apply at1_wv in E4, E5. rename a0 into root, a1 into part.
  cbn [withBz sCancel] in H.
  assert (RI : inR s1 (sBegin s1)) by (unfold inR; lia). pose proof (IN _ _ (or_introl RI) E4) as RU.
  pose proof (ROOT _ E4) as PI.
  destruct (sCancel s1) eqn:EC.
  - inv_bind H. inv_bind H. injection H as <- <- <-. apply (modWaves_in s1) in E6. apply (modWaves_in s2) in E7.
    destruct E6 as [F1 [F2 F3]], E7 as [G1 [G2 G3]]. split; [congruence|]. split; [repeat split|]. split; [repeat split|]. split; [congruence|]. split; [|discriminate].
    intros i N1 N2. rewrite G3, F3, OUT; auto.
  - inv_bind H. inv_bind H. inv_bind H. injection H as <- <- <-. apply (modWaves_in s1) in E6. apply (modWaves_in s2) in E8. apply at1_wv in E7.
    destruct E6 as [F1 [F2 F3]], E8 as [G1 [G2 G3]]. split; [congruence|]. split; [repeat split|]. split; [repeat split|]. split; [congruence|].
    split; [intros i N1 N2; rewrite G3, F3, OUT; auto|].
    assert (N1 : ~ inR s1 (wInv root)) by (intros X; apply (DIS _ X PI)). rewrite F3 in E7 by auto. pose proof (IN _ _ (or_intror PI) E7) as PU.
    intros _ i w Hi Hw. enough (9 / 10 <= Cmod (wCoeff w))%R by lra. destruct Hi as [Hi|Hi].
    + rewrite G3, F2 in Hw by auto. destruct (wv ws1 i) as [w0|] eqn:Ew; [|discriminate]. injection Hw as <-. cbn [withCoeff wCoeff].
      apply div_low; [apply (IN i w0 (or_introl Hi) Ew)|exact RU].
    + rewrite G2 in Hw by auto. assert (NI : ~ inR s1 i) by (intros X; apply (DIS _ X Hi)). rewrite F3 in Hw by auto.
      destruct (wv ws1 i) as [w0|] eqn:Ew; [|discriminate]. injection Hw as <-. cbn [withCoeff wCoeff].
      apply div_low; [apply (IN i w0 (or_intror Hi) Ew)|exact PU].
Qed.
Lemma sameStar_refl : forall s, sameStar s s. Proof. repeat split. Qed.
Lemma sameStar_bz : forall s s' v, sameStar (withBz s v) s' -> sameStar s s'. Proof. intros s s' v H. exact H. Qed.
Lemma pairs_after : forall iw l, pairs iw l -> forall s, In s l -> iw <= sBegin s /\ sBegin s < sEnd s.
Proof.
  induction 1 as [|iw s r F B L S P IH|iw s1 s2 r F1 F2 B1 L B2 S1 S2 S3 P IH]; intros s0 Hin.
  - destruct Hin.
  - destruct Hin as [<-|Hin]; [lia|]. specialize (IH _ Hin). lia.
  - destruct Hin as [<-|[<-|Hin]]; [lia|lia|]. specialize (IH _ Hin). lia.
Qed.

Lemma doStars_ok : forall m iw l, pairs iw l -> forall ws ahead ws' l', doStars m ws ahead l = Ok (ws', l') ->
  (forall i w, iw <= i -> wv ws i = Some w -> unitary w /\ wInv w = -1) ->
  length ws' = length ws /\ Forall2 sameStar l l' /\ (forall i, i < iw -> wv ws' i = wv ws i) /\
  (forall s i w, In s l -> sCancel s = false -> inR s i -> wv ws' i = Some w -> (8 / 10 <= Cmod (wCoeff w))%R).
Proof.
  intros m. induction 1 as [iw|iw s r F B L S P IH|iw s1 s2 r F1 F2 B1 L B2 S1 S2 S3 P IH]; intros ws ahead ws' l' H HU.
  - cbn [doStars] in H. injection H as <- <-. repeat split; auto. intros s i w [].
  - cbn [doStars] in H. set (s0 := match ahead with Some v => withBz s v | None => s end) in H.
    assert (SS : sameStar s s0) by (unfold s0; destruct ahead; repeat split).
    destruct SS as [SS1 [SS2 [SS3 [SS4 SS5]]]]. rewrite SS4, F in H. cbn [Z.eqb] in H. inv_bind H. destruct a as [ws1 s1]. cbn [fst snd] in H.
    inv_bind H. destruct a as [ws2 l2]. cbn [fst snd] in H. injection H as <- <-.
    assert (IR : forall i, inR s0 i <-> inR s i) by (intros; unfold inR; rewrite SS2, SS3; tauto).
    apply closedStar_ok in E; [|rewrite SS2, SS3; lia|intros i w Hi Hw; apply IR in Hi; destruct (HU i w ltac:(unfold inR in Hi; lia) Hw); auto].
    destruct E as [A1 [A2 [A3 A4]]].
    destruct (IH _ _ _ _ E0) as [C1 [C2 [C3 C4]]].
    { intros i w Hi Hw. apply HU with (i := i); [lia|]. rewrite <- A3; auto. rewrite IR. unfold inR. lia. }
    split; [congruence|]. split; [constructor; auto; unfold sameStar in *; intuition congruence|]. split.
    + intros i Hi. rewrite C3 by lia. apply A3. rewrite IR. unfold inR. lia.
    + intros s' i w [<-|Hin] HC Hi Hw.
      * rewrite C3 in Hw by (unfold inR in Hi; lia). apply (A4 ltac:(congruence) i w); auto. apply IR. auto.
      * apply (C4 s' i w); auto.
  - cbn [doStars] in H. set (s0 := match ahead with Some v => withBz s1 v | None => s1 end) in H.
    assert (SS : sameStar s1 s0) by (unfold s0; destruct ahead; repeat split).
    destruct SS as [SS1 [SS2 [SS3 [SS4 SS5]]]]. rewrite SS4, F1 in H. cbn [Z.eqb Pos.eqb] in H. inv_bind H. destruct a as [[ws1 s1'] s2']. cbn [fst snd] in H.
    cbn [withBz sFlag] in H. rewrite F2 in H. cbn [Z.eqb Pos.eqb] in H. inv_bind H. inv_bind E0. destruct a0 as [ws2 l2]. injection E0 as <-. cbn [fst snd] in H. injection H as <- <-.
    assert (IR : forall i, inR s0 i <-> inR s1 i) by (intros; unfold inR; rewrite SS2, SS3; tauto).
    apply openStars_ok in E; [|rewrite SS2, SS3; lia|congruence|rewrite SS2, SS3; lia|intros i w Hi Hw; rewrite IR in Hi; apply HU with (i := i); auto; unfold inR in Hi; lia].
    destruct E as [A1 [A2 [A3 [A4 [A5 A6]]]]].
    destruct (IH _ _ _ _ E1) as [C1 [C2 [C3 C4]]].
    { intros i w Hi Hw. apply HU with (i := i); [lia|]. rewrite <- A5; auto; rewrite ?IR; unfold inR; lia. }
    split; [congruence|]. split.
    { constructor; [unfold sameStar in *; intuition congruence|]. constructor; auto. repeat split. }
    split.
    + intros i Hi. rewrite C3 by lia. apply A5; rewrite ?IR; unfold inR; lia.
    + intros s' i w Hin HC Hi Hw. destruct Hin as [<-|[<-|Hin]].
      * rewrite C3 in Hw by (unfold inR in Hi; lia). apply (A6 ltac:(congruence) i w); auto. left. apply IR. auto.
      * rewrite C3 in Hw by (unfold inR in Hi; lia). apply (A6 ltac:(congruence) i w); auto.
      * apply (C4 s' i w); auto.
Qed.

(** ** Norms and numbers *)
Inductive chain : Z -> list star -> Prop :=
| chain_nil : forall iw, chain iw []
| chain_cons : forall iw s r, iw <= sBegin s -> sBegin s < sEnd s -> chain (sEnd s) r -> chain iw (s :: r).
Lemma pairs_chain : forall iw l, pairs iw l -> chain iw l.
Proof. induction 1; repeat (constructor; try lia); auto. Qed.
Lemma chain_same : forall l l' iw, Forall2 sameStar l l' -> chain iw l -> chain iw l'.
Proof.
  intros l l' iw H. revert iw. induction H as [|s s' l l' [S1 [S2 [S3 _]]] F IH]; intros iw C; [constructor|].
  inversion C; subst. constructor; rewrite ?S2, ?S3; auto.
Qed.
Definition snorm (s : star) : R := (1 / sqrt (IZR (sSize s)))%R.
Lemma normStars_ok : forall l iw, chain iw l -> forall i ws ws', normStars ws i l = Ok ws' ->
  length ws' = length ws /\ (forall j, j < iw -> wv ws' j = wv ws j) /\
  (forall s j w', In s l -> inR s j -> wv ws' j = Some w' -> exists w, wv ws j = Some w /\ wCoeff w' = Cmult (wCoeff w) (RtoC (snorm s))).
Proof.
  induction 1 as [iw|iw s r B L P IH]; intros i ws ws' H; cbn [normStars] in H.
  - injection H as <-. repeat split; auto. intros s j w' [].
  - inv_bind H. apply (modWaves_in s) in E. destruct E as [A1 [A2 A3]]. destruct (IH _ _ _ H) as [C1 [C2 C3]].
    split; [congruence|]. split.
    + intros j Hj. rewrite C2 by lia. apply A3. unfold inR. lia.
    + intros s' j w' Hin Hj Hw'. destruct Hin as [<-|Hin].
      * rewrite C2, A2 in Hw' by (auto; unfold inR in Hj; lia). destruct (wv ws j) as [w|]; [|discriminate]. exists w. split; auto. injection Hw' as <-. reflexivity.
      * destruct (C3 s' j w' Hin Hj Hw') as [w [E1 E2]]. exists w. split; auto. rewrite A3 in E1; auto.
        assert (G : forall l iw, chain iw l -> forall s, In s l -> iw <= sBegin s).
        { clear. induction 1; intros s' Hs; [destruct Hs|]. destruct Hs as [<-|Hs]; auto. apply IHchain in Hs. lia. }
        specialize (G _ _ P s' Hin). unfold inR in *. lia.
Qed.
Lemma mapM_ok : forall A B (f : A -> outcome B) l l', mapM f l = Ok l' -> length l' = length l /\
  forall j y, wv l' j = Some y -> exists x, wv l j = Some x /\ f x = Ok y.
Proof.
  induction l as [|a l IH]; intros l' H; cbn [mapM] in H.
  - injection H as <-. split; auto. intros j y Hy. apply wv_range in Hy. cbn [length] in Hy. lia.
  - inv_bind H. inv_bind H. injection H as <-. destruct (IH _ E0) as [H1 H2]. split; [cbn [length]; congruence|].
    intros j y Hy. unfold wv in *. destruct (Z.ltb_spec j 0); [discriminate|]. destruct (Z.to_nat j) as [|n] eqn:En; cbn [nth_error] in *.
    + injection Hy as <-. eauto.
    + specialize (H2 (Z.of_nat n) y). destruct (Z.ltb_spec (Z.of_nat n) 0); [lia|]. rewrite Nat2Z.id in H2. auto.
Qed.
Lemma numberStars_ok : forall l nb i j l' ids, numberStars nb i j l = Ok (l', ids) ->
  Forall2 sameStar l l' /\ nb = j + countB l' /\
  (forall done s r, l' = done ++ s :: r -> sBasis s = if sCancel s then -1 else j + countB done).
Proof.
  induction l as [|s l IH]; intros nb i j l' ids H; cbn [numberStars] in H.
  - inv_check H. apply Z.eqb_eq in E. injection H as <- <-. split; [constructor|]. split; [cbn; lia|]. intros done s r E0. destruct done; discriminate.
  - destruct (sCancel s) eqn:EC.
    + inv_bind H. destruct a as [l2 ids2]. injection H as <- <-. destruct (IH _ _ _ _ _ E) as [A1 [A2 A3]]. cbn [fst snd].
      split; [constructor; auto; unfold sameStar; cbn; intuition congruence|]. split; [cbn [countB sCancel]; rewrite ?EC; lia|].
      intros done s' r E0. destruct done as [|d done]; cbn [app] in E0; injection E0 as <- E0.
      * cbn [sBasis sCancel]. rewrite ?EC. auto.
      * rewrite (A3 _ _ _ E0). cbn [countB sCancel]. rewrite ?EC. destruct (sCancel s'); lia.
    + inv_check H. inv_bind H. destruct a as [l2 ids2]. injection H as <- <-. destruct (IH _ _ _ _ _ E0) as [A1 [A2 A3]]. cbn [fst snd].
      split; [constructor; auto; unfold sameStar; cbn; intuition congruence|]. split; [cbn [countB sCancel]; rewrite ?EC; lia|].
      intros done s' r E1. destruct done as [|d done]; cbn [app] in E1; injection E1 as <- E1.
      * cbn [sBasis sCancel]. rewrite ?EC. cbn [countB]. lia.
      * rewrite (A3 _ _ _ E1). cbn [countB sCancel]. rewrite ?EC. destruct (sCancel s'); lia.
Qed.

(** ** Blocks *)
Lemma setInsert_ne : forall w l, setInsert w l <> [].
Proof. intros w [|x l]; cbn; [discriminate|]. destruct (vLt _ _); [discriminate|]. destruct (vLt _ _); discriminate. Qed.
Section Blocks.
Variables (ksqOf : list Z -> R) (smin : list Z -> list Z) (m : mesh) (group : list symm).
Lemma starOf_ne : forall root g star cancel r, starOf ksqOf smin m root g star cancel = Ok r -> g <> [] \/ star <> [] -> fst r <> [].
Proof.
  induction g as [|s g IH]; intros star cancel r H HN; cbn [starOf] in H.
  - injection H as <-. cbn [fst]. destruct HN; auto.
  - inv_check H. destruct (setFind _ star) as [w0|] eqn:EF.
    + apply IH in H; auto. right. intros ->. discriminate.
    + apply IH in H; auto. right. apply setInsert_ne.
Qed.
Lemma oneStar_pos : forall n k root k', group <> [] -> oneStar ksqOf smin m group n k root = Ok k' -> Forall (fun s => 0 < sSize s) (kStars k) -> Forall (fun s => 0 < sSize s) (kStars k').
Proof.
  intros n k root k' HG H HP. unfold oneStar in H. inv_bind H. destruct a as [st c]. apply starOf_ne in E; [|left; auto]. cbn [fst snd] in *. inv_check H.
  assert (L : 0 < Z.of_nat (length st)) by (destruct st; [contradiction|cbn [length]; lia]).
  destruct (kNext k =? -1); [injection H as <-; constructor; auto|].
  destruct (existsb _ st); [injection H as <-; constructor; auto|]. destruct (find _ _); [|discriminate]. injection H as <-. constructor; auto.
Qed.
Lemma starLoop_pos : forall fuel n k k', group <> [] -> starLoop ksqOf smin m group fuel n k = Ok k' -> Forall (fun s => 0 < sSize s) (kStars k) -> Forall (fun s => 0 < sSize s) (kStars k').
Proof.
  induction fuel as [|fuel IH]; intros n k k' HG H HP; cbn [starLoop] in H; destruct (kList k).
  - injection H as <-. auto.
  - discriminate.
  - injection H as <-. auto.
  - destruct (kRoot k) as [root|]; [|discriminate]. inv_bind H. eapply IH; eauto. eapply oneStar_pos; eauto.
Qed.
Lemma doBlocks_ok : forall fuel ls begin nb nbw ss ws n, group <> [] -> doBlocks ksqOf smin m group fuel ls begin nb nbw = Ok (ss, ws, n) ->
  length ws = length (concat ls) /\ Forall (fun s => 0 < sSize s) ss /\ Forall (fun w => unitary w /\ wInv w = -1) ws.
Proof.
  induction ls as [|lw ls IH]; intros begin nb nbw ss ws n HG H; cbn [doBlocks] in H.
  - injection H as <- <- <-. repeat split; constructor.
  - inv_bind H. destruct a as [[s1 w1] [[begin' nb'] nbw']]. inv_bind H. destruct a as [[s2 w2] n']. injection H as <- <- <-.
    destruct (IH _ _ _ _ _ _ HG E0) as [A1 [A2 A3]]. unfold doBlock in E. inv_bind E. inv_check E. apply Nat.eqb_eq in E2. injection E as <- <- _ _ _.
    cbn [concat]. rewrite !app_length, map_length, A1. split; [congruence|]. split.
    + apply Forall_app. split; auto. apply Forall_rev. eapply starLoop_pos; eauto. constructor.
    + apply Forall_app. split; auto. apply Forall_forall. intros w Hw. apply in_map_iff in Hw. destruct Hw as [t [<- _]]. split; [apply coeffOf_unit|reflexivity].
Qed.
Lemma lists_concat : forall l g cur, concat (lists g cur l) = rev cur ++ l.
Proof.
  induction l as [|w l IH]; intros g cur; cbn [lists].
  - reflexivity.
  - destruct (Rlt_dec _ _); cbn [concat]; rewrite IH; cbn [rev app]; auto. rewrite <- app_assoc. reflexivity.
Qed.
End Blocks.

(** ** The result *)
Lemma pairs_of_layout : forall nw nb is iw ib l', layout nw nb is iw ib l' -> forall l, Forall2 sameStar l l' -> pairs iw l.
Proof.
  induction 1 as [is|is iw ib s r F St B E EW SZ BI L IH|is iw ib s1 s2 r F1 F2 St1 St2 C B1 E1 B2 SZ1 SZ2 SZ3 E2 BI1 BI2 L IH]; intros l HF.
  - inversion HF. constructor.
  - inversion HF as [|x y xs ys [S1 [S2 [S3 [S4 S5]]]] HF' e1 e2]; subst. apply pairs_closed; try lia; try congruence. rewrite <- S3. apply IH; auto.
  - inversion HF as [|x y xs ys [S1 [S2 [S3 [S4 S5]]]] HF' e1 e2]; subst. inversion HF' as [|x' y' xs' ys' [T1 [T2 [T3 [T4 T5]]]] HF'' e1' e2']; subst.
    apply pairs_open; try lia; try congruence. rewrite <- T3. apply IH; auto.
Qed.
Lemma Forall2_trans_same : forall l1 l2 l3, Forall2 sameStar l1 l2 -> Forall2 sameStar l2 l3 -> Forall2 sameStar l1 l3.
Proof.
  intros l1 l2 l3 H. revert l3. induction H as [|a c l1 l2 Hac H IH]; intros l3 H3; inversion H3; subst; constructor; auto.
  unfold sameStar in *. intuition congruence.
Qed.
Lemma Forall2_in_r : forall l1 l2, Forall2 sameStar l1 l2 -> forall y, In y l2 -> exists x, In x l1 /\ sameStar x y.
Proof.
  induction 1 as [|a c l1 l2 Hac H IH]; intros y Hy; [destruct Hy|]. destruct Hy as [<-|Hy]; [exists a; split; auto; left; auto|].
  destruct (IH _ Hy) as [x [X1 X2]]. exists x. split; auto. right; auto.
Qed.


Lemma assignAll_len : forall m e f js ws ws', assignAll m e f js ws = Ok ws' -> length ws' = length ws.
Proof. intros m e f js ws ws' H. apply (assignAll_ok m e f (fun _ => True) js ws ws' H). auto. Qed.
Lemma modWaves_len : forall l ws f ws', modWaves ws l f = Ok ws' -> length ws' = length ws.
Proof.
  induction l as [|j l IH]; intros ws f ws' H; cbn [modWaves] in H; [injection H as <-; auto|].
  inv_bind H. apply modWave_ok in E. apply IH in H. destruct E as [E _]. congruence.
Qed.
Lemma closedStar_shape : forall m ws s ws' s', closedStar m ws s = Ok (ws', s') -> length ws' = length ws /\ sameStar s s'.
Proof.
  intros m ws s ws' s' H. unfold closedStar in H. inv_bind H. apply assignAll_len in E. inv_bind H. cbn [withBz sCancel sBegin sEnd] in H.
  destruct (sCancel s).
  - inv_bind H. apply modWaves_len in E1. injection H as <- <-. split; [congruence|repeat split].
  - inv_bind H. apply modWaves_len in E1. inv_bind H. inv_check H. inv_check H.
    destruct (wInv _ =? sBegin s); [injection H as <- <-; split; [congruence|repeat split]|].
    inv_bind H. inv_check H. destruct (Rlt_dec _ _); [|injection H as <- <-; split; [congruence|repeat split]].
    inv_bind H. apply modWaves_len in E7. injection H as <- <-. split; [congruence|repeat split].
Qed.
Lemma openStars_shape : forall m ws s1 s2 ws' s1' s2', openStars m ws s1 s2 = Ok (ws', s1', s2') -> length ws' = length ws /\ sameStar s1 s1' /\ sameStar s2 s2'.
Proof.
  intros m ws s1 s2 ws' s1' s2' H. unfold openStars in H. inv_check H. inv_check H. inv_bind H. apply assignAll_len in E1. inv_bind H. inv_check H. inv_bind H. inv_bind H.
  cbn [withBz sCancel sBegin sEnd] in H. destruct (sCancel s1).
  - inv_bind H. apply modWaves_len in E6. inv_bind H. apply modWaves_len in E7. injection H as <- <- <-. split; [congruence|split; repeat split].
  - inv_bind H. apply modWaves_len in E6. inv_bind H. inv_bind H. apply modWaves_len in E8. injection H as <- <- <-. split; [congruence|split; repeat split].
Qed.
Lemma doStars_shape : forall m l ws ahead ws' l', doStars m ws ahead l = Ok (ws', l') -> length ws' = length ws /\ Forall2 sameStar l l'.
Proof.
  induction l as [|s l IH]; intros ws ahead ws' l' H; cbn [doStars] in H; [injection H as <- <-; split; auto|].
  set (s0 := match ahead with Some v => withBz s v | None => s end) in H.
  assert (SS : sameStar s s0) by (unfold s0; destruct ahead; repeat split).
  destruct (sFlag s0 =? 0).
  - inv_bind H. destruct a as [ws1 s1]. apply closedStar_shape in E. inv_bind H. destruct a as [ws2 l2]. apply IH in E0. injection H as <- <-. cbn [fst snd] in *.
    destruct E, E0. split; [congruence|]. constructor; auto. unfold sameStar in *. intuition congruence.
  - destruct (sFlag s0 =? 1).
    + destruct l as [|s2 l0]; [discriminate|]. inv_bind H. destruct a as [[ws1 s1'] s2']. apply openStars_shape in E.
      inv_bind H. destruct a as [ws2 l2]. apply IH in E0. injection H as <- <-. cbn [fst snd] in *.
      destruct E as [E1 [E2 _]], E0. split; [congruence|]. constructor; auto. unfold sameStar in *. intuition congruence.
    + inv_bind H. destruct a as [ws2 l2]. apply IH in E. injection H as <- <-. cbn [fst snd] in *. destruct E. split; auto.
Qed.
Lemma normStars_len : forall l i ws ws', normStars ws i l = Ok ws' -> length ws' = length ws.
Proof.
  induction l as [|s l IH]; intros i ws ws' H; cbn [normStars] in H; [injection H as <-; auto|].
  inv_bind H. apply modWaves_len in E. apply IH in H. congruence.
Qed.
Lemma norm_low : forall s (c : C), 0 < sSize s -> sSize s <= 2^31 -> (8 / 10 <= Cmod c)%R -> (1 / 10^7 < Cmod (Cmult c (RtoC (snorm s))))%R.
Proof.
  intros s c H1 H2 HC. rewrite Cmod_mult, Cmod_R. unfold snorm.
  assert (P : (0 < IZR (sSize s))%R) by (apply IZR_lt; lia). assert (U : (IZR (sSize s) <= 2147483648)%R) by (apply IZR_le; lia).
  assert (SP : (0 < sqrt (IZR (sSize s)))%R) by (apply sqrt_lt_R0; auto).
  assert (SU : (sqrt (IZR (sSize s)) <= 46341)%R).
  { rewrite <- (sqrt_square 46341) by lra. apply sqrt_le_1_alt. lra. }
  rewrite Rabs_pos_eq by (apply Rlt_le, Rdiv_lt_0_compat; lra).
  assert (L : (1 / 46341 <= 1 / sqrt (IZR (sSize s)))%R).
  { unfold Rdiv. rewrite !Rmult_1_l. apply Rinv_le_contravar; auto. }
  assert (1 / 46341 > 1 / 50000)%R by lra. assert (8 / 10 * (1 / 50000) > 1 / 10^7)%R by lra. nra.
Qed.

Theorem makeBasis_good : forall ksqOf smin sortNorm m group fuel junk b,
  dimensions m <> [] -> setDimensions (dimensions m) = Ok m -> size m < 2^31 -> group <> [] ->
  (forall l, Permutation (sortNorm l) l) ->
  makeBasis ksqOf smin sortNorm m group fuel junk = Ok b -> goodBasis b /\ bMesh b = m /\ nearConjugate b /\ indexed b.
Proof.
  intros ksqOf smin sortNorm m group fuel junk b Hne Hm Hsz HG Hsort H. unfold makeBasis in H. inv_bind H. clear a E. inv_bind H. rename a into tw. rename E into Etw.
  assert (LT : Z.of_nat (length tw) = size m).
  { unfold makeWaves in Etw. inv_bind Etw. injection Etw as <-. rewrite (Permutation_length (Hsort _)), !map_length.
    destruct (mesh_iterator_visits_all_in_order _ m (Z.to_nat (size m)) Hne Hm) as [I1 _]. rewrite I1 in E by lia. injection E as <-.
    unfold zseq. rewrite !map_length, seq_length. destruct (mesh_rank_position_bijection _ _ Hne Hm) as [_ [S _]].
    assert (PO : positive (dimensions m)) by (apply (proj1 (mesh_constructible _ Hne)); eauto).
    pose proof (prodZ_pos _ PO). lia. }
  destruct tw as [|w0 r0]; [discriminate|]. inv_bind H. destruct a as [[ss ws] [nb nbw]].
  apply doBlocks_ok in E; auto. rewrite lists_concat in E. destruct E as [A1 [A2 A3]].
  assert (A1' : Z.of_nat (length ws) = size m) by (rewrite A1; exact LT). clear A1.
  inv_bind H. destruct a as [ws1 ss1]. pose proof (doStars_shape _ _ _ _ _ _ E) as [B1 B2]. inv_bind H. rename a into ws2. pose proof (normStars_len _ _ _ _ E0) as B3.
  inv_bind H. rename a into ws3. pose proof (mapM_ok _ _ _ _ _ E1) as [B4 B5]. inv_bind H. rename a into ids. inv_bind H. destruct a as [ss2 sids].
  pose proof (numberStars_ok _ _ _ _ _ _ E3) as [N1 [N2 N3]]. inv_bind H. inv_check H. subst a. injection H as <-.
  pose proof (Forall2_trans_same _ _ _ B2 N1) as SAME.
  set (bf := fun i => mkBasis m ws3 ss2 ids sids (size m) nbw (Z.of_nat (length ss2)) nb i) in *.
  assert (HV : isValid ksqOf smin (bf true) = Ok true) by (rewrite <- E4; exact (isValid_init ksqOf smin (bf false) true)).
  assert (Hnw : Z.of_nat (length (bWaves (bf true))) = size (bMesh (bf true))) by (cbn [bf bWaves bMesh]; rewrite B4, B3, B1; exact A1').
  assert (Hpos : forall s, In s (bStars (bf true)) -> 0 < sSize s).
  { intros s Hs. destruct (Forall2_in_r _ _ SAME _ Hs) as [x [X1 [X2 _]]]. rewrite X2. rewrite Forall_forall in A2. auto. }
  assert (Hnum : forall done s r, bStars (bf true) = done ++ s :: r -> sBasis s = if sCancel s then -1 else countB done).
  { intros done s r Hd. rewrite (N3 _ _ _ Hd). destruct (sCancel s); auto. }
  split; [|split; [reflexivity|split; [apply (valid_conjugate ksqOf smin (bf true)); auto|apply (valid_indexed ksqOf smin (bf true)); auto]]].
  apply (valid_good ksqOf smin (bf true)); auto.
  - intros w Hw. apply In_nth_error in Hw. destruct Hw as [k Hk].
    destruct (B5 (Z.of_nat k) w) as [x [X1 X2]]. { unfold wv. destruct (Z.ltb_spec (Z.of_nat k) 0); [lia|]. rewrite Nat2Z.id. exact Hk. }
    unfold finishWave in X2. inv_check X2. injection X2 as <-. cbn [wImplicit wDft]. unfold lastZ. rewrite Z.ltb_lt. cbn [bf bMesh]. lia.
  - destruct (v_layout ksqOf smin (bf true) HV Hnw eq_refl Hpos Hnum N2 (Z.to_nat (bNStar (bf true))) 0 (bStars (bf true)) []) as [LAY _];
      [apply (v_parts ksqOf smin (bf true) HV)|reflexivity|reflexivity|].
    rewrite (start_zero ksqOf smin (bf true) HV) in LAY by auto.
    pose proof (pairs_of_layout _ _ _ _ _ _ LAY _ SAME) as PA.
    destruct (doStars_ok _ _ _ PA _ _ _ _ E) as [_ [_ [_ D4]]].
    { intros i w _ Hw. rewrite Forall_forall in A3. apply A3. unfold wv in Hw. destruct (i <? 0); [discriminate|]. eapply nth_error_In; eauto. }
    pose proof (chain_same _ _ _ B2 (pairs_chain _ _ PA)) as CH.
    destruct (normStars_ok _ _ CH _ _ _ E0) as [_ [_ M3]].
    intros is s i w Hs Hw Hst HC. destruct (v_wave ksqOf smin (bf true) HV Hnw i w Hw) as [s' [_ [_ [V1 [V2 _]]]]].
    rewrite Hst in V1. rewrite (sAt_fun _ _ _ _ V1 Hs) in V2. clear V1.
    assert (Hin : In s ss2) by (eapply nth_error_In; apply Hs).
    destruct (Forall2_in_r _ _ N1 _ Hin) as [s1 [I1 [J1 [J2 [J3 [J4 J5]]]]]]. destruct (Forall2_in_r _ _ B2 _ I1) as [s0 [I0 [K1 [K2 [K3 [K4 K5]]]]]].
    assert (Ww : wv ws3 i = Some w). { unfold wv. destruct Hw as [Hw1 Hw2]. destruct (Z.ltb_spec i 0); [lia|]. exact Hw2. }
    destruct (B5 _ _ Ww) as [x [X1 X2]]. unfold finishWave in X2. inv_check X2. injection X2 as <-. cbn [wCoeff].
    apply tidy_low. destruct (M3 s1 i x I1) as [y [Y1 Y2]]; auto. { unfold inR. rewrite <- J2, <- J3. exact V2. }
    rewrite Y2. pose proof (v_le ksqOf smin (bf true) HV Hnw eq_refl Hpos is s Hs) as LE.
    pose proof (v_star ksqOf smin (bf true) HV eq_refl is s Hs) as [SZ _]. cbn [bf bMesh] in LE.
    assert (S0 : 0 <= sBegin s). { rewrite J2, K2. apply (pairs_after _ _ PA s0 I0). }
    apply norm_low; [rewrite <- J1; lia|rewrite <- J1; lia|]. apply (D4 s0 i y I0); auto; [congruence|].
    unfold inR. rewrite <- K2, <- K3, <- J2, <- J3. exact V2.
Qed.

(** ** Phases *)
Lemma reduceDown_ok : forall fuel x, (x - 1 / 2 < INR fuel)%R ->
  exists k, 0 <= k /\ reduceDown (S fuel) x = Ok (x - IZR k)%R /\ (x - IZR k <= 1 / 2)%R /\ (k = 0 \/ (- (1 / 2) < x - IZR k)%R).
Proof.
  induction fuel as [|fuel IH]; intros x Hx.
  - cbn in Hx. exists 0. cbn [reduceDown]. destruct (Rlt_dec (1 / 2) x); [lra|]. rewrite Rminus_0_r. repeat split; auto; lra || lia.
  - rewrite S_INR in Hx. remember (S fuel) as f. cbn [reduceDown]. destruct (Rlt_dec (1 / 2) x) as [L|L].
    + destruct (IH (x - 1)%R ltac:(lra)) as [k [K0 [K1 [K2 K3]]]]. exists (k + 1). rewrite plus_IZR. replace (x - (IZR k + 1))%R with (x - 1 - IZR k)%R by ring.
      repeat split; auto; try lia. right. destruct K3 as [->|K3]; lra.
    + exists 0. rewrite Rminus_0_r. repeat split; auto; lra || lia.
Qed.
Lemma reduceUp_ok : forall fuel x, (- x - 1 / 2 < INR fuel)%R -> (x <= 1 / 2)%R ->
  exists k, reduceUp (S fuel) x = Ok (x + IZR k)%R /\ (- (1 / 2) < x + IZR k <= 1 / 2)%R.
Proof.
  induction fuel as [|fuel IH]; intros x Hx HL.
  - cbn in Hx. exists 0. cbn [reduceUp]. destruct (Rle_dec x (- (1 / 2))); [lra|]. rewrite Rplus_0_r. repeat split; auto; lra.
  - rewrite S_INR in Hx. remember (S fuel) as f. cbn [reduceUp]. destruct (Rle_dec x (- (1 / 2))) as [L|L].
    + destruct (IH (x + 1)%R ltac:(lra) ltac:(lra)) as [k [K1 K2]]. exists (k + 1). rewrite plus_IZR. replace (x + (IZR k + 1))%R with (x + 1 + IZR k)%R by ring. auto.
    + exists 0. rewrite Rplus_0_r. repeat split; auto; lra.
Qed.
Lemma reduce_range : forall x, (- (1 / 2) < reduce x <= 1 / 2)%R.
Proof. intros x. unfold reduce. destruct (base_Int_part (1 / 2 - x)). lra. Qed.
Lemma reduce_unique : forall x k, (- (1 / 2) < x + IZR k <= 1 / 2)%R -> reduce x = (x + IZR k)%R.
Proof.
  intros x k H. pose proof (reduce_range x) as R. unfold reduce in *. set (i := Int_part (1 / 2 - x)) in *.
  assert (A : (IZR i < IZR (k + 1))%R) by (rewrite plus_IZR; lra). assert (B : (IZR k < IZR (i + 1))%R) by (rewrite plus_IZR; lra).
  apply lt_IZR in A, B. replace i with k by lia. reflexivity.
Qed.
(** The loops of lines 437-442 end, and leave what [reduce] says. *)
Lemma reduceLoop_ok : forall fuel x, (Rabs x < INR fuel)%R -> reduceLoop (S fuel) x = Ok (reduce x).
Proof.
  intros fuel x H. assert (B : (- INR fuel < x < INR fuel)%R) by (split; [pose proof (Rle_abs (- x)); rewrite Rabs_Ropp in *|pose proof (Rle_abs x)]; lra).
  unfold reduceLoop. destruct (reduceDown_ok fuel x ltac:(lra)) as [k [K0 [K1 [K2 K3]]]]. rewrite K1. cbn [bind].
  destruct (reduceUp_ok fuel (x - IZR k)) as [j [J1 J2]]; auto.
  { destruct K3 as [->|K3]; [lra|]. pose proof (pos_INR fuel). lra. }
  rewrite J1. f_equal. replace (x - IZR k + IZR j)%R with (x + IZR (j - k))%R in * by (rewrite minus_IZR; ring). symmetry. apply reduce_unique. auto.
Qed.
