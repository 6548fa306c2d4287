(** Where the waves and coefficients of the stars built by makeBasis come from. *)
From Coq Require Import ZArith QArith Qcanon Qreals Reals Lra Lia List Bool Sorting.Permutation.
From Coquelicot Require Import Complex.
From Verif Require Import Base RSum MeshSpec Mesh MeshProofs PropsMesh Fft FftProofs FieldIo Symmetry SymmetryProofs SymmetryAlg PropsSymmetry Basis BasisSpec BasisProofs BasisValid MakeBasis MakeBasisProofs OrbitSpec OrbitPhase.
From Coq Require Import List.
Import ListNotations.
Local Open Scope Z_scope.
Local Open Scope list_scope.

(** ** Sets of waves *)
Lemma vLt_eq : forall a b, length a = length b -> vLt a b = false -> vLt b a = false -> a = b.
Proof.
  induction a as [|x a IH]; intros [|y b] HL H1 H2; try discriminate HL; auto. cbn [vLt] in *.
  destruct (Z.gtb_spec x y), (Z.ltb_spec x y), (Z.gtb_spec y x), (Z.ltb_spec y x); try lia; try discriminate. f_equal; [lia|]. apply IH; auto.
Qed.
Lemma vLt_irrefl : forall a, vLt a a = false.
Proof. induction a as [|x a IH]; cbn [vLt]; auto. destruct (Z.gtb_spec x x); auto. destruct (Z.ltb_spec x x); auto; lia. Qed.
Lemma setInsert_in : forall w l x, In x (setInsert w l) -> x = w \/ In x l.
Proof.
  induction l as [|y l IH]; intros x H; cbn [setInsert] in H; [destruct H as [<-|[]]; auto|].
  destruct (vLt (tDft w) (tDft y)); [destruct H as [<-|H]; auto|]. destruct (vLt (tDft y) (tDft w)); auto.
  destruct H as [<-|H]; [right; left; auto|]. destruct (IH _ H); auto. right; right; auto.
Qed.
Lemma setInsert_has : forall w l, find (dftEquiv w) l = None -> forall x, x = w \/ In x l -> In x (setInsert w l).
Proof.
  induction l as [|y l IH]; intros HF x H; cbn [setInsert]; [destruct H as [->|[]]; left; auto|].
  cbn [find] in HF. destruct (dftEquiv w y) eqn:E; [discriminate|]. unfold dftEquiv in E.
  destruct (vLt (tDft w) (tDft y)); [destruct H as [->|H]; [left; auto|right; auto]|].
  destruct (vLt (tDft y) (tDft w)); [|discriminate]. destruct H as [->|[<-|H]]; [right; apply IH; auto|left; auto|right; apply IH; auto].
Qed.
Lemma bzInsert_perm : forall w l, Permutation (bzInsert w l) (w :: l).
Proof. induction l as [|x l IH]; cbn [bzInsert]; auto. destruct (vLt _ _); auto. rewrite IH. apply perm_swap. Qed.
Lemma sortBz_perm : forall l, Permutation (sortBz l) l.
Proof. induction l as [|x l IH]; cbn [sortBz fold_right]; auto. unfold sortBz in IH. rewrite bzInsert_perm, IH. auto. Qed.

Section Make.
Variables (ksqOf : list Z -> R) (smin : list Z -> list Z) (m : mesh) (group : list symm).
Let dims := dimensions m.
Let D := length dims.
Hypothesis HP : positive dims.
Hypothesis HI : forall u, length u = D -> length (smin u) = D /\ mShift m (smin u) = mShift m u.
Definition goodRoot (w : twave) : Prop := length (tBz w) = D /\ tDft w = mShift m (tBz w).

(** ** One star *)
Lemma rotated_dft : forall root s, tDft (rotated smin m root s) = fst (shift dims (rot dims (tBz root) s)).
Proof. reflexivity. Qed.
Lemma rotated_len : forall root s, length (tDft (rotated smin m root s)) = D.
Proof.
  intros root s. rewrite rotated_dft. destruct (shift_cong dims HP (rot dims (tBz root) s) (rot_length _ _ _)) as [H _]. apply in_box_length in H. exact H.
Qed.
Lemma find_equiv : forall w l x, length (tDft w) = D -> (forall y, In y l -> length (tDft y) = D) -> setFind w l = Some x -> In x l /\ tDft x = tDft w.
Proof.
  intros w l x HW HL H. apply find_some in H. destruct H as [H1 H2]. split; auto. apply andb_prop in H2. destruct H2 as [A B]. apply negb_true_iff in A, B.
  apply vLt_eq; auto. rewrite HW. auto.
Qed.
Record starInv (root : twave) (done : list symm) (star : list twave) (cancel : bool) : Prop := {
  si_src : forall w, In w star -> exists s, In s done /\ w = rotated smin m root s;
  si_all : forall s, In s done -> exists w, In w star /\ tDft w = tDft (rotated smin m root s);
  si_bad : cancel = true -> exists s s', In s done /\ (In s' done \/ s' = identity D) /\
     tDft (rotated smin m root s) = tDft (rotated smin m root s') /\ phaseOf m (tBz root) s <> phaseOf m (tBz root) s';
  si_ok : cancel = false -> forall s, In s done -> tDft (rotated smin m root s) = tDft root -> (Rabs (2 * PI * phaseOf m (tBz root) s) <= 1 / 10^6)%R }.
Lemma big_false : forall x, big x = false -> (Rabs x <= 1 / 10^6)%R.
Proof. intros x H. unfold big in H. destruct (Rlt_dec _ _); [discriminate|lra]. Qed.
Lemma big_true : forall x, big x = true -> x <> 0%R.
Proof. intros x H. unfold big in H. destruct (Rlt_dec _ _) as [L|L]; [|discriminate]. intros ->. rewrite Rabs_R0 in L. lra. Qed.
Lemma rotated_id : forall root, goodRoot root -> tDft (rotated smin m root (identity D)) = tDft root /\ phaseOf m (tBz root) (identity D) = 0%R.
Proof.
  intros root [H1 H2]. rewrite rotated_dft, rot_id, H2 by auto. split; auto. unfold phaseOf. fold (shiftPhase dims (identity D) (tBz root)).
  change (reduce (shiftPhase dims (identity D) (tBz root)) = 0%R). unfold D. rewrite phase_id. rewrite (reduce_unique 0 0); lra.
Qed.
Lemma starOf_inv : forall root, goodRoot root -> forall g done star cancel r, starOf ksqOf smin m root g star cancel = Ok r ->
  starInv root done star cancel -> starInv root (done ++ g) (fst r) (snd r).
Proof.
  intros root HR. induction g as [|s g IH]; intros done star cancel r H INV.
  - cbn [starOf] in H. injection H as <-. rewrite app_nil_r. exact INV.
  - cbn [starOf] in H. inv_check H. set (w := rotated smin m root s) in *.
    set (c1 := if eqbL (tDft w) (tDft root) && big (2 * PI * tPhase w) then true else cancel) in *.
    assert (W1 : length (tDft w) = D) by apply rotated_len.
    assert (WL : forall y, In y star -> length (tDft y) = D).
    { intros y Hy. destruct (si_src _ _ _ _ INV y Hy) as [s' [_ ->]]. apply rotated_len. }
    replace (done ++ s :: g) with ((done ++ [s]) ++ g) by (rewrite <- app_assoc; reflexivity).
    destruct (rotated_id root HR) as [ID1 ID2].
    assert (BAD1 : c1 = true -> exists s0 s', In s0 (done ++ [s]) /\ (In s' (done ++ [s]) \/ s' = identity D) /\
       tDft (rotated smin m root s0) = tDft (rotated smin m root s') /\ phaseOf m (tBz root) s0 <> phaseOf m (tBz root) s').
    { unfold c1. destruct (_ && _) eqn:EB; intros HC.
      - apply andb_prop in EB. destruct EB as [B1 B2]. apply eqbL_eq in B1. apply big_true in B2. exists s, (identity D). split; [apply in_or_app; right; left; auto|].
        split; auto. split; [rewrite ID1; exact B1|]. rewrite ID2. intros X. apply B2. change (tPhase w) with (phaseOf m (tBz root) s). rewrite X. ring.
      - destruct (si_bad _ _ _ _ INV HC) as [a [c [A1 [A2 A3]]]]. exists a, c. split; [apply in_or_app; auto|]. split; auto. destruct A2; [left; apply in_or_app; auto|right; auto]. }
    assert (OK1 : c1 = false -> forall s0, In s0 (done ++ [s]) -> tDft (rotated smin m root s0) = tDft root -> (Rabs (2 * PI * phaseOf m (tBz root) s0) <= 1 / 10^6)%R).
    { unfold c1. destruct (_ && _) eqn:EB; intros HC s0 Hs0 HE; [discriminate|]. apply in_app_or in Hs0. destruct Hs0 as [Hs0|[<-|[]]]; [apply (si_ok _ _ _ _ INV); auto|].
      fold w in HE. rewrite HE in EB. rewrite (proj2 (eqbL_eq _ _) eq_refl) in EB. cbn [andb] in EB. apply big_false in EB. exact EB. }
    destruct (setFind w star) as [w0|] eqn:EF.
    + destruct (find_equiv _ _ _ W1 WL EF) as [F1 F2].
      apply (IH (done ++ [s]) _ _ _ H). constructor.
      * intros y Hy. destruct (si_src _ _ _ _ INV y Hy) as [s' [S1 S2]]. exists s'. split; auto. apply in_or_app; auto.
      * intros s0 Hs0. apply in_app_or in Hs0. destruct Hs0 as [Hs0|[<-|[]]]; [apply (si_all _ _ _ _ INV); auto|]. exists w0. auto.
      * destruct (big (reduce _)) eqn:EB; auto. intros _. apply big_true in EB. destruct (si_src _ _ _ _ INV w0 F1) as [s' [S1 S2]].
        exists s', s. split; [apply in_or_app; auto|]. split; [left; apply in_or_app; right; left; auto|]. split; [rewrite <- S2; exact F2|].
        intros X. apply EB. rewrite S2. change (reduce (2 * PI * phaseOf m (tBz root) s' - 2 * PI * phaseOf m (tBz root) s) = 0)%R. rewrite X.
        rewrite (reduce_unique _ 0); lra.
      * destruct (big (reduce _)) eqn:EB; [discriminate|]. exact OK1.
    + apply (IH (done ++ [s]) _ _ _ H). constructor; auto.
      * intros y Hy. apply setInsert_in in Hy. destruct Hy as [->|Hy]; [exists s; split; [apply in_or_app; right; left|]; auto|].
        destruct (si_src _ _ _ _ INV y Hy) as [s' [S1 S2]]. exists s'. split; auto. apply in_or_app; auto.
      * intros s0 Hs0. apply in_app_or in Hs0. destruct Hs0 as [Hs0|[<-|[]]].
        -- destruct (si_all _ _ _ _ INV s0 Hs0) as [y [Y1 Y2]]. exists y. split; auto. apply setInsert_has; auto.
        -- exists w. split; auto. apply setInsert_has; auto.
Qed.
Lemma starOf_facts : forall root st c, goodRoot root -> starOf ksqOf smin m root group [] false = Ok (st, c) -> starInv root group st c.
Proof.
  intros root st c HR H. apply (starOf_inv root HR group [] [] false _ H). constructor; try discriminate.
  - intros w [].
  - intros s [].
  - intros _ s [].
Qed.

(** ** All stars *)
Definition placed {A} (f : twave -> A) (ws : list A) (off : Z) (s : star) : Prop := exists root st a c,
  goodRoot root /\ starOf ksqOf smin m root group [] false = Ok (st, sCancel s) /\
  ws = a ++ map f (sortBz st) ++ c /\ sBegin s = off + Z.of_nat (length a) /\ sEnd s = sBegin s + Z.of_nat (length st).
Lemma placed_app : forall A (f : twave -> A) ws off s x, placed f ws off s -> placed f (ws ++ x) off s.
Proof.
  intros A f ws off s x (root & st & a & c & H1 & H2 & H3 & H4 & H5). exists root, st, a, (c ++ x). split; auto. split; auto. split; auto.
  rewrite H3, <- !app_assoc. reflexivity.
Qed.
Lemma placed_pre : forall A (f : twave -> A) ws off s x, placed f ws (off + Z.of_nat (length x)) s -> placed f (x ++ ws) off s.
Proof.
  intros A f ws off s x (root & st & a & c & H1 & H2 & H3 & H4 & H5). exists root, st, (x ++ a), c. split; auto. split; auto. split; [|split; auto].
  - rewrite H3, <- !app_assoc. reflexivity.
  - rewrite app_length. lia.
Qed.
Lemma placed_map : forall A B (f : twave -> A) (h : A -> B) ws off s, placed f ws off s -> placed (fun t => h (f t)) (map h ws) off s.
Proof.
  intros A B f h ws off s (root & st & a & c & H1 & H2 & H3 & H4 & H5). exists root, st, (map h a), (map h c). split; auto. split; auto. split; [|split; auto].
  - rewrite H3, !map_app, map_map. reflexivity.
  - rewrite map_length. auto.
Qed.
Record blockInv (off : Z) (k : block) : Prop := {
  bi_begin : kBegin k = off + Z.of_nat (length (kTemp k));
  bi_stars : Forall (placed (fun t => t) (kTemp k) off) (kStars k);
  bi_list : Forall goodRoot (kList k);
  bi_root : forall r, kRoot k = Some r -> goodRoot r }.
Lemma erase_all : forall t l, Forall goodRoot l -> Forall goodRoot (fold_left (fun l w => setErase w l) t l).
Proof.
  induction t as [|w t IH]; intros l H; cbn [fold_left]; auto. apply IH. apply Forall_forall. intros x Hx. apply filter_In in Hx. rewrite Forall_forall in H. apply H. tauto.
Qed.
Lemma oneStar_inv : forall off n k root k', goodRoot root -> oneStar ksqOf smin m group n k root = Ok k' -> blockInv off k -> blockInv off k'.
Proof.
  intros off n k root k' HR H INV. unfold oneStar in H. inv_bind H. destruct a as [st c]. cbn [fst snd] in H. inv_check H.
  set (l := fold_left (fun l w => setErase w l) (sortBz st) (kList k)) in *. clear E0.
  assert (GL : Forall goodRoot l) by (apply erase_all; apply (bi_list _ _ INV)).
  assert (HDR : forall r, hd_error l = Some r -> goodRoot r).
  { intros r Hr. destruct l as [|x l0]; [discriminate|]. injection Hr as <-. inversion GL; auto. }
  assert (LS : length (sortBz st) = length st) by (apply Permutation_length, sortBz_perm).
  assert (GEN : forall flag nr ni, (forall r, nr = Some r -> goodRoot r) -> blockInv off (mkBlock l nr ni (kTemp k ++ sortBz st)
     (mkStar (Z.of_nat (length st)) (kBegin k) (kBegin k + Z.of_nat (length st)) 0 0 flag (repeat 0 (dim m)) c :: kStars k) (kBegin k + Z.of_nat (length st))
     (if c then kBasis k else kBasis k + 1) (if c then kBasisWave k else kBasisWave k + Z.of_nat (length st)))).
  { intros flag nr ni HNR. constructor; cbn [kBegin kTemp kStars kList kRoot]; auto.
    - rewrite app_length, LS, (bi_begin _ _ INV). lia.
    - constructor.
      + exists root, st, (kTemp k), []. cbn [sCancel sBegin sEnd]. split; auto. split; auto. rewrite map_id, app_nil_r. split; auto. split; auto. apply (bi_begin _ _ INV).
      + eapply Forall_impl; [|apply (bi_stars _ _ INV)]. intros s Hs. apply placed_app. auto. }
  destruct (kNext k =? -1); [injection H as <-; apply GEN; auto|].
  destruct (existsb _ st); [injection H as <-; apply GEN; auto|].
  destruct (find _ l) as [w|] eqn:EF; [|discriminate]. injection H as <-. apply GEN. intros r Hr. injection Hr as <-. apply find_some in EF. rewrite Forall_forall in GL. apply GL. tauto.
Qed.
Lemma starLoop_inv : forall off fuel n k k', starLoop ksqOf smin m group fuel n k = Ok k' -> blockInv off k -> blockInv off k'.
Proof.
  induction fuel as [|fuel IH]; intros n k k' H INV; cbn [starLoop] in H; destruct (kList k) eqn:EL.
  - injection H as <-. auto.
  - discriminate.
  - injection H as <-. auto.
  - destruct (kRoot k) as [root|] eqn:ER; [|discriminate]. inv_bind H. eapply IH; eauto. eapply oneStar_inv; eauto. apply (bi_root _ _ INV). auto.
Qed.
Lemma insert_all : forall lw l, Forall goodRoot lw -> Forall goodRoot l -> Forall goodRoot (fold_left (fun l w => setInsert w l) lw l).
Proof.
  induction lw as [|w lw IH]; intros l H1 H2; cbn [fold_left]; auto. inversion H1; subst. apply IH; auto. apply Forall_forall. intros x Hx.
  apply setInsert_in in Hx. destruct Hx as [->|Hx]; auto. rewrite Forall_forall in H2. auto.
Qed.
Lemma doBlocks_inv : forall fuel ls begin nb nbw ss ws n, Forall (Forall goodRoot) ls -> doBlocks ksqOf smin m group fuel ls begin nb nbw = Ok (ss, ws, n) ->
  Forall (placed waveOf ws begin) ss.
Proof.
  induction ls as [|lw ls IH]; intros begin nb nbw ss ws n HL H; cbn [doBlocks] in H.
  - injection H as <- <- <-. constructor.
  - inversion HL as [|x y HL1 HL2]; subst. inv_bind H. destruct a as [[s1 w1] [[begin' nb'] nbw']]. inv_bind H. destruct a as [[s2 w2] n']. injection H as <- <- <-.
    specialize (IH _ _ _ _ _ _ HL2 E0). unfold doBlock in E. inv_bind E. rename a into k. inv_check E. injection E as <- <- <- <- <-.
    assert (GL : Forall goodRoot (fold_left (fun l w => setInsert w l) lw [])) by (apply insert_all; auto).
    apply (starLoop_inv begin) in E1.
    2:{ constructor; cbn [kBegin kTemp kStars kList kRoot]; auto; [cbn; lia|]. intros r Hr. destruct (fold_left _ lw []) as [|y l0]; [discriminate|]. injection Hr as <-. inversion GL; auto. }
    apply Forall_app. split.
    + apply Forall_rev. eapply Forall_impl; [|apply (bi_stars _ _ E1)]. intros s Hs. apply placed_app. exact (placed_map _ _ _ waveOf _ _ _ Hs).
    + eapply Forall_impl; [|exact IH]. intros s Hs. apply placed_pre. rewrite map_length, <- (bi_begin _ _ E1). exact Hs.
Qed.
(** The waves to start with *)
Lemma waves_good : forall sortNorm tw, (forall l, Permutation (sortNorm l) l) -> dims <> [] -> setDimensions dims = Ok m ->
  makeWaves ksqOf smin sortNorm m = Ok tw -> Forall goodRoot tw.
Proof.
  intros sortNorm tw HS Hne Hm H. unfold makeWaves in H. inv_bind H. injection H as <-.
  destruct (mesh_iterator_visits_all_in_order _ m (Z.to_nat (size m)) Hne Hm) as [I1 _].
  destruct (mesh_rank_position_bijection _ _ Hne Hm) as [_ [SZ _]].
  unfold dims in I1. rewrite I1 in E by lia. injection E as <-.
  apply Forall_forall. intros w Hw. apply (Permutation_in _ (HS _)) in Hw. apply in_map_iff in Hw. destruct Hw as [p [<- Hp]].
  apply in_map_iff in Hp. destruct Hp as [[i q] [<- Hp]]. cbn [snd]. unfold goodRoot. cbn [tBz tDft].
  assert (BX : in_box dims q).
  { apply in_map_iff in Hp. destruct Hp as [j [E Hj]]. injection E as _ <-. apply in_zseq in Hj. rewrite SZ in Hj. pose proof (prodZ_pos _ HP). unfold dims in *.
    destruct (mesh_rank_position_bijection _ _ Hne Hm) as [_ [_ [_ BB]]]. apply BB. lia. }
  pose proof (in_box_length _ _ BX) as L. destruct (HI q L) as [I2 I3]. split; auto. rewrite I3. symmetry. apply (shift_self dims HP q BX).
Qed.
Lemma lists_good : forall l gm cur, Forall goodRoot cur -> Forall goodRoot l -> Forall (Forall goodRoot) (lists gm cur l).
Proof.
  induction l as [|w l IH]; intros gm cur HC HL; cbn [lists].
  - constructor; auto. apply Forall_rev. auto.
  - inversion HL; subst. destruct (Rlt_dec _ _); [constructor; [apply Forall_rev; auto|]|]; apply IH; auto.
Qed.
End Make.
