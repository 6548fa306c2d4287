(** C82: the parameters of linear sweeps and ramps follow their line. *)
From Coq Require Import Reals List Arith Bool ZArith SpecFloat String Lia Lra.
From Verif Require Import Base RSum ParamIo Sweep LinearPath.
Import ListNotations.
Local Open Scope R_scope.

(* ---------- specification ---------- *)
(** The value that the type and the indices of a parameter name. *)
Definition names {N} (p : lin N) (k : key) : Prop :=
  match lType p, lIds p with
  | Chi, a :: b :: _ => k = KChi (Z.to_nat a) (Z.to_nat b)
  | Block, a :: b :: _ => k = KLength (Z.to_nat a) (Z.to_nat b)
  | Kuhn, a :: _ => k = KKuhn (Z.to_nat a)
  | Phi_Polymer, a :: _ => k = KPhiP (Z.to_nat a)
  | Phi_Solvent, a :: _ => k = KPhiS (Z.to_nat a)
  | Mu_Polymer, a :: _ => k = KMuP (Z.to_nat a)
  | Mu_Solvent, a :: _ => k = KMuS (Z.to_nat a)
  | Solvent, a :: _ => k = KSize (Z.to_nat a)
  | Cell_Param, a :: _ => k = KCell (Z.to_nat a)
  | Lambda_Pert, _ => k = KLambda
  | Vmonomer, _ => k = KVmonomer
  | Special n, ids => k = KSpecial n ids
  | _, _ => False
  end.
(** The values of the system that must follow it: also chi with the indices
    exchanged, and the segment length of every block of the monomer type. *)
Definition follows (sh : shape) (k0 k : key) : Prop :=
  k = k0 \/
  (exists i j, k0 = KChi i j /\ k = KChi j i) \/
  (exists m i j, k0 = KKuhn m /\ k = KBlockKuhn i j /\ (i < nPol sh)%nat /\ (j < nBlk sh i)%nat /\ blkMon sh i j = m).
Definition governs {N} (sh : shape) (p : lin N) (k : key) : Prop := exists k0, names p k0 /\ follows sh k0 k.
(** No value is governed by two parameters. *)
Definition no_conflict {N} (sh : shape) (ps : list (lin N)) : Prop :=
  forall pre p mid q post k, ps = pre ++ p :: mid ++ q :: post -> governs sh p k -> governs sh q k -> False.
(** Sum of all volume fractions. *)
Definition totalPhi (sh : shape) (v : vals PR) : R :=
  rsum (nPol sh) (fun i => v (KPhiP i)) + rsum (nSol sh) (fun i => v (KPhiS i)).

(* ---------- one parameter ---------- *)
Lemma names_fun : forall N (p : lin N) k k', names p k -> names p k' -> k = k'.
Proof. intros N p k k'. unfold names. destruct (lType p), (lIds p) as [|a [|b r]]; intros; try contradiction; congruence. Qed.
Lemma upTo_ok : forall n z i, upTo n z = Ok i -> i = Z.to_nat z /\ (i < n)%nat.
Proof.
  unfold upTo, check, bind. intros n z i H. destruct (Z.ltb_spec z (Z.of_nat n)); [|discriminate]. destruct (Z.ltb_spec z 0); [discriminate|].
  injection H as <-. split; auto. lia.
Qed.
Lemma within_ok : forall n z i, within n z = Ok i -> i = Z.to_nat z /\ (i < n)%nat.
Proof.
  unfold within. intros n z i H. destruct ((0 <=? z) && (z <? Z.of_nat n))%Z eqn:E; [|discriminate].
  apply andb_true_iff in E. destruct E as [A B]. apply Z.leb_le in A. apply Z.ltb_lt in B. injection H as <-. split; auto. lia.
Qed.
Definition existing (sh : shape) (k : key) : Prop :=
  match k with
  | KChi i j => (i < nMon sh)%nat /\ (j < nMon sh)%nat
  | KKuhn i => (i < nMon sh)%nat
  | KBlockKuhn i j | KLength i j => (i < nPol sh)%nat /\ (j < nBlk sh i)%nat
  | KPhiP i | KMuP i => (i < nPol sh)%nat
  | KPhiS i | KMuS i | KSize i => (i < nSol sh)%nat
  | KCell i => (i < nCellPar sh)%nat
  | KLambda => hasPert sh = true
  | _ => True
  end.
Lemma target_ok : forall N sh (p : lin N) k, target sh p = Ok k -> names p k /\ existing sh k.
Proof.
  intros N sh p k. unfold target, names, lid, bind, check. destruct (lType p) eqn:ET, (lIds p) as [|a [|b r]]; cbn [nth_error]; intros H; try discriminate H.
  all: repeat match type of H with
       | context [upTo ?n ?z] => destruct (upTo n z) eqn:?; try discriminate H
       | context [within ?n ?z] => destruct (within n z) eqn:?; try discriminate H
       | context [if ?b then _ else _] => destruct b eqn:?; try discriminate H
       end.
  all: repeat match goal with
       | X : upTo _ _ = Ok _ |- _ => apply upTo_ok in X; destruct X
       | X : within _ _ = Ok _ |- _ => apply within_ok in X; destruct X
       end; injection H as <-; subst; cbn [existing]; auto.
Qed.

Lemma put_same : forall N k x (v : vals N), put k x v k = x.
Proof. intros. unfold put. destruct (key_eq k k); congruence. Qed.
Lemma put_other : forall N k k' x (v : vals N), k' <> k -> put k x v k' = v k'.
Proof. intros. unfold put. destruct (key_eq k' k); congruence. Qed.

Lemma kuhn_inner : forall N sh m x i n (v : vals N) k,
  fold_left (fun v j => if (m =? blkMon sh i j)%nat then put (KBlockKuhn i j) x v else v) (seq 0 n) v k =
  if match k with KBlockKuhn i' j' => (i' =? i) && (j' <? n) && (m =? blkMon sh i' j') | _ => false end%nat then x else v k.
Proof.
  intros N sh m x i n v k. induction n.
  - cbn [seq fold_left]. destruct k; auto. destruct (i0 =? i)%nat; auto.
  - rewrite seq_S, fold_left_app. cbn [fold_left Nat.add]. set (w := fold_left _ (seq 0 n) v) in *.
    destruct (Nat.eqb_spec m (blkMon sh i n)) as [E|E].
    + destruct (key_eq k (KBlockKuhn i n)) as [->|NE].
      * rewrite put_same, Nat.eqb_refl. destruct (Nat.ltb_spec n (S n)); [|lia]. rewrite <- E, Nat.eqb_refl. reflexivity.
      * rewrite put_other by auto. rewrite IHn. destruct k; auto. destruct (Nat.eqb_spec i0 i); auto.
        assert (j <> n) by congruence. destruct (Nat.ltb_spec j n), (Nat.ltb_spec j (S n)); try lia; auto.
    + rewrite IHn. destruct k; auto. destruct (Nat.eqb_spec i0 i); auto. subst i0.
      destruct (Nat.ltb_spec j n), (Nat.ltb_spec j (S n)); try lia; auto.
      assert (j = n) by lia. subst j. destruct (Nat.eqb_spec m (blkMon sh i n)); [contradiction|auto].
Qed.
Lemma kuhn_spec : forall N sh m x (v : vals N) k,
  (follows sh (KKuhn m) k -> setKuhn sh m x v k = x) /\ (~ follows sh (KKuhn m) k -> setKuhn sh m x v k = v k).
Proof.
  intros N sh m x v k. unfold setKuhn.
  assert (E : forall n w, fold_left (fun v i => fold_left (fun v j => if (m =? blkMon sh i j)%nat then put (KBlockKuhn i j) x v else v) (seq 0 (nBlk sh i)) v) (seq 0 n) w k =
    if match k with KBlockKuhn i' j' => (i' <? n) && (j' <? nBlk sh i') && (m =? blkMon sh i' j') | _ => false end%nat then x else w k).
  { induction n; intros w.
    - cbn [seq fold_left]. destruct k; auto.
    - rewrite seq_S, fold_left_app. cbn [fold_left Nat.add]. rewrite kuhn_inner, IHn. destruct k; auto.
      destruct (Nat.eqb_spec i n).
      + subst i. destruct (Nat.ltb_spec n (S n)); [|lia]. destruct (Nat.ltb_spec n n); [lia|]. reflexivity.
      + cbn [andb]. destruct (Nat.ltb_spec i n), (Nat.ltb_spec i (S n)); try lia; auto. }
  rewrite E. split.
  - intros [->|[[i [j [H _]]]|[m' [i [j [H [-> [A [B C]]]]]]]]].
    + apply put_same.
    + discriminate.
    + injection H as <-. apply Nat.ltb_lt in A, B. rewrite A, B, C, Nat.eqb_refl. reflexivity.
  - intros H. destruct k; try (apply put_other; intros X; apply H; left; exact X).
    destruct (Nat.ltb_spec i (nPol sh)); [|apply put_other; discriminate]. destruct (Nat.ltb_spec j (nBlk sh i)); [|apply put_other; discriminate].
    destruct (Nat.eqb_spec m (blkMon sh i j)); [|apply put_other; discriminate].
    exfalso. apply H. right. right. exists m, i, j. auto.
Qed.
Lemma chi_spec : forall N sh i j x (v : vals N) k,
  (follows sh (KChi i j) k -> setChi i j x v k = x) /\ (~ follows sh (KChi i j) k -> setChi i j x v k = v k).
Proof.
  intros N sh i j x v k. unfold setChi. split.
  - intros [->|[[a [b [H ->]]]|[m [a [b [H _]]]]]]; [| |discriminate].
    + destruct (Nat.eqb_spec i j); [apply put_same|]. rewrite put_other by congruence. apply put_same.
    + injection H as <- <-. destruct (Nat.eqb_spec i j); [subst; apply put_same|apply put_same].
  - intros H. assert (A : k <> KChi i j) by (intros X; apply H; left; auto).
    assert (B : k <> KChi j i) by (intros X; apply H; right; left; exists i, j; auto).
    destruct (i =? j)%nat; rewrite !put_other; auto.
Qed.
Lemma follows_plain : forall sh k0 k, (forall i j, k0 <> KChi i j) -> (forall m, k0 <> KKuhn m) -> (follows sh k0 k <-> k = k0).
Proof.
  intros sh k0 k A B. split; [|left; auto]. intros [H|[[i [j [H _]]]|[m [i [j [H _]]]]]]; auto; [elim (A i j H)|elim (B m H)].
Qed.

Lemma setPar_spec : forall N sh (p : lin N) x v v', setPar sh p x v = Ok v' ->
  (exists k0, names p k0 /\ existing sh k0) /\ forall k, (governs sh p k -> v' k = x) /\ (~ governs sh p k -> v' k = v k).
Proof.
  intros N sh p x v v' H. unfold setPar, bind in H. destruct (target sh p) as [k0| | |] eqn:T; try discriminate H.
  apply target_ok in T. destruct T as [T EX]. split; [exists k0; auto|].
  assert (G : forall k, governs sh p k <-> follows sh k0 k).
  { intros k. split; [intros [k1 [A B]]; rewrite (names_fun _ _ _ _ T A); auto|intros; exists k0; auto]. }
  assert (P : Ok (put k0 x v) = Ok v' -> (forall i j, k0 <> KChi i j) -> (forall m, k0 <> KKuhn m) -> forall k,
    (governs sh p k -> v' k = x) /\ (~ governs sh p k -> v' k = v k)).
  { intros E A B k. injection E as <-. rewrite G, follows_plain by auto. split; [intros ->; apply put_same|apply put_other]. }
  destruct k0; unfold setPhi, setMu, check, bind in H;
    repeat match type of H with context [if ?b then _ else _] => destruct b eqn:?; try discriminate H end;
    try (apply P; [exact H|discriminate|discriminate]).
  - injection H as <-. intros k. rewrite G. apply chi_spec.
  - injection H as <-. intros k. rewrite G. apply kuhn_spec.
Qed.
Lemma getPar_spec : forall N sh v (p : lin N) x, getPar sh v p = Ok x -> exists k0, names p k0 /\ existing sh k0 /\ v k0 = x.
Proof.
  intros N sh v p x H. unfold getPar, bind in H. destruct (target sh p) as [k0| | |] eqn:T; try discriminate H.
  apply target_ok in T. exists k0. destruct T. split; auto. split; auto.
  destruct k0; unfold check, bind in H; try (injection H; auto; fail). destruct (isThread sh); [injection H; auto|discriminate].
Qed.
Lemma setup_spec : forall N sh v (ps : list (lin N)) l, setupPath sh v ps = Ok l ->
  map fst l = ps /\ forall p x, In (p, x) l -> exists k0, names p k0 /\ existing sh k0 /\ v k0 = x.
Proof.
  induction ps as [|p ps IH]; intros l H; cbn [setupPath] in H; unfold bind in H.
  - injection H as <-. split; auto. intros p x [].
  - destruct (getPar sh v p) eqn:G; try discriminate H. destruct (setupPath sh v ps) eqn:E; try discriminate H. injection H as <-.
    destruct (IH _ eq_refl) as [A B]. split; [cbn [map fst]; congruence|]. intros q x [X|X]; [|apply B; auto].
    injection X as <- <-. apply getPar_spec; auto.
Qed.

Lemma setParameters_spec : forall N sh s (l : list (lin N * pT N)) v v', setParameters sh s l v = Ok v' -> no_conflict sh (map fst l) ->
  (forall p x k, In (p, x) l -> governs sh p k -> v' k = padd x (pmul s (lChange p))) /\
  (forall k, (forall p, In p (map fst l) -> ~ governs sh p k) -> v' k = v k).
Proof.
  induction l as [|[p x] l IH]; intros v v' H HN; cbn [setParameters] in H.
  - injection H as <-. split; [intros p x k []|auto].
  - unfold bind in H. destruct (setPar sh p (padd x (pmul s (lChange p))) v) as [v1| | |] eqn:E; try discriminate H.
    apply setPar_spec in E. destruct E as [_ E]. apply IH in H.
    2:{ intros pre q mid r post k Q. apply (HN (p :: pre) q mid r post k). cbn [map fst]. rewrite Q. reflexivity. }
    destruct H as [A B]. split.
    + intros q y k [Q|Q] G; [|eapply A; eauto]. injection Q as <- <-. rewrite B; [apply E; auto|].
      intros r Hr GR. apply in_split in Hr. destruct Hr as [a [b Hr]]. apply (HN [] p a r b k); auto. cbn [map fst app]. rewrite Hr. reflexivity.
    + intros k K. rewrite B; [apply E, K; left; auto|]. intros q Hq. apply K. right; auto.
Qed.

(* ---------- theorems ---------- *)
(** After setParameters(s), from any state, every value that a parameter
    governs is its initial value plus s times the change, and no other value
    has changed: the earlier values of s do not matter. *)
Theorem C82_parameters : forall sh v0 (ps : list (lin PR)) l s v v',
  setupPath sh v0 ps = Ok l -> no_conflict sh ps -> setParameters sh s l v = Ok v' ->
  (forall p k0 k, In p ps -> names p k0 -> follows sh k0 k -> v' k = v0 k0 + s * lChange p) /\
  (forall k, (forall p, In p ps -> ~ governs sh p k) -> v' k = v k).
Proof.
  intros sh v0 ps l s v v' S HN H. apply setup_spec in S. destruct S as [M S]. subst ps.
  apply setParameters_spec in H; auto. destruct H as [A B]. split; auto.
  intros p k0 k Hp N F. apply in_map_iff in Hp. destruct Hp as [[q x] [E Hp]]. cbn [fst] in E. subst q.
  destruct (S p x Hp) as [k1 [N1 [_ V]]]. rewrite (names_fun _ _ _ _ N N1), V. apply (A p x k Hp). exists k0. auto.
Qed.
(** At the last step of a ramp every parameter has changed by its change. *)
Theorem C82_ramp_end : forall sh v0 ps l n v v', (0 < n)%Z ->
  setupPath sh v0 ps = Ok l -> no_conflict sh ps -> rampParameters sh n n l v = Ok v' ->
  forall p k0 k, In p ps -> names p k0 -> follows sh k0 k -> v' k = v0 k0 + lChange p.
Proof.
  intros sh v0 ps l n v v' Hn S HN H p k0 k Hp Nm F. unfold rampParameters in H. destruct (Z.eqb_spec n 0); [lia|].
  destruct (C82_parameters _ _ _ _ _ _ _ S HN H) as [A _]. rewrite (A p k0 k Hp Nm F).
  assert (IZR n <> 0) by (apply not_0_IZR; lia). match goal with |- @eq _ ?a ?b => change (@eq R a b) end. field. auto.
Qed.

(** Success does not depend on the state, and holds on a whole interval if it
    holds at both ends. *)
Definition allowed (sh : shape) (p : lin PR) (x : R) : Prop :=
  exists k, target sh p = Ok k /\
  match k with
  | KPhiP i => closedP sh i = true /\ 0 <= x <= 1
  | KPhiS i => closedS sh i = true /\ 0 <= x <= 1
  | KMuP i => closedP sh i = false
  | KMuS i => closedS sh i = false
  | KLength _ _ => isThread sh = true
  | KVmonomer => 0 < x
  | _ => True
  end.
Lemma setPhi_ok : forall c k x (v : vals PR), (exists v', setPhi c k x v = Ok v') <-> c = true /\ 0 <= x <= 1.
Proof.
  intros c k x v. unfold setPhi, check, bind. cbn [ple p0 p1 PR]. destruct c; [|split; [intros [v' H]|intros [H _]]; discriminate].
  destruct (Rle_dec 0 x); [|split; [intros [v' H]; discriminate|intros [_ H]; lra]].
  destruct (Rle_dec x 1); split; intros H; eauto; [destruct H; discriminate|lra].
Qed.
Lemma setMu_ok : forall c k x (v : vals PR), (exists v', setMu c k x v = Ok v') <-> c = false.
Proof. intros c k x v. unfold setMu, check, bind. destruct c; cbn [negb]; split; intros H; eauto; [destruct H|]; discriminate. Qed.
Lemma setPar_allowed : forall sh p x v, (exists v', setPar sh p x v = Ok v') <-> allowed sh p x.
Proof.
  intros sh p x v. unfold allowed, setPar, bind. destruct (target sh p) as [k| | |].
  2-4: split; [intros [v' H]|intros [k [H _]]]; discriminate.
  assert (K : forall P : Prop, (exists k0, Ok k = Ok k0 /\ match k0 with KPhiP i => closedP sh i = true /\ 0 <= x <= 1
     | KPhiS i => closedS sh i = true /\ 0 <= x <= 1 | KMuP i => closedP sh i = false | KMuS i => closedS sh i = false
     | KLength _ _ => isThread sh = true | KVmonomer => 0 < x | _ => True end) <->
     match k with KPhiP i => closedP sh i = true /\ 0 <= x <= 1
     | KPhiS i => closedS sh i = true /\ 0 <= x <= 1 | KMuP i => closedP sh i = false | KMuS i => closedS sh i = false
     | KLength _ _ => isThread sh = true | KVmonomer => 0 < x | _ => True end).
  { intros _. split; [intros [k0 [E H]]; injection E as <-; auto|intros H; exists k; auto]. }
  rewrite (K True). clear K. destruct k; try (split; [auto|intros _; eexists; reflexivity]).
  - unfold check, bind. destruct (isThread sh); split; intros H; eauto; [destruct H|]; discriminate.
  - apply setPhi_ok.
  - apply setMu_ok.
  - apply setPhi_ok.
  - apply setMu_ok.
  - unfold check, bind. cbn [plt p0 PR]. destruct (Rlt_dec 0 x); split; intros H; eauto; [destruct H; discriminate|contradiction].
Qed.

Lemma setParameters_allowed : forall sh s l v, (exists v', setParameters sh s l v = Ok v') <->
  forall p x, In (p, x) l -> allowed sh p (x + s * lChange p).
Proof.
  intros sh s l. induction l as [|[p x] l IH]; intros v; cbn [setParameters].
  - split; [intros _ p x []|intros _; eauto].
  - unfold bind. destruct (setPar_allowed sh p (x + s * lChange p) v) as [A B].
    change (padd x (pmul s (lChange p))) with (x + s * lChange p).
    destruct (setPar sh p (x + s * lChange p) v) as [v1| | |] eqn:E.
    + rewrite IH. split; [|intros H q y Hq; apply H; right; auto]. intros H q y [Q|Q]; [|auto]. injection Q as <- <-. apply A. eauto.
    + split; [intros [v' H]; discriminate|]. intros H. destruct (B (H p x (or_introl eq_refl))). discriminate.
    + split; [intros [v' H]; discriminate|]. intros H. destruct (B (H p x (or_introl eq_refl))). discriminate.
    + split; [intros [v' H]; discriminate|]. intros H. destruct (B (H p x (or_introl eq_refl))). discriminate.
Qed.
Lemma allowed_convex : forall sh p x c s0 s1 s, allowed sh p (x + s0 * c) -> allowed sh p (x + s1 * c) -> s0 <= s <= s1 -> allowed sh p (x + s * c).
Proof.
  intros sh p x c s0 s1 s [k [T A]] [k' [T' B]] H. rewrite T in T'. injection T' as <-. exists k. split; auto.
  assert (Q : (s0 * c <= s * c <= s1 * c) \/ (s1 * c <= s * c <= s0 * c)) by (destruct (Rle_dec 0 c); [left|right]; nra).
  destruct k; auto.
  - split; [apply A|]. lra.
  - split; [apply A|]. lra.
  - lra.
Qed.
Theorem C82_between : forall sh (l : list (lin PR * R)) (s0 s1 s : pT PR) (u v w : vals PR), s0 <= s <= s1 ->
  (exists u', setParameters sh s0 l u = Ok u') -> (exists v', setParameters sh s1 l v = Ok v') -> exists w', setParameters sh s l w = Ok w'.
Proof.
  intros sh l s0 s1 s u v w H A B. rewrite setParameters_allowed in *. intros p x Hp. apply (allowed_convex sh p x _ s0 s1); auto.
Qed.

(** If the indices are those of existing values and the model of the chains has
    the parameter, setup succeeds. *)
Definition indices_ok (sh : shape) (p : lin PR) : Prop :=
  Forall (fun z => (0 <= z)%Z) (lIds p) /\ exists k, names p k /\ existing sh k /\ (forall i j, k = KLength i j -> isThread sh = true).
Lemma upTo_in : forall n z, (0 <= z)%Z -> (Z.to_nat z < n)%nat -> upTo n z = Ok (Z.to_nat z).
Proof. intros n z A B. unfold upTo, check, bind. destruct (Z.ltb_spec z (Z.of_nat n)); [|lia]. destruct (Z.ltb_spec z 0); [lia|auto]. Qed.
Lemma within_in : forall n z, (0 <= z)%Z -> (Z.to_nat z < n)%nat -> within n z = Ok (Z.to_nat z).
Proof. intros n z A B. unfold within. destruct (Z.leb_spec 0 z); [|lia]. destruct (Z.ltb_spec z (Z.of_nat n)); [auto|lia]. Qed.
Lemma target_exists : forall sh p k, Forall (fun z => (0 <= z)%Z) (lIds p) -> names p k -> existing sh k -> target sh (p : lin PR) = Ok k.
Proof.
  intros sh p k F H E. unfold target, names, lid, bind, check in *. destruct (lType p), (lIds p) as [|a [|b r]]; cbn [nth_error]; try contradiction; subst k; cbn [existing] in E.
  all: repeat match goal with X : Forall _ (_ :: _) |- _ => inversion X; clear X; subst end.
  all: try match type of E with _ /\ _ => destruct E end; rewrite ?upTo_in, ?within_in by auto; auto.
  all: rewrite ?upTo_in, ?within_in by auto; auto.
  all: match goal with X : hasPert _ = true |- _ => rewrite X; auto end.
Qed.
Theorem C82_setup : forall sh v ps, (forall p, In p ps -> indices_ok sh p) -> exists l, setupPath sh v ps = Ok l.
Proof.
  intros sh v ps. induction ps as [|p ps IH]; intros H; cbn [setupPath]; [eauto|].
  destruct (IH (fun q Hq => H q (or_intror Hq))) as [l ->]. destruct (H p (or_introl eq_refl)) as [F [k [A [B C]]]].
  unfold getPar. rewrite (target_exists sh p k) by auto. unfold bind, check. destruct k; eauto. rewrite (C i j eq_refl). eauto.
Qed.

(** The sum of the volume fractions changes by less than s times the accepted
    deviation 0.000001, if no volume fraction is named twice. *)
Lemma rsum_put : forall n (f g : nat -> R) i, (i < n)%nat -> (forall j, j <> i -> g j = f j) -> rsum n g = rsum n f + (g i - f i).
Proof.
  induction n; intros f g i Hi H; [lia|]. cbn [rsum]. destruct (Nat.eq_dec i n) as [->|NE].
  - rewrite (rsum_ext n g f); [ring|]. intros j Hj. apply H. lia.
  - rewrite (IHn f g i), (H n); auto; [ring|lia].
Qed.
Definition phiKey (k : key) : bool := match k with KPhiP _ | KPhiS _ => true | _ => false end.
Lemma total_other : forall sh (v v' : vals PR), (forall k, phiKey k = true -> v' k = v k) -> totalPhi sh v' = totalPhi sh v.
Proof. intros sh v v' H. unfold totalPhi. f_equal; apply rsum_ext; intros; apply H; reflexivity. Qed.
Lemma total_one : forall sh (v v' : vals PR) k, phiKey k = true -> existing sh k -> (forall k', k' <> k -> v' k' = v k') ->
  totalPhi sh v' = totalPhi sh v + (v' k - v k).
Proof.
  intros sh v v' k P E H. unfold totalPhi. destruct k; try discriminate P; cbn [existing] in E.
  - rewrite (rsum_put (nPol sh) (fun i => v (KPhiP i)) (fun i => v' (KPhiP i)) i), (rsum_ext (nSol sh) (fun i => v' (KPhiS i)) (fun i => v (KPhiS i))).
    + ring.
    + intros; apply H; discriminate.
    + auto.
    + intros; apply H; congruence.
  - rewrite (rsum_put (nSol sh) (fun i => v (KPhiS i)) (fun i => v' (KPhiS i)) i), (rsum_ext (nPol sh) (fun i => v' (KPhiP i)) (fun i => v (KPhiP i))).
    + ring.
    + intros; apply H; discriminate.
    + auto.
    + intros; apply H; congruence.
Qed.
Lemma isPhi_key : forall (p : lin PR) k, names p k -> isPhi p = phiKey k.
Proof. intros p k. unfold names, isPhi. destruct (lType p), (lIds p) as [|a [|b r]]; intros; try contradiction; subst; reflexivity. Qed.
Lemma follows_phi : forall sh k0 k, phiKey k = true -> follows sh k0 k -> k = k0.
Proof. intros sh k0 k P [H|[[i [j [_ ->]]]|[m [i [j [_ [-> _]]]]]]]; auto; discriminate. Qed.
Lemma total_path : forall sh s (l : list (lin PR * R)) v v', setParameters sh s l v = Ok v' -> no_conflict sh (map fst l) ->
  (forall p x, In (p, x) l -> exists k0, names p k0 /\ existing sh k0 /\ (v k0 = x :> R)) ->
  totalPhi sh v' = totalPhi sh v + s * lsum (fun px : lin PR * R => if isPhi (fst px) then lChange (fst px) else 0) l.
Proof.
  induction l as [|[p x] l IH]; intros v v' H HN HV; cbn [setParameters] in H.
  - injection H as <-. cbn [lsum]. match goal with |- @eq _ ?a ?b => change (@eq R a b) end. ring.
  - unfold bind in H. match type of H with match ?t with _ => _ end = _ => destruct t as [v1| | |] eqn:E; try discriminate H end.
    apply setPar_spec in E. destruct E as [_ E]. destruct (HV p x (or_introl eq_refl)) as [k0 [NK [EX V]]].
    apply IH in H.
    + rewrite H. cbn [lsum fst]. rewrite (isPhi_key p k0 NK). destruct (phiKey k0) eqn:P.
      * rewrite (total_one sh v v1 k0 P EX).
        -- rewrite (proj1 (E k0) (ex_intro _ k0 (conj NK (or_introl eq_refl)))), V. cbn [padd pmul PR]. match goal with |- @eq _ ?a ?b => change (@eq R a b) end. ring.
        -- intros k' NE. apply (proj2 (E k')). intros [k1 [N1 F]]. rewrite <- (names_fun _ _ _ _ NK N1) in F.
           apply NE. destruct F as [F|[[i [j [F _]]]|[m [i [j [F _]]]]]]; auto; subst k0; discriminate.
      * rewrite (total_other sh v v1).
        -- match goal with |- @eq _ ?a ?b => change (@eq R a b) end. ring.
        -- intros k PK. apply (proj2 (E k)). intros [k1 [N1 F]]. rewrite <- (names_fun _ _ _ _ NK N1) in F. apply follows_phi in F; auto. congruence.
    + intros pre q mid r post k Q. apply (HN (p :: pre) q mid r post k). cbn [map fst]. rewrite Q. reflexivity.
    + intros q y Hq. destruct (HV q y (or_intror Hq)) as [k1 [A [B C]]]. exists k1. split; auto. split; auto.
      rewrite <- C. apply (proj2 (E k1)). intros G. apply (in_map fst) in Hq. cbn [fst] in Hq. apply in_split in Hq. destruct Hq as [a [b Hq]].
      apply (HN [] p a q b k1); auto; [cbn [map fst app]; rewrite Hq; reflexivity|]. exists k1. split; auto. left; auto.
Qed.
Lemma phiSum_lsum : forall ps : list (lin PR), phiSum ps = lsum (fun p : lin PR => if isPhi p then (lChange p : R) else 0) ps :> R.
Proof.
  intros ps. unfold phiSum.
  assert (G : forall s : R, fold_left (fun s p => if isPhi p then padd s (lChange p) else s) ps (s : pT PR) = s + lsum (fun p : lin PR => if isPhi p then (lChange p : R) else 0) ps :> R).
  { induction ps as [|p ps IH]; intros s; cbn [fold_left lsum]; [ring|]. destruct (isPhi p); cbn [padd PR]; rewrite IH; ring. }
  rewrite G. cbn [p0 PR]. ring.
Qed.
Theorem C82_total : forall sh v0 (ps : list (lin PR)) l s v', checkChanges ps = Ok tt -> setupPath sh v0 ps = Ok l -> no_conflict sh ps ->
  setParameters sh s l v0 = Ok v' -> Rabs (totalPhi sh v' - totalPhi sh v0) <= Rabs s * (1 / 1000000).
Proof.
  intros sh v0 ps l s v' C S HN H. apply setup_spec in S. destruct S as [M S]. subst ps.
  rewrite (total_path sh s l v0 v' H HN S).
  assert (X : Rabs (phiSum (map fst l)) <= 1 / 1000000).
  { unfold checkChanges, check, bind in C. cbn [plt PR popp peps] in C.
    destruct (Rlt_dec (- (1 / 1000000)) (phiSum (map fst l))); [|discriminate]. destruct (Rlt_dec (phiSum (map fst l)) (1 / 1000000)); [|discriminate].
    apply Rabs_le. lra. }
  rewrite phiSum_lsum in X.
  assert (Y : lsum (fun p : lin PR => if isPhi p then lChange p else 0) (map fst l) = lsum (fun px : lin PR * R => if isPhi (fst px) then lChange (fst px) else 0) l).
  { clear. induction l; cbn [map lsum]; auto. rewrite IHl. reflexivity. }
  rewrite Y in X. match type of X with Rabs ?e <= _ => set (t := e) in * end. replace (totalPhi sh v0 + s * t - totalPhi sh v0) with (s * t) by ring.
  rewrite Rabs_mult. apply Rmult_le_compat_l; auto. apply Rabs_pos.
Qed.

(* ---------- where it fails ---------- *)
Definition shTwo : shape := mkShape 2 2 0 (fun _ => 1%nat) (fun i _ => i) (fun _ => true) (fun _ => true) 1 true false.
Definition vHalf : vals PR := fun k => match k with KPhiP _ => 1 / 2 | _ => 1 end.
(** A volume fraction that is listed twice, with changes that add up to zero:
    accepted, but the sum of the volume fractions changes. *)
Definition twice : list (lin PR) := [mkLin Phi_Polymer [0%Z] (1 / 4 : pT PR); mkLin Phi_Polymer [0%Z] (- (1 / 4) : pT PR)].
Theorem C82_twice_refuted : exists sh v0 ps l v', checkChanges ps = Ok tt /\ setupPath sh v0 ps = Ok l /\ setParameters sh (1 : pT PR) l v0 = Ok v' /\
  totalPhi sh v' = totalPhi sh v0 - 1 / 4.
Proof.
  exists shTwo, vHalf, twice, (map (fun p => (p, 1 / 2 : pT PR)) twice). 
  assert (X : exists v', setParameters shTwo (1 : pT PR) (map (fun p => (p, 1 / 2 : pT PR)) twice) vHalf = Ok v').
  { apply setParameters_allowed. intros p x H. destruct H as [H|[H|[]]]; injection H as <- <-; exists (KPhiP 0); (split; [reflexivity|]); cbn; (split; [reflexivity|lra]). }
  destruct X as [v' X]. exists v'. split; [|split; [|split; [exact X|]]].
  - unfold checkChanges, check, bind, phiSum, twice. cbn [fold_left isPhi lType lChange padd plt popp peps p0 PR].
    destruct (Rlt_dec _ _) as [_|N]; [|exfalso; apply N; lra]. destruct (Rlt_dec _ _) as [_|N]; [|exfalso; apply N; lra]. reflexivity.
  - reflexivity.
  - cbn [twice map setParameters] in X. unfold bind in X.
    match type of X with match ?t with _ => _ end = _ => destruct t as [v1| | |] eqn:E1; try discriminate X end.
    match type of X with match ?t with _ => _ end = _ => destruct t as [v2| | |] eqn:E2; try discriminate X end. injection X as <-.
    apply setPar_spec in E1, E2. destruct E1 as [_ E1], E2 as [_ E2].
    assert (G : forall p : lin PR, lType p = Phi_Polymer -> lIds p = [0%Z] -> forall k, governs shTwo p k <-> k = KPhiP 0).
    { intros p T I k. unfold governs, names. rewrite T, I. split.
      - intros [k0 [-> F]]. apply follows_plain in F; auto; discriminate.
      - intros ->. exists (KPhiP 0). split; [reflexivity|left; auto]. }
    unfold totalPhi. cbn [nPol nSol shTwo rsum].
    rewrite (proj1 (E2 (KPhiP 0))) by (apply G; reflexivity). rewrite (proj2 (E2 (KPhiP 1))) by (rewrite G by reflexivity; discriminate).
    rewrite (proj2 (E1 (KPhiP 1))) by (rewrite G by reflexivity; discriminate). cbn [padd pmul lChange PR vHalf]. lra.
Qed.
(** chi(0,1) and chi(1,0) in one sweep: only the second change is made. *)
Definition chiTwice : list (lin PR) := [mkLin Chi [0; 1]%Z (4 : pT PR); mkLin Chi [1; 0]%Z (3 : pT PR)].
Theorem C82_chi_refuted : exists sh v0 ps l v' p k0, checkChanges ps = Ok tt /\ setupPath sh v0 ps = Ok l /\ setParameters sh (1 : pT PR) l v0 = Ok v' /\
  In p ps /\ names p k0 /\ v' k0 <> v0 k0 + lChange p.
Proof.
  exists shTwo, vHalf, chiTwice, (map (fun p => (p, 1 : pT PR)) chiTwice). eexists. exists (mkLin Chi [0; 1]%Z (4 : pT PR)), (KChi 0 1).
  split; [|split; [reflexivity|split; [reflexivity|split; [left; reflexivity|split; [reflexivity|]]]]].
  - unfold checkChanges, check, bind, phiSum, chiTwice. cbn [fold_left isPhi lType plt popp peps p0 PR].
    destruct (Rlt_dec _ _) as [_|N]; [|exfalso; apply N; lra]. destruct (Rlt_dec _ _) as [_|N]; [|exfalso; apply N; lra]. reflexivity.
  - rewrite (proj1 (chi_spec PR shTwo 1 0 _ _ (KChi 0 1))) by (right; left; exists 1%nat, 0%nat; auto).
    cbn [padd pmul lChange PR vHalf]. lra.
Qed.
(** A negative index is not refused. *)
Theorem C82_negative_refuted : exists sh v p, lIds p = [(-1)%Z] /\ setupPath sh (v : vals PR) [p] = UB.
Proof. exists shTwo, vHalf, (mkLin Kuhn [(-1)%Z] (1 : pT PR)). split; reflexivity. Qed.

(** In double precision the sum of ns steps 1/ns may exceed 1: a sweep of 20
    steps that takes a volume fraction from 1/2 to 0 is possible at s = 1, but
    its last attempt is made with s > 1, and throws. *)
Definition halfF : spec_float := SFdiv 53 1024 (sfOf 1) (sfOf 2).
Definition vHalfF : vals PF := fun k => match k with KPhiP _ => halfF | _ => sfOf 1 end.
Definition exchangeF : list (lin PF) := [mkLin Phi_Polymer [0%Z] (SFopp halfF : pT PF); mkLin Phi_Polymer [1%Z] (halfF : pT PF)].
Definition attempts_of (st : status (sweep SFl unit)) : list spec_float :=
  match st with Done w => map (fun a => fst (fst a)) (wLog w) | _ => [] end.
Definition fine {A} (r : outcome A) : bool := match r with Ok _ => true | _ => false end.
Definition thrown {A} (r : outcome A) : bool := match r with Throw => true | _ => false end.
Theorem C82_end_refuted : exists sh v0 ps l ns s,
  checkChanges ps = Ok tt /\ setupPath sh v0 ps = Ok l /\
  fine (setParameters sh (sfOf 1 : pT PF) l v0) = true /\
  In s (attempts_of (runSweep (N := SFl) 2 ns (fun _ => tt) (fun _ => (false, tt)) 100)) /\
  SFltb (sfOf 1) s = true /\ thrown (setParameters sh (s : pT PF) l v0) = true.
Proof.
  exists shTwo, vHalfF, exchangeF, (map (fun p => (p, halfF : pT PF)) exchangeF), 20%Z.
  assert (E : attempts_of (runSweep (N := SFl) 2 20 (fun _ => tt) (fun _ => (false, tt)) 100) <> []) by (vm_compute; discriminate).
  exists (hd (sfOf 0) (attempts_of (runSweep (N := SFl) 2 20 (fun _ => tt) (fun _ => (false, tt)) 100))).
  split; [vm_compute; reflexivity|]. split; [reflexivity|]. split; [vm_compute; reflexivity|]. split; [|split; vm_compute; reflexivity].
  destruct (attempts_of _); [contradiction|left; reflexivity].
Qed.

(* ---------- cases ---------- *)
Definition exchange : list (lin PR) := [mkLin Phi_Polymer [0%Z] (- (1 / 2) : pT PR); mkLin Phi_Polymer [1%Z] (1 / 2 : pT PR); mkLin Kuhn [0%Z] (1 : pT PR)].
Lemma C82_case : checkChanges exchange = Ok tt /\ no_conflict shTwo exchange /\ (forall p, In p exchange -> indices_ok shTwo p) /\
  exists l v', setupPath shTwo vHalf exchange = Ok l /\ setParameters shTwo (1 : pT PR) l vHalf = Ok v' /\
  v' (KPhiP 0) = 0 :> R /\ v' (KPhiP 1) = 1 :> R /\ v' (KBlockKuhn 0 0) = 2 :> R /\ v' (KBlockKuhn 1 0) = 1 :> R.
Proof.
  assert (NC : no_conflict shTwo exchange).
  { intros pre p mid q post k E [k0 [A F]] [k1 [B F']]. 
    assert (X : (p = mkLin Phi_Polymer [0%Z] (- (1 / 2) : pT PR) /\ (q = mkLin Phi_Polymer [1%Z] (1 / 2 : pT PR) \/ q = mkLin Kuhn [0%Z] (1 : pT PR))) \/
       (p = mkLin Phi_Polymer [1%Z] (1 / 2 : pT PR) /\ q = mkLin Kuhn [0%Z] (1 : pT PR))).
    { unfold exchange in E. destruct pre as [|x1 [|x2 [|x3 [|x4 pre]]]]; cbn [app] in E.
      - injection E as <- E. destruct mid as [|m1 [|m2 mid]]; cbn [app] in E.
        + injection E as <- _. auto.
        + injection E as _ <- _. auto.
        + injection E as _ _ E. destruct mid; discriminate E.
      - injection E as _ <- E. destruct mid as [|m1 [|m2 mid]]; cbn [app] in E; [injection E as <- _; auto|discriminate E|discriminate E].
      - injection E as _ _ _ E. destruct mid; discriminate E.
      - discriminate E.
      - discriminate E. }
    destruct X as [[-> [->| ->]]|[-> ->]]; cbn in A, B; subst k0 k1; apply follows_plain in F; try discriminate; subst k.
    - apply follows_plain in F'; try discriminate.
    - destruct F' as [F'|[[i [j [H _]]]|[m [i [j [_ [H _]]]]]]]; discriminate.
    - destruct F' as [F'|[[i [j [H _]]]|[m [i [j [_ [H _]]]]]]]; discriminate. }
  split.
  - unfold checkChanges, check, bind, phiSum, exchange. cbn [fold_left isPhi lType lChange padd plt popp peps p0 PR].
    destruct (Rlt_dec _ _) as [_|N]; [|exfalso; apply N; lra]. destruct (Rlt_dec _ _) as [_|N]; [|exfalso; apply N; lra]. reflexivity.
  - split; [exact NC|]. split.
    + intros p [<-|[<-|[<-|[]]]]; (split; [repeat constructor; lia|]); eexists; (split; [reflexivity|]); (split; [cbn; lia|discriminate]).
    + exists [(mkLin Phi_Polymer [0%Z] (- (1 / 2) : pT PR), 1 / 2 : pT PR); (mkLin Phi_Polymer [1%Z] (1 / 2 : pT PR), 1 / 2 : pT PR);
        (mkLin Kuhn [0%Z] (1 : pT PR), 1 : pT PR)].
      match goal with |- exists v', setupPath _ _ _ = Ok ?l /\ _ => assert (S : setupPath shTwo vHalf exchange = Ok l) by reflexivity;
        assert (X : exists v', setParameters shTwo (1 : pT PR) l vHalf = Ok v') end.
      { apply setParameters_allowed. intros p x H. destruct H as [H|[H|[H|[]]]]; injection H as <- <-; eexists; (split; [reflexivity|]); cbn; auto; (split; [reflexivity|lra]). }
      destruct X as [v' X]. exists v'. split; [exact S|]. split; [exact X|].
      destruct (C82_parameters _ _ _ _ _ _ _ S NC X) as [A B]. 
      rewrite (A (mkLin Phi_Polymer [0%Z] (- (1 / 2) : pT PR)) (KPhiP 0) (KPhiP 0)) by (cbn; auto; left; auto).
      rewrite (A (mkLin Phi_Polymer [1%Z] (1 / 2 : pT PR)) (KPhiP 1) (KPhiP 1)) by (cbn; auto; left; auto).
      rewrite (A (mkLin Kuhn [0%Z] (1 : pT PR)) (KKuhn 0) (KBlockKuhn 0 0)).
      * rewrite B.
        -- cbn [lChange vHalf]. lra.
        -- intros p [<-|[<-|[<-|[]]]] [k0 [N F]]; cbn in N; subst k0.
           ++ apply follows_plain in F; try discriminate.
           ++ apply follows_plain in F; try discriminate.
           ++ destruct F as [F|[[i [j [H _]]]|[m [i [j [H [H' [_ [_ W]]]]]]]]]; try discriminate. injection H as <-. injection H' as <- <-. cbn in W. discriminate.
      * right. right. left. reflexivity.
      * reflexivity.
      * right. right. exists 0%nat, 0%nat, 0%nat. cbn. repeat split; lia.
Qed.

Print Assumptions C82_parameters.
Print Assumptions C82_ramp_end.
Print Assumptions C82_between.
Print Assumptions C82_setup.
Print Assumptions C82_total.
Print Assumptions C82_twice_refuted.
Print Assumptions C82_chi_refuted.
Print Assumptions C82_negative_refuted.
Print Assumptions C82_end_refuted.
