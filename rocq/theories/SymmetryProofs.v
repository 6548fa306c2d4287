(** Proofs about Symmetry.v. *)
From Coq Require Import ZArith QArith Qcanon List Bool Arith Lia Znumtheory.
From Verif Require Import Base Symmetry.
Import ListNotations.
Local Open Scope Z_scope.

(* ---------- the group template ---------- *)
Section Group.
Variable S : Type.
Variable eqb : S -> S -> bool.
Variable mul : S -> S -> S.
Variable inv : S -> outcome S.
Variable ident : S.
Variable copy : S -> S.
Variable good : S -> Prop.
Hypothesis Heqb : forall a b, good a -> good b -> (eqb a b = true <-> a = b).
Hypothesis Hcopy : forall a, good a -> copy a = a.
Hypothesis Hmul : forall a b, good a -> good b -> good (mul a b).
Hypothesis Hinv : forall a b, good a -> inv a = Ok b -> good b.
Hypothesis Hid : good ident.
Hypothesis Hidl : forall a, good a -> mul ident a = a.
Hypothesis HinvNF : forall a, inv a <> NoFuel.

Notation gfind := (gfind S eqb).
Notation gadd := (gadd S eqb copy).
Notation innerPass := (innerPass S eqb mul inv copy).
Notation outerPass := (outerPass S eqb mul inv copy).

Lemma gfind_iff : forall els s, Forall good els -> good s -> (gfind els s = true <-> In s els).
Proof.
  intros els s HG Hs. unfold Symmetry.gfind. rewrite existsb_exists. rewrite Forall_forall in HG. split.
  - intros [e [H1 H2]]. apply Heqb in H2; auto. subst; auto.
  - intros H. exists s. split; auto. apply Heqb; auto.
Qed.

Lemma NoDup_snoc : forall {A} (l : list A) x, NoDup l -> ~ In x l -> NoDup (l ++ [x]).
Proof.
  induction l; intros; simpl; [repeat constructor; auto|]. inversion H; subst. constructor.
  - rewrite in_app_iff. simpl in *. intuition.
  - apply IHl; auto. simpl in H0. tauto.
Qed.
Lemma gadd_spec : forall els s, Forall good els -> NoDup els -> good s ->
  exists ext, fst (gadd els s) = els ++ ext /\ (snd (gadd els s) = false -> ext = []) /\
    (snd (gadd els s) = true -> ext <> []) /\
    In s (fst (gadd els s)) /\ Forall good (fst (gadd els s)) /\ NoDup (fst (gadd els s)) /\
    (forall x, In x ext -> x = s).
Proof.
  intros els s HG HN Hs. unfold Symmetry.gadd. destruct (gfind els s) eqn:E; simpl.
  - exists []. rewrite app_nil_r. apply gfind_iff in E; auto. repeat split; auto; try discriminate. simpl; tauto.
  - exists [copy s]. rewrite Hcopy by auto. repeat split; auto; try discriminate.
    + rewrite in_app_iff. simpl; auto.
    + apply Forall_app; split; auto.
    + apply NoDup_snoc; auto. intros H. apply gfind_iff in H; auto. congruence.
    + simpl. intuition.
Qed.

(** Closure of a property under the operations used. *)
Definition closedP (P : S -> Prop) : Prop :=
  (forall a b, P a -> P b -> P (mul a b)) /\ (forall a b, P a -> inv a = Ok b -> P b).

Lemma addInverses_spec : forall P todo els els', closedP P ->
  Forall good els -> NoDup els -> Forall good todo -> Forall P todo -> Forall P els ->
  addInverses S eqb inv copy todo els = Ok els' ->
  exists ext, els' = els ++ ext /\ Forall good els' /\ NoDup els' /\ Forall P els'.
Proof.
  intros P. induction todo as [|e todo IH]; intros els els' HP HG HN HGt HPt HPe H; cbn [addInverses] in H.
  - inversion H; subst. exists []. rewrite app_nil_r; auto.
  - inversion HGt; inversion HPt; subst. destruct (inv e) as [a| | |] eqn:E; try discriminate. cbn [bind] in H.
    assert (Ga : good a) by eauto. rewrite Hcopy in H by auto.
    destruct (gadd_spec els a HG HN Ga) as [ext [E1 [_ [_ [_ [G1 [N1 X]]]]]]].
    assert (PE : Forall P (fst (gadd els a))).
    { rewrite E1. apply Forall_app; split; auto. rewrite Forall_forall. intros x Hx. rewrite (X x Hx).
      destruct HP as [_ HP]. eauto. }
    destruct (IH _ _ HP G1 N1 H3 H7 PE H) as [ext' [E2 [G2 [N2 P2]]]].
    exists (ext ++ ext'). rewrite E2, E1, app_assoc. rewrite E2, E1 in *. auto.
Qed.

Lemma innerPass_spec : forall P a row els compl els' compl', closedP P ->
  good a -> P a -> Forall good row -> Forall P row -> Forall good els -> NoDup els -> Forall P els ->
  innerPass a row els compl = Ok (els', compl') ->
  exists ext, els' = els ++ ext /\ Forall good els' /\ NoDup els' /\ Forall P els' /\
    (compl' = true -> compl = true /\ ext = [] /\
       forall b, In b row -> In (mul a b) els /\ exists c, inv (mul a b) = Ok c /\ In c els) /\
    (compl' = false -> compl = true -> ext <> []).
Proof.
  intros P a. induction row as [|b row IH]; intros els compl els' compl' HP Ga Pa Gr Pr Ge Ne Pe H; cbn [Symmetry.innerPass] in H.
  - inversion H; subst. exists []. rewrite app_nil_r. split; auto. split; auto. split; auto. split; auto.
    split; [intros; split; auto; split; auto; intros b []|congruence].
  - inversion Gr; inversion Pr; subst. assert (Gm := Hmul a b Ga H2). rewrite Hcopy in H by auto.
    destruct (gadd_spec els (mul a b) Ge Ne Gm) as [e1 [E1 [F1 [T1 [I1 [G1 [N1 X1]]]]]]].
    destruct (gadd els (mul a b)) as [els1 added1]. cbn [fst snd] in *.
    destruct (inv (mul a b)) as [c| | |] eqn:Ei; try discriminate. cbn [bind] in H.
    assert (Gc : good c) by eauto. rewrite Hcopy in H by auto.
    destruct (gadd_spec els1 c G1 N1 Gc) as [e2 [E2 [F2 [T2 [I2 [G2 [N2 X2]]]]]]].
    destruct (gadd els1 c) as [els2 added2]. cbn [fst snd] in *.
    assert (Pm : P (mul a b)) by (apply HP; auto). assert (Pc : P c) by (destruct HP; eauto).
    assert (P1 : Forall P els1).
    { rewrite E1. apply Forall_app; split; auto. rewrite Forall_forall; intros x Hx. rewrite (X1 x Hx); auto. }
    assert (P2 : Forall P els2).
    { rewrite E2. apply Forall_app; split; auto. rewrite Forall_forall; intros x Hx. rewrite (X2 x Hx); auto. }
    destruct (IH _ _ _ _ HP Ga Pa H3 H7 G2 N2 P2 H) as [e3 [E3 [G3 [N3 [P3 [C3 D3]]]]]].
    exists (e1 ++ e2 ++ e3). split; [rewrite E3, E2, E1, !app_assoc; auto|]. split; auto. split; auto. split; auto. split.
    + intros Hc. destruct (C3 Hc) as [C [C' C'']]. destruct added2; [discriminate|]. destruct added1; [discriminate|].
      split; auto. split; [rewrite F1, F2, C' by auto; auto|].
      rewrite (F1 eq_refl), app_nil_r in E1. subst els1.
      rewrite (F2 eq_refl), app_nil_r in E2. subst els2.
      intros b' [<-|Hb']; [split; eauto|]. apply C''; auto.
    + intros Hc' Hc. subst compl. intros Hn. apply app_eq_nil in Hn. destruct Hn as [N' Hn]. apply app_eq_nil in Hn.
      destruct Hn as [N'' N''']. destruct added1; [apply (T1 eq_refl N')|]. destruct added2; [apply (T2 eq_refl N'')|].
      apply (D3 Hc' eq_refl N''').
Qed.

Lemma outerPass_spec : forall P row col els compl els' compl', closedP P ->
  Forall good row -> Forall P row -> Forall good col -> Forall P col -> Forall good els -> NoDup els -> Forall P els ->
  outerPass col row els compl = Ok (els', compl') ->
  exists ext, els' = els ++ ext /\ Forall good els' /\ NoDup els' /\ Forall P els' /\
    (compl' = true -> compl = true /\ ext = [] /\
       forall a b, In a col -> In b row -> In (mul a b) els /\ exists c, inv (mul a b) = Ok c /\ In c els) /\
    (compl' = false -> compl = true -> ext <> []).
Proof.
  intros P row. induction col as [|a col IH]; intros els compl els' compl' HP Gr Pr Gc Pc Ge Ne Pe H; cbn [Symmetry.outerPass] in H.
  - inversion H; subst. exists []. rewrite app_nil_r. split; auto. split; auto. split; auto. split; auto.
    split; [intros; split; auto; split; auto; intros a b []|congruence].
  - inversion Gc; inversion Pc; subst. rewrite Hcopy in H by auto.
    destruct (innerPass a row els compl) as [[e1 c1]| | |] eqn:E; try discriminate. cbn [bind fst snd] in H.
    destruct (innerPass_spec P _ _ _ _ _ _ HP H2 H6 Gr Pr Ge Ne Pe E) as [x1 [X1 [G1 [N1 [P1 [C1 D1]]]]]].
    destruct (IH _ _ _ _ HP Gr Pr H3 H7 G1 N1 P1 H) as [x2 [X2 [G2 [N2 [P2 [C2 D2]]]]]].
    exists (x1 ++ x2). split; [rewrite X2, X1, app_assoc; auto|]. split; auto. split; auto. split; auto. split.
    + intros Hc. destruct (C2 Hc) as [A [B C]]. destruct (C1 A) as [A' [B' C']]. subst x1 x2. rewrite app_nil_r in X1. subst e1.
      split; auto. split; auto. intros a' b [->|Ha] Hb; auto.
    + intros Hc Hc0. destruct c1.
      * intros Hn. apply app_eq_nil in Hn. destruct Hn. apply (D2 Hc eq_refl); auto.
      * intros Hn. apply app_eq_nil in Hn. destruct Hn. apply (D1 eq_refl Hc0); auto.
Qed.

Definition isGroup (els : list S) : Prop :=
  In ident els /\ NoDup els /\ (forall a b, In a els -> In b els -> In (mul a b) els) /\
  (forall a, In a els -> exists c, inv a = Ok c /\ In c els).

Lemma completeLoop_spec : forall P fuel els els', closedP P ->
  Forall good els -> NoDup els -> Forall P els -> In ident els ->
  completeLoop S eqb mul inv copy fuel els = Ok els' ->
  (exists ext, els' = els ++ ext) /\ Forall P els' /\ Forall good els' /\ isGroup els'.
Proof.
  intros P. induction fuel as [|fuel IH]; intros els els' HP HG HN HPe HI H; cbn [completeLoop] in H; [discriminate|].
  destruct (outerPass els els els true) as [[e c]| | |] eqn:E; try discriminate. cbn [bind fst snd] in H.
  destruct (outerPass_spec P _ _ _ _ _ _ HP HG HPe HG HPe HG HN HPe E) as [x [X [G1 [N1 [P1 [C1 D1]]]]]].
  destruct c.
  - inversion H; subst els'. clear H. destruct (C1 eq_refl) as [_ [-> C]]. rewrite app_nil_r in X. subst e.
    split; [exists []; rewrite app_nil_r; auto|]. split; auto. split; auto. split; auto. split; auto. split.
    + intros a b Ha Hb. apply C; auto.
    + intros a Ha. destruct (C ident a HI Ha) as [_ [d [D1' D2]]].
      assert (good a) by (rewrite Forall_forall in HG; auto). rewrite Hidl in D1' by auto. eauto.
  - assert (HI' : In ident e) by (rewrite X, in_app_iff; auto).
    destruct (IH _ _ HP G1 N1 P1 HI' H) as [[ext Ex] R]. split; auto. subst. exists (x ++ ext). rewrite app_assoc; auto.
Qed.

(** What every product of starting elements and inverses is. *)
Inductive generated (start : list S) : S -> Prop :=
| gen_in : forall a, In a start -> generated start a
| gen_mul : forall a b, generated start a -> generated start b -> generated start (mul a b)
| gen_inv : forall a b, generated start a -> inv a = Ok b -> generated start b.

Lemma makeComplete_spec : forall fuel start els,
  Forall good start -> NoDup start -> In ident start ->
  makeCompleteGroup S eqb mul inv copy fuel start = Ok els ->
  incl start els /\ isGroup els /\ Forall good els /\ (forall a, In a els <-> generated start a).
Proof.
  intros fuel start els HG HN HI H. unfold makeCompleteGroup in H.
  destruct (addInverses S eqb inv copy start start) as [e1| | |] eqn:E1; try discriminate. cbn [bind] in H.
  set (P := generated start).
  assert (HP : closedP P) by (split; [apply gen_mul|apply gen_inv]).
  assert (HPs : Forall P start) by (apply Forall_forall; apply gen_in).
  destruct (addInverses_spec P _ _ _ HP HG HN HG HPs HPs E1) as [x1 [X1 [G1 [N1 P1]]]].
  assert (HI1 : In ident e1) by (rewrite X1, in_app_iff; auto).
  destruct (completeLoop_spec P _ _ _ HP G1 N1 P1 HI1 H) as [[x2 X2] [P2 [G2 GR]]].
  assert (IN : incl start els) by (intros a Ha; rewrite X2, X1, !in_app_iff; auto).
  split; auto. split; auto. split; auto. intros a. split.
  - rewrite Forall_forall in P2. apply P2.
  - destruct GR as [_ [_ [CM CI]]]. induction 1; auto.
    destruct (CI a IHgenerated) as [c [Ec Ic]]. rewrite Ec in H1. inversion H1; subst; auto.
Qed.

(** Termination when the generated group is finite. *)
Lemma innerPass_total : forall G a row els compl,
  (forall x y, In x G -> In y G -> In (mul x y) G) -> (forall x, In x G -> exists c, inv x = Ok c /\ In c G) ->
  Forall good G -> In a G -> incl row G -> incl els G -> NoDup els -> 
  exists els' compl', innerPass a row els compl = Ok (els', compl') /\ incl els' G.
Proof.
  intros G a. induction row as [|b row IH]; intros els compl CM CI HG Ha Hr He HN; cbn [Symmetry.innerPass]; [eauto|].
  assert (HG' := HG). rewrite Forall_forall in HG.
  assert (Hb : In b G) by (apply Hr; simpl; auto). assert (Hm := CM a b Ha Hb).
  assert (Ge : Forall good els) by (apply Forall_forall; auto).
  rewrite Hcopy by auto. destruct (gadd_spec els (mul a b) Ge HN (HG _ Hm)) as [e1 [E1 [_ [_ [_ [G1 [N1 X1]]]]]]].
  destruct (gadd els (mul a b)) as [els1 added1]. cbn [fst snd] in *.
  destruct (CI _ Hm) as [c [Ec Ic]]. rewrite Ec. cbn [bind]. rewrite Hcopy by auto.
  destruct (gadd_spec els1 c G1 N1 (HG _ Ic)) as [e2 [E2 [_ [_ [_ [G2 [N2 X2]]]]]]].
  destruct (gadd els1 c) as [els2 added2]. cbn [fst snd] in *.
  apply IH; auto.
  - intros x Hx. apply Hr; simpl; auto.
  - intros x Hx. rewrite E2, E1, !in_app_iff in Hx. destruct Hx as [[Hx|Hx]|Hx]; auto.
    + rewrite (X1 x Hx); auto.
    + rewrite (X2 x Hx); auto.
Qed.
Lemma outerPass_total : forall G row col els compl,
  (forall x y, In x G -> In y G -> In (mul x y) G) -> (forall x, In x G -> exists c, inv x = Ok c /\ In c G) ->
  Forall good G -> incl col G -> incl row G -> incl els G -> NoDup els ->
  exists els' compl', outerPass col row els compl = Ok (els', compl') /\ incl els' G.
Proof.
  intros G row. induction col as [|a col IH]; intros els compl CM CI HG Hc Hr He HN; cbn [Symmetry.outerPass]; [eauto|].
  assert (Ha : In a G) by (apply Hc; simpl; auto). assert (HG' := HG). rewrite Forall_forall in HG.
  rewrite Hcopy by auto. destruct (innerPass_total G a row els compl CM CI HG' Ha Hr He HN) as [e1 [c1 [E1 I1]]].
  rewrite E1. cbn [bind fst snd].
  assert (HP : closedP (fun x => In x G)).
  { split; auto. intros x y Hx Hy. destruct (CI x Hx) as [c [Ec Ic]]. rewrite Ec in Hy. inversion Hy; subst; auto. }
  assert (A : forall l, incl l G -> Forall good l) by (intros l Hl; apply Forall_forall; auto).
  assert (B : forall l, incl l G -> Forall (fun x => In x G) l) by (intros l Hl; apply Forall_forall; auto).
  destruct (innerPass_spec (fun x => In x G) _ _ _ _ _ _ HP (HG _ Ha) Ha (A _ Hr) (B _ Hr) (A _ He) HN (B _ He) E1)
    as [x1 [_ [_ [N1 _]]]].
  apply IH; auto. intros x Hx. apply Hc; simpl; auto.
Qed.
Lemma completeLoop_total : forall G fuel els,
  (forall x y, In x G -> In y G -> In (mul x y) G) -> (forall x, In x G -> exists c, inv x = Ok c /\ In c G) ->
  Forall good G -> incl els G -> NoDup els -> (length G < fuel + length els)%nat ->
  exists els', completeLoop S eqb mul inv copy fuel els = Ok els'.
Proof.
  intros G. induction fuel as [|fuel IH]; intros els CM CI HG He HN Hf; cbn [completeLoop].
  - exfalso. assert (length els <= length G)%nat by (apply NoDup_incl_length; auto). lia.
  - destruct (outerPass_total G els els els true CM CI HG He He He HN) as [e [c [E I]]]. rewrite E. cbn [bind fst snd].
    destruct c; [eauto|].
    assert (HP : closedP (fun x => In x G)).
    { split; auto. intros x y Hx Hy. destruct (CI x Hx) as [c [Ec Ic]]. rewrite Ec in Hy. inversion Hy; subst; auto. }
    assert (A : Forall good els) by (apply Forall_forall; rewrite Forall_forall in HG; auto).
    assert (B : Forall (fun x => In x G) els) by (apply Forall_forall; auto).
    destruct (outerPass_spec (fun x => In x G) _ _ _ _ _ _ HP A B A B A HN B E) as [x1 [X [_ [N1 [_ [_ D1]]]]]].
    assert (x1 <> []) by (apply D1; auto). subst e. apply IH; auto.
    rewrite app_length. destruct x1; [congruence|]. simpl. lia.
Qed.
Lemma addInverses_total : forall G todo els,
  (forall x, In x G -> exists c, inv x = Ok c /\ In c G) ->
  Forall good G -> incl todo G -> incl els G -> NoDup els ->
  exists els', addInverses S eqb inv copy todo els = Ok els' /\ incl els' G /\ NoDup els' /\ (length els <= length els')%nat.
Proof.
  intros G. induction todo as [|e todo IH]; intros els CI HG Ht He HN; cbn [addInverses]; [eauto|].
  destruct (CI e) as [c [Ec Ic]]; [apply Ht; simpl; auto|]. rewrite Ec. cbn [bind].
  assert (HG' := HG). rewrite Forall_forall in HG. rewrite Hcopy by auto.
  assert (A : Forall good els) by (apply Forall_forall; auto).
  destruct (gadd_spec els c A HN (HG _ Ic)) as [e1 [E1 [_ [_ [_ [_ [N1 X1]]]]]]].
  destruct (IH (fst (gadd els c))) as [e' [E2 [I2 [N2 L2]]]]; auto.
  - intros x Hx; apply Ht; simpl; auto.
  - rewrite E1. intros x Hx. rewrite in_app_iff in Hx. destruct Hx as [Hx|Hx]; auto. rewrite (X1 x Hx); auto.
  - exists e'. split; auto. split; auto. split; auto. rewrite E1, app_length in L2. lia.
Qed.
Lemma makeComplete_total : forall G fuel start,
  (forall x y, In x G -> In y G -> In (mul x y) G) -> (forall x, In x G -> exists c, inv x = Ok c /\ In c G) ->
  Forall good G -> incl start G -> NoDup start -> (length G < fuel + length start)%nat ->
  exists els, makeCompleteGroup S eqb mul inv copy fuel start = Ok els.
Proof.
  intros G fuel start CM CI HG Hs HN Hf. unfold makeCompleteGroup.
  destruct (addInverses_total G start start CI HG Hs Hs HN) as [e [E [I [N L]]]]. rewrite E. cbn [bind].
  eapply completeLoop_total; eauto. lia.
Qed.

(** isValid accepts exactly the groups. *)
Lemma gisValid_iff : forall els, Forall good els ->
  (gisValid S eqb mul inv ident els = Ok true <-> isGroup els).
Proof.
  intros els HG. unfold gisValid, isGroup.
  set (inner := fun (i : nat) (a : S) => (fix inner (j : nat) (m : list S) : outcome bool :=
            match m with
            | [] => Ok true
            | b :: m' =>
                check (if Nat.eqb i j then true else negb (eqb a b)) ;;
                check (gfind els (mul a b)) ;;
                inner (Datatypes.S j) m'
            end)).
  assert (IN : forall i a m j, good a -> Forall good m ->
     (inner i a j m = Ok true <->
      (forall k, (k < length m)%nat -> (j + k)%nat <> i -> nth k m a <> a) /\ (forall b, In b m -> In (mul a b) els)) /\
     (forall r, inner i a j m = Ok r -> r = true)).
  { intros i a. induction m as [|b m IH]; intros j Ga Gm; cbn [inner].
    - split; [|intros r Hr; inversion Hr; auto]. split; auto. intros _. split; [simpl; intros; lia|simpl; tauto].
    - inversion Gm; subst. destruct (IH (Datatypes.S j) Ga H2) as [IH1 IH2].
      destruct (Nat.eqb_spec i j) as [Eij|Nij].
      + cbn [check bind]. destruct (gfind els (mul a b)) eqn:F; cbn [check bind].
        * apply gfind_iff in F; auto. split; [|auto]. fold (inner i a). rewrite IH1. split; intros [A B]; split.
          -- intros [|k] Hk Hn; [exfalso; lia|]. cbn [nth]. apply A; [simpl in Hk; lia|lia].
          -- intros b' [->|Hb]; auto.
          -- intros k Hk Hn. specialize (A (Datatypes.S k)). cbn [nth length] in A. apply A; lia.
          -- intros; apply B; simpl; auto.
        * split; [|discriminate]. split; [discriminate|]. intros [_ B]. exfalso.
          assert (X : gfind els (mul a b) = true) by (apply gfind_iff; auto; apply B; simpl; auto). congruence.
      + destruct (eqb a b) eqn:Eab; cbn [negb check bind].
        * split; [|discriminate]. split; [discriminate|]. intros [A _]. apply Heqb in Eab; auto. subst b.
          exfalso. apply (A O); simpl; try lia. auto.
        * destruct (gfind els (mul a b)) eqn:F; cbn [check bind].
          -- apply gfind_iff in F; auto. split; [|auto]. fold (inner i a). rewrite IH1. split; intros [A B]; split.
             ++ intros [|k] Hk Hn; cbn [nth].
                ** intros ->. assert (eqb a a = true) by (apply Heqb; auto). congruence.
                ** apply A; [simpl in Hk; lia|lia].
             ++ intros b' [->|Hb]; auto.
             ++ intros k Hk Hn. specialize (A (Datatypes.S k)). cbn [nth length] in A. apply A; lia.
             ++ intros; apply B; simpl; auto.
          -- split; [|discriminate]. split; [discriminate|]. intros [_ B]. exfalso.
             assert (X : gfind els (mul a b) = true) by (apply gfind_iff; auto; apply B; simpl; auto). congruence. }
  set (outer := (fix outer (i : nat) (l : list S) : outcome bool :=
     match l with
     | [] => Ok true
     | a :: l' =>
         c <- inv a ;;
         check (gfind els c) ;;
         inner i a O els ;;
         outer (Datatypes.S i) l'
     end)).
  assert (OUT : forall l i, Forall good l ->
     (outer i l = Ok true <->
      forall k a, nth_error l k = Some a ->
        (exists c, inv a = Ok c /\ In c els) /\
        (forall m, (m < length els)%nat -> m <> (i + k)%nat -> nth m els a <> a) /\
        (forall b, In b els -> In (mul a b) els))).
  { induction l as [|a l IH]; intros i Gl; cbn [outer].
    - split; auto. intros _ k a H. destruct k; discriminate.
    - inversion Gl; subst. destruct (IN i a els O H1 HG) as [I1 I2].
      split.
      + intros H. destruct (inv a) as [c| | |] eqn:Ec; try discriminate. cbn [bind] in H.
        destruct (gfind els c) eqn:F; try discriminate. cbn [check bind] in H.
        destruct (inner i a O els) as [r| | |] eqn:EI; try discriminate. cbn [bind] in H.
        rewrite (I2 r eq_refl) in *. destruct (proj1 I1 eq_refl) as [A B].
        intros [|k] x Hk; cbn [nth_error] in Hk.
        * inversion Hk; subst x. split; [exists c; split; auto; apply gfind_iff; eauto|].
          rewrite Nat.add_0_r. split; auto.
        * rewrite Nat.add_succ_r. apply (proj1 (IH (Datatypes.S i) H2) H k x Hk).
      + intros H. destruct (H O a eq_refl) as [[c [Ec Ic]] [A B]]. rewrite Ec. cbn [bind].
        rewrite (proj2 (gfind_iff els c HG (Hinv a c H1 Ec)) Ic). cbn [check bind].
        assert (EI : inner i a O els = Ok true).
        { apply I1. split; auto. intros k Hk Hn. apply A; auto. lia. }
        rewrite EI. cbn [bind]. apply (IH (Datatypes.S i) H2). intros k x Hk.
        destruct (H (Datatypes.S k) x Hk) as [P1 [P2 P3]]. split; auto. split; auto.
        intros m Hm Hn. apply P2; auto. lia. }
  fold inner. change ((check (gfind els ident);; outer O els) = Ok true <-> In ident els /\ NoDup els /\
    (forall a b : S, In a els -> In b els -> In (mul a b) els) /\
    (forall a : S, In a els -> exists c : S, inv a = Ok c /\ In c els)).
  split.
  - intros H. destruct (gfind els ident) eqn:F; try discriminate. cbn [check bind] in H.
    apply gfind_iff in F; auto. assert (O := proj1 (OUT els O HG) H).
    split; auto. split; [|split].
    + apply NoDup_nth_error. intros i j Hi Eij. destruct (nth_error els i) as [a|] eqn:Ea.
      2:{ apply nth_error_None in Ea. lia. }
      destruct (Nat.eq_dec i j) as [|N]; auto. exfalso. symmetry in Eij.
      assert (Hj : (j < length els)%nat) by (apply nth_error_Some; congruence).
      destruct (O i a Ea) as [_ [A _]]. apply (A j Hj); [lia|]. apply (nth_error_nth els j a Eij).
    + intros a b Ha Hb. destruct (In_nth_error _ _ Ha) as [k Hk]. destruct (O k a Hk) as [_ [_ C]]. auto.
    + intros a Ha. destruct (In_nth_error _ _ Ha) as [k Hk]. destruct (O k a Hk) as [C _]. auto.
  - intros [HI [HN [CM CI]]]. rewrite (proj2 (gfind_iff els ident HG Hid) HI). cbn [check bind].
    apply OUT; auto. intros k a Hk. assert (Ha := nth_error_In _ _ Hk). split; [auto|]. split; [|auto].
    intros m Hm Hn E. apply Hn. rewrite NoDup_nth_error in HN. cbn [Nat.add]. apply HN; auto.
    rewrite Hk. rewrite (nth_error_nth' els a Hm). rewrite E. auto.
Qed.
End Group.
