(** Property C50: parameters of ramps and sweeps written to a stream can be read back. *)
From Coq Require Import List Arith Bool ZArith Reals String Ascii Lia.
From Verif Require Import Base ParamIo.
Import ListNotations.
Local Open Scope string_scope.

Lemma lower_idem c : lower (lower c) = lower c.
Proof. destruct c as [[] [] [] [] [] [] [] []]; reflexivity. Qed.
Lemma tolower_idem s : tolower (tolower s) = tolower s.
Proof. induction s; cbn; [reflexivity|]. rewrite lower_idem, IHs. reflexivity. Qed.
Lemma findType_name b l : forall i j n, findType b l i = Some (j, n) -> (i <= j)%nat /\ nth_error l (j - i) = Some (b, n).
Proof.
  induction l as [|[nm k] l IH]; intros i j n H; [discriminate|]. cbn in H. destruct (b =? nm) eqn:E.
  - inversion H; subst. split; [lia|]. apply String.eqb_eq in E. subst. rewrite Nat.sub_diag. reflexivity.
  - destruct (IH _ _ _ H) as [A B]. split; [lia|]. replace (j - i)%nat with (S (j - S i)) by lia. exact B.
Qed.
Lemma readIds_write n : forall l ids r x r', readIds n l = Ok (ids, r) -> readIds n (List.map Int ids ++ Num x :: r') = Ok (ids, Num x :: r').
Proof.
  induction n; intros l ids r x r' H; cbn in H.
  - inversion H; subst. reflexivity.
  - destruct l as [|[s|z|y] l]; try discriminate. destruct (readIds n l) as [[a b]|?|?|] eqn:E; try discriminate.
    cbn in H. inversion H; subst. cbn. rewrite (IHn _ _ _ _ _ E). reflexivity.
Qed.

(** A class of parameters whose written type is read as the same type gives a round trip. *)
Lemma roundtrip (rd : string -> outcome (ptype * nat)) (ty : ptype -> outcome string) l p r :
  (forall w t n, rd w = Ok (t, n) -> t = qType p -> exists s, ty t = Ok s /\ rd s = Ok (t, n)) ->
  readParam rd l = Ok (p, r) ->
  exists out, writeParam ty p = Ok out /\ forall r', readParam rd (out ++ r') = Ok (p, r').
Proof.
  intros H E. unfold readParam in E. destruct l as [|[w|z|x] l]; try discriminate.
  destruct (rd w) as [[t n]|?|?|] eqn:ER; try discriminate. cbn [bind snd fst] in E.
  destruct (readIds n l) as [[ids l']|?|?|] eqn:EI; try discriminate. cbn [bind snd fst] in E.
  destruct l' as [|[s|z|x] l']; try discriminate. inversion E; subst. clear E.
  destruct (H w t n ER eq_refl) as (s & ES & RS). unfold writeParam. cbn [qType qIds qChange]. rewrite ES. cbn [bind].
  eexists. split; [reflexivity|]. intros r'. unfold readParam. rewrite <- app_comm_cons, RS. cbn [bind snd fst].
  rewrite <- app_assoc. cbn [app]. rewrite (readIds_write _ _ _ _ _ _ EI). reflexivity.
Qed.
Ltac cases E := repeat match type of E with (if ?b then _ else _) = _ => destruct b eqn:? end.

(** C50 for ramps, every type but v_monomer: a parameter that could be read is written,
    and the written text, whatever follows it, is read as the same parameter. *)
Theorem C50_ramp : forall thread l p r, readParam (rampReadType thread) l = Ok (p, r) -> qType p <> Vmonomer ->
  exists out, writeParam (rampType thread) p = Ok out /\ forall r', readParam (rampReadType thread) (out ++ r') = Ok (p, r').
Proof.
  intros thread l p r E NV. apply (roundtrip _ _ l p r); [|exact E]. intros w t n ER ET. subst t. revert NV ER. generalize (qType p). clear.
  intros t NV ER. unfold rampReadType in ER. cases ER; try (inversion ER; subst; clear ER; eexists; split; [reflexivity|reflexivity]); try discriminate.
  - destruct thread; [|discriminate]. inversion ER; subst. eexists. split; reflexivity.
  - inversion ER; subst. congruence.
Qed.
Print Assumptions C50_ramp.
(** The type v_monomer is written as a word that is not a type. *)
Theorem C50_vmonomer_refuted : exists l p r out, forall thread,
  readParam (rampReadType thread) l = Ok (p, r) /\ writeParam (rampType thread) p = Ok out /\ readParam (rampReadType thread) out = Throw.
Proof. exists [Word "v_monomer"; Num 1%R], (mkParam Vmonomer [] 1%R), [], [Word "vMonomer"; Num 1%R]. intros thread. repeat split. Qed.
Print Assumptions C50_vmonomer_refuted.

Lemma special_read types b i n : findType (tolower b) types 0 = Some (i, n) ->
  nth_error types i = Some (tolower b, n).
Proof. intros H. apply findType_name in H. destruct H as [_ H]. rewrite Nat.sub_0_r in H. exact H. Qed.

(** C50 for sweeps of periodic systems: every type, including specialized ones. *)
Theorem C50_sweep : forall types l p r, readParam (sweepReadType types) l = Ok (p, r) ->
  exists out, writeParam (sweepType types) p = Ok out /\ forall r', readParam (sweepReadType types) (out ++ r') = Ok (p, r').
Proof.
  intros types l p r E. apply (roundtrip _ _ l p r); [|exact E]. intros w t n ER _. unfold sweepReadType in ER.
  cases ER; try (inversion ER; subst; clear ER; eexists; split; [reflexivity|reflexivity]).
  destruct types as [tl|]; [|discriminate]. destruct (findType (tolower w) tl 0) as [[i m]|] eqn:EF; [|discriminate].
  destruct (0 <? m)%nat eqn:EM; [|discriminate]. inversion ER; subst; clear ER. exists (tolower w). cbn [sweepType].
  rewrite (special_read _ _ _ _ EF). split; [reflexivity|]. unfold sweepReadType. rewrite tolower_idem.
  repeat match goal with H : ?b = false |- _ => rewrite H; clear H end. rewrite EF, EM. reflexivity.
Qed.
Print Assumptions C50_sweep.

(** C50 for sweeps of one-dimensional systems, every type but cell_param. *)
Theorem C50_r1d_sweep : forall types l p r, readParam (r1dReadType types) l = Ok (p, r) -> qType p <> Cell_Param ->
  exists out, writeParam (r1dType types) p = Ok out /\ forall r', readParam (r1dReadType types) (out ++ r') = Ok (p, r').
Proof.
  intros types l p r E NC. apply (roundtrip _ _ l p r); [|exact E]. intros w t n ER ET. subst t. revert NC ER. generalize (qType p). clear.
  intros t NC ER. unfold r1dReadType in ER.
  cases ER; try (inversion ER; subst; clear ER; eexists; split; [reflexivity|reflexivity]).
  - inversion ER; subst. congruence.
  - destruct types as [tl|]; [|discriminate]. destruct (findType (tolower w) tl 0) as [[i m]|] eqn:EF; [|discriminate].
    destruct (0 <? m)%nat eqn:EM; [|discriminate]. inversion ER; subst; clear ER. exists (tolower w). cbn [r1dType].
    rewrite (special_read _ _ _ _ EF). split; [reflexivity|]. unfold r1dReadType. rewrite tolower_idem.
    repeat match goal with H : ?b = false |- _ => rewrite H; clear H end. rewrite EF, EM. reflexivity.
Qed.
Print Assumptions C50_r1d_sweep.
(** cell_param is read by one-dimensional sweeps but cannot be written (nor used:
    reading a LinearSweep calls type() for every parameter). *)
Theorem C50_r1d_cell_refuted : exists l p r, forall types,
  readParam (r1dReadType types) l = Ok (p, r) /\ writeParam (r1dType types) p = Throw.
Proof. exists [Word "cell_param"; Int 0; Num 1%R], (mkParam Cell_Param [0%Z] 1%R), []. intros types. split; reflexivity. Qed.
Print Assumptions C50_r1d_cell_refuted.

(** The meaning of the words: the types documented for ramps (doc of RampParameter.h
    and the user manual) and the number of indices that follow each word. *)
Definition commonWords : list (string * (ptype * nat)) :=
  [("block", (Block, 2%nat)); ("block_length", (Block, 2%nat)); ("chi", (Chi, 2%nat)); ("kuhn", (Kuhn, 1%nat));
   ("phi_polymer", (Phi_Polymer, 1%nat)); ("phi_solvent", (Phi_Solvent, 1%nat));
   ("mu_polymer", (Mu_Polymer, 1%nat)); ("mu_solvent", (Mu_Solvent, 1%nat));
   ("solvent", (Solvent, 1%nat)); ("solvent_size", (Solvent, 1%nat)); ("cell_param", (Cell_Param, 1%nat))].
Definition rampWords := (commonWords ++ [("lambda_pert", (Lambda_Pert, 0%nat)); ("v_monomer", (Vmonomer, 0%nat))])%list.
Ltac words b :=
  repeat match goal with
  | |- context[(b =? ?s)] => destruct (String.eqb_spec b s) as [->|?]; cbn [orb]
  end.
Ltac inwords := repeat (try (left; reflexivity); right).
Theorem C50_ramp_words : forall thread w t n,
  rampReadType thread w = Ok (t, n) <-> In (tolower w, (t, n)) rampWords /\ (t = Block -> thread = true).
Proof.
  intros thread w t n. unfold rampReadType. generalize (tolower w). intros b. split.
  - words b; intros H; try (destruct thread; [|discriminate H]); try discriminate H;
    injection H as <- <-; (split; [cbn; tauto|intros; congruence]).
  - intros [H HT]. cbn in H. repeat destruct H as [H|H]; try contradiction; inversion H; subst; try rewrite HT by reflexivity; reflexivity.
Qed.
Print Assumptions C50_ramp_words.
(** The words of sweeps: the common ones, then the specialized types of the system in
    order, with at least one index; a word of the common table is never specialized. *)
Definition special (types : list (string * nat)) (b : string) (t : ptype) (n : nat) : Prop :=
  exists i, t = Special i /\ nth_error types i = Some (b, n) /\ (0 < n)%nat /\
    (forall j q, (j < i)%nat -> nth_error types j = Some q -> fst q <> b) /\ ~ In b (List.map fst commonWords).
Lemma findType_spec b types i0 i n :
  findType b types i0 = Some (i, n) <->
  (i0 <= i)%nat /\ nth_error types (i - i0) = Some (b, n) /\
  (forall j q, (j < i - i0)%nat -> nth_error types j = Some q -> fst q <> b).
Proof.
  revert i0. induction types as [|[name m] r IH]; intros i0; cbn [findType].
  - split; [discriminate|]. intros (_ & H & _). destruct (i - i0)%nat; discriminate.
  - destruct (String.eqb_spec b name) as [->|NE].
    + split.
      * intros H. inversion H; subst. rewrite Nat.sub_diag. split; [lia|]. split; [reflexivity|]. intros; lia.
      * intros (L & H & F). destruct (i - i0)%nat as [|k] eqn:EK.
        -- cbn in H. inversion H; subst. f_equal. f_equal. lia.
        -- exfalso. apply (F 0%nat (name, m)); [lia|reflexivity|reflexivity].
    + rewrite IH. split.
      * intros (L & H & F). replace (i - i0)%nat with (S (i - S i0)) by lia. split; [lia|]. split; [exact H|].
        intros [|j] q Hj Hq; [cbn in Hq; inversion Hq; subst; cbn; congruence|]. apply (F j q); [lia|exact Hq].
      * intros (L & H & F). destruct (i - i0)%nat as [|k] eqn:EK; [cbn in H; inversion H; congruence|].
        split; [lia|]. replace (i - S i0)%nat with k by lia. split; [exact H|]. intros j q Hj Hq. apply (F (S j) q); [lia|exact Hq].
Qed.
Theorem C50_sweep_words : forall types w t n,
  sweepReadType (Some types) w = Ok (t, n) <-> In (tolower w, (t, n)) commonWords \/ special types (tolower w) t n.
Proof.
  intros types w t n. unfold sweepReadType. generalize (tolower w). intros b. split.
  - words b; intros H; try (injection H as <- <-; left; cbn; tauto). right.
    destruct (findType b types 0) as [[i m]|] eqn:EF; [|discriminate]. destruct (0 <? m)%nat eqn:EM; [|discriminate].
    cbn in H. injection H as <- <-. apply findType_spec in EF. destruct EF as (_ & EF & F). rewrite Nat.sub_0_r in *.
    exists i. repeat split; auto; [apply Nat.ltb_lt, EM|]. cbn. intuition congruence.
  - intros [H|(i & -> & H & Hn & F & NI)].
    + cbn in H. repeat destruct H as [H|H]; try contradiction; inversion H; subst; reflexivity.
    + assert (FT : findType b types 0 = Some (i, n)) by (apply findType_spec; rewrite Nat.sub_0_r; repeat split; auto; lia).
      words b; try (exfalso; apply NI; cbn; tauto). rewrite FT. apply Nat.ltb_lt in Hn. rewrite Hn. reflexivity.
Qed.
Print Assumptions C50_sweep_words.
Theorem C50_r1d_sweep_words : forall types w t n,
  r1dReadType (Some types) w = Ok (t, n) <-> sweepReadType (Some types) w = Ok (t, n).
Proof. intros. reflexivity. Qed.
Print Assumptions C50_r1d_sweep_words.

Example C50_case : readParam (rampReadType true) [Word "Chi"; Int 0; Int 1; Num 5%R; Word "next"] = Ok (mkParam Chi [0%Z; 1%Z] 5%R, [Word "next"]).
Proof. reflexivity. Qed.
Example C50_case2 : let types := Some [("chi_bottom", 1%nat); ("chi_top", 1%nat)] in
  readParam (sweepReadType types) [Word "CHI_Top"; Int 1; Num 3%R] = Ok (mkParam (Special 1) [1%Z] 3%R, []) /\
  writeParam (sweepType types) (mkParam (Special 1) [1%Z] 3%R) = Ok [Word "chi_top"; Int 1; Num 3%R].
Proof. split; reflexivity. Qed.
Example C50_case3 : readParam (r1dReadType None) [Word "SOLVENT"; Int 2; Num 3%R] = Ok (mkParam Solvent [2%Z] 3%R, []).
Proof. reflexivity. Qed.
