(* C33: every command of a command file is executed, except possibly an
   argument-less last one. *)
From Coq Require Import List Ascii String Bool Arith Lia.
From Verif Require Import Commands.
Import ListNotations.
Open Scope string_scope.
Open Scope list_scope.
Open Scope nat_scope.
Set Implicit Arguments.

(* ------------------------------------------------------------------ *)
(* Specification.  A script is a list of commands with their arguments;
   running it executes the commands in order up to FINISH, an unknown
   command, a failed command or an exception. *)
Definition command : Type := string * list string.

Definition allc (p : ascii -> bool) (s : string) : Prop :=
  Forall (fun c => p c = true) (list_ascii_of_string s).
Definition isWord (w : string) : Prop :=
  w <> EmptyString /\ allc (fun c => negb (isSpace c)) w.
Definition isIntText (w : string) : Prop :=
  exists sgn ds, w = (sgn ++ ds)%string /\ (sgn = "" \/ sgn = "+" \/ sgn = "-")%string /\
    ds <> EmptyString /\ allc isDigit ds.
Definition isRealText (w : string) : Prop := allc isRealChar w /\ hasDigit w = true.

(* What kind of text is required of an argument. *)
Definition argOk (D : nat) (k : argk) (a : string) : Prop :=
  match k with
  | AWord => isWord a
  | AReal | ACell => isRealText a
  | AInt => isIntText a
  | ALat => isWord a /\ latParams D a <> None
  end.

(* A known command with complete, well formed arguments, or an unknown
   word. *)
Definition complete (D : nat) (c : command) : Prop :=
  isWord (fst c) /\
  match plan1 D (fst c) with
  | None => snd c = []
  | Some ks => exists a1 a2 ks2, snd c = a1 ++ a2 /\ Forall2 (argOk D) ks a1 /\
      plan2 D (fst c) (map Some a1) = Some ks2 /\ Forall2 (argOk D) ks2 a2
  end.

Definition words (c : command) : list string := fst c :: snd c.

(* The text consists of the given words, separated by white space, with
   optional white space before and after. *)
Inductive text : list string -> string -> Prop :=
| TEnd : forall sp, allc isSpace sp -> text [] sp
| TWord : forall sp w ws rest, allc isSpace sp -> isWord w ->
    (rest = EmptyString \/ exists c r, rest = String c r /\ isSpace c = true) ->
    text ws rest -> text (w :: ws) (sp ++ w ++ rest)%string.

Fixpoint lastSpace (s : string) : bool :=
  match s with
  | EmptyString => false
  | String c r => match r with EmptyString => isSpace c | _ => lastSpace r end
  end.

Section Spec.
Variable St : Type.
Variable exec : string -> list (option string) -> St -> eres St.
Variable D : nat.

Fixpoint runScript (cs : list command) (s : St) : logt * St * fin :=
  match cs with
  | [] => ([], s, FEof)
  | c :: cs' =>
      if String.eqb (fst c) "FINISH" then ([], s, FStop)
      else match plan1 D (fst c) with
           | None => ([], s, FStop)
           | Some _ =>
               match exec (fst c) (map Some (snd c)) s with
               | Exc s' => ([(fst c, map Some (snd c))], s', FThrow)
               | Halt s' => ([(fst c, map Some (snd c))], s', FStop)
               | Go s' => let '(l, s'', f) := runScript cs' s' in
                          ((fst c, map Some (snd c)) :: l, s'', f)
               end
           end
  end.

(* The last command of the script has no argument and is not followed by
   white space. *)
Definition dropsLast (cs : list command) (t : string) : bool :=
  negb (lastSpace t) && match rev cs with
                        | [] => false
                        | c :: _ => match snd c with [] => true | _ => false end
                        end.

(* ------------------------------------------------------------------ *)
Lemma skipWs_app : forall sp r, allc isSpace sp -> skipWs (sp ++ r) = skipWs r.
Proof.
  induction sp as [|c sp IH]; intros r H; [reflexivity|].
  inversion H as [|? ? H1 H2]; subst. cbn. rewrite H1. now apply IH.
Qed.

Lemma span_app : forall p w rest, allc p w ->
  (rest = EmptyString \/ exists c r, rest = String c r /\ p c = false) ->
  span p (w ++ rest) = (w, rest).
Proof.
  induction w as [|c w IH]; intros rest H R; cbn.
  - destruct R as [->|(c & r & -> & E)]; cbn; [reflexivity|now rewrite E].
  - inversion H as [|? ? H1 H2]; subst. rewrite H1, IH; auto.
Qed.

Lemma word_skip : forall w rest, isWord w -> skipWs (w ++ rest) = (w ++ rest)%string /\
  isEmpty (w ++ rest) = false.
Proof.
  intros [|c w] rest [N H]; [congruence|]. inversion H as [|? ? H1 H2]; subst.
  cbn. apply negb_true_iff in H1. now rewrite H1.
Qed.

Lemma digit_not_space : forall c, isDigit c = true -> isSpace c = false.
Proof.
  intros c H. unfold isDigit in H. unfold isSpace.
  apply andb_true_iff in H. destruct H as [H1 H2]. apply Nat.leb_le in H1, H2.
  destruct (Nat.eqb_spec (nat_of_ascii c) 32); [lia|].
  destruct (Nat.leb_spec (nat_of_ascii c) 13); [lia|]. now rewrite andb_false_r.
Qed.

Lemma real_not_space : forall c, isRealChar c = true -> isSpace c = false.
Proof.
  intros c H. unfold isRealChar, isSign in H.
  repeat (apply orb_true_iff in H; destruct H as [H|H]);
    try (now apply digit_not_space);
    try (apply Ascii.eqb_eq in H; subst; reflexivity).
Qed.

(* Position in the text: the words ws remain to be read. *)
Definition at_ (ws : list string) (i : istream) : Prop :=
  failb i = false /\ text ws (chars i) /\ (eofb i = true -> chars i = EmptyString).

Lemma text_cons_nonempty : forall w ws t, text (w :: ws) t -> t <> EmptyString.
Proof.
  intros w ws t H. inversion H; subst. destruct H3 as [H3 _].
  destruct sp; [|discriminate]. cbn. destruct w; [congruence|discriminate].
Qed.

Lemma at_good : forall w ws i, at_ (w :: ws) i -> eofb i || failb i = false.
Proof.
  intros w ws i (F & T & E). rewrite F, orb_false_r. destruct (eofb i); auto.
  apply text_cons_nonempty in T. now rewrite E in T.
Qed.

Lemma app_empty_r : forall s, (s ++ "")%string = s.
Proof. induction s as [|c s IH]; cbn; [reflexivity|now rewrite IH]. Qed.

Lemma lastSpace_app : forall s r, r <> EmptyString -> lastSpace (s ++ r) = lastSpace r.
Proof.
  induction s as [|c s IH]; intros r N; [reflexivity|].
  cbn. rewrite IH by assumption. destruct s; cbn; [destruct r; congruence|reflexivity].
Qed.

Lemma lastSpace_word : forall w, allc (fun c => negb (isSpace c)) w -> lastSpace w = false.
Proof.
  induction w as [|c w IH]; intro H; [reflexivity|].
  inversion H as [|? ? H1 H2]; subst. cbn. destruct w; [now apply negb_true_iff|].
  now apply IH.
Qed.

Lemma lastSpace_text : forall sp w rest, isWord w ->
  lastSpace (sp ++ w ++ rest) = lastSpace rest.
Proof.
  intros sp w rest [N H]. destruct rest as [|c r].
  - rewrite app_empty_r, lastSpace_app by assumption. now apply lastSpace_word.
  - rewrite lastSpace_app by (destruct w; discriminate).
    now rewrite lastSpace_app by discriminate.
Qed.

Lemma text_empty : forall ws, text ws EmptyString -> ws = [].
Proof. intros [|w ws] H; [reflexivity|]. now apply text_cons_nonempty in H. Qed.

Lemma getWord_at : forall w ws i, at_ (w :: ws) i ->
  exists rest, getWord i = (Some w, mkIn rest (isEmpty rest) false) /\
    text ws rest /\ lastSpace (chars i) = lastSpace rest.
Proof.
  intros w ws i H. unfold getWord. rewrite (at_good H).
  destruct H as (_ & T & _). inversion T as [|sp w' ws' rest H1 H2 H3 H4 E1 E2]; subst.
  exists rest. rewrite skipWs_app by assumption.
  destruct (word_skip rest H2) as [K1 K2]. rewrite K1, K2.
  rewrite span_app; [|apply H2|].
  - split; [reflexivity|]. split; [assumption|]. now apply lastSpace_text.
  - destruct H3 as [->|(c & r & -> & S)]; [auto|right]. exists c, r. now rewrite S.
Qed.

Lemma allc_word : forall p w, (forall c, p c = true -> isSpace c = false) ->
  allc p w -> allc (fun c => negb (isSpace c)) w.
Proof.
  intros p w P H. unfold allc in *. eapply Forall_impl; [|exact H].
  intros c E. cbn in E. now rewrite (P c E).
Qed.

Lemma int_span : forall w rest, isIntText w ->
  (rest = EmptyString \/ exists c r, rest = String c r /\ isSpace c = true) ->
  spanInt (w ++ rest) = (w, rest) /\ hasDigit w = true /\ isWord w.
Proof.
  intros w rest (sgn & ds & -> & S & N & H) R.
  assert (R' : rest = EmptyString \/ exists c r, rest = String c r /\ isDigit c = false).
  { destruct R as [->|(c & r & -> & E)]; [auto|right]. exists c, r. split; [reflexivity|].
    destruct (isDigit c) eqn:Q; [|reflexivity]. apply digit_not_space in Q. congruence. }
  assert (HD : hasDigit ds = true).
  { destruct ds as [|c ds]; [congruence|]. inversion H; subst. cbn. now rewrite H2. }
  assert (W : allc (fun c => negb (isSpace c)) ds)
    by (apply (allc_word digit_not_space H)).
  destruct S as [->|[->| ->]]; cbn [append].
  - split; [|split; [exact HD|split; assumption]].
    rewrite <- (span_app (p := isDigit) (w := ds)) at 1 by assumption.
    destruct ds as [|c ds]; [congruence|]. inversion H as [|? ? H1 H2]; subst.
    cbn [append spanInt]. assert (Q : isSign c = false).
    { unfold isSign. destruct (Ascii.eqb_spec c "+"); [subst; discriminate|].
      destruct (Ascii.eqb_spec c "-"); [subst; discriminate|reflexivity]. }
    rewrite Q. change (String c (ds ++ rest)) with (String c ds ++ rest)%string.
    reflexivity.
  - split; [cbn [spanInt isSign]; now rewrite span_app|].
    split; [exact HD|]. split; [discriminate|]. constructor; [reflexivity|exact W].
  - split; [cbn [spanInt isSign]; now rewrite span_app|].
    split; [exact HD|]. split; [discriminate|]. constructor; [reflexivity|exact W].
Qed.

Lemma getNum_at : forall (real : bool) w ws i, at_ (w :: ws) i ->
  (if real then isRealText w else isIntText w) ->
  exists rest, getNum real i = (Some w, mkIn rest (isEmpty rest) false) /\
    text ws rest /\ lastSpace (chars i) = lastSpace rest.
Proof.
  intros real w ws i H K. unfold getNum. rewrite (at_good H).
  destruct H as (_ & T & _). inversion T as [|sp w' ws' rest H1 H2 H3 H4 E1 E2]; subst.
  exists rest. rewrite skipWs_app by assumption.
  destruct (word_skip rest H2) as [K1 K2]. rewrite K1, K2.
  assert (Q : (if real then span isRealChar (w ++ rest) else spanInt (w ++ rest)) = (w, rest)
              /\ hasDigit w = true).
  { destruct real.
    - destruct K as [K K']. split; [|exact K']. apply span_app; [exact K|].
      destruct H3 as [->|(c & r & -> & E)]; [auto|right]. exists c, r.
      split; [reflexivity|]. destruct (isRealChar c) eqn:Q; [|reflexivity].
      apply real_not_space in Q. congruence.
    - destruct (int_span K H3) as (Q1 & Q2 & _). auto. }
  destruct Q as [Q1 Q2]. rewrite Q1, Q2.
  split; [reflexivity|]. split; [assumption|]. now apply lastSpace_text.
Qed.

Lemma at_rest : forall ws rest, text ws rest -> at_ ws (mkIn rest (isEmpty rest) false).
Proof.
  intros ws rest H. split; [reflexivity|]. split; [exact H|]. cbn.
  destruct rest; [reflexivity|discriminate].
Qed.

Lemma getArg_at : forall k a ws i, argOk D k a -> at_ (a :: ws) i ->
  exists rest, getArg D k i = Some (Some a, mkIn rest (isEmpty rest) false) /\
    text ws rest /\ lastSpace (chars i) = lastSpace rest.
Proof.
  intros k a ws i K H. destruct k; cbn [argOk] in K; cbn [getArg].
  - destruct (getWord_at H) as (rest & E & T). exists rest. now rewrite E.
  - destruct (getNum_at true H K) as (rest & E & T). exists rest. now rewrite E.
  - destruct (getWord_at H) as (rest & E & T). exists rest. rewrite E.
    destruct K as [_ K]. destruct (latParams D a); [auto|congruence].
  - destruct (getNum_at false H K) as (rest & E & T). exists rest. now rewrite E.
  - destruct (getNum_at true H K) as (rest & E & T). exists rest. now rewrite E.
Qed.

Lemma getArgs_at : forall ks args ws i, Forall2 (argOk D) ks args ->
  at_ (args ++ ws) i ->
  exists i', getArgs D ks i = Some (map Some args, i') /\ at_ ws i' /\
    (args <> [] -> lastSpace (chars i) = lastSpace (chars i')) /\
    (args = [] -> i' = i) /\
    (args <> [] -> eofb i' = isEmpty (chars i')).
Proof.
  induction ks as [|k ks IH]; intros args ws i F H; inversion F as [|? a ? args' F1 F2]; subst;
    cbn [getArgs map].
  - exists i. repeat split; try tauto; apply H.
  - destruct (getArg_at k (ws := args' ++ ws) F1 H) as (rest & E & T & L).
    rewrite E. destruct (IH args' ws _ F2 (at_rest T)) as (i' & E2 & A & L2 & L3 & L4).
    rewrite E2. exists i'. split; [reflexivity|]. split; [exact A|].
    split; [|split; [discriminate|]].
    + intros _. rewrite L. destruct args' as [|b args'].
      * now rewrite (L3 eq_refl).
      * now rewrite <- L2 by discriminate.
    + intros _. destruct args' as [|b args'].
      * now rewrite (L3 eq_refl).
      * now apply L4.
Qed.

Lemma readArgs_at : forall name args ks a1 a2 ks2 ws i,
  args = a1 ++ a2 -> Forall2 (argOk D) ks a1 ->
  plan2 D name (map Some a1) = Some ks2 -> Forall2 (argOk D) ks2 a2 ->
  at_ (args ++ ws) i ->
  exists i', readArgs D name ks i = Some (map Some args, i') /\ at_ ws i' /\
    (args <> [] -> lastSpace (chars i) = lastSpace (chars i')) /\
    (args = [] -> i' = i) /\ (args <> [] -> eofb i' = isEmpty (chars i')).
Proof.
  intros name args ks a1 a2 ks2 ws i -> F1 P F2 H. rewrite <- app_assoc in H.
  destruct (@getArgs_at _ _ _ _ F1 H) as (i1 & E1 & A1 & L1 & L2 & L3).
  destruct (@getArgs_at _ _ _ _ F2 A1) as (i2 & E2 & A2 & M1 & M2 & M3).
  unfold readArgs. rewrite E1, P, E2. exists i2. rewrite map_app.
  split; [reflexivity|]. split; [exact A2|].
  destruct a1 as [|x a1].
  - rewrite (L2 eq_refl) in *. repeat split; auto.
  - split; [|split; [discriminate|]].
    + intros _. rewrite L1 by discriminate. destruct a2 as [|y a2].
      * now rewrite (M2 eq_refl).
      * now apply M1.
    + intros _. destruct a2 as [|y a2].
      * rewrite (M2 eq_refl). now apply L3.
      * now apply M3.
Qed.

Lemma getWord_end : forall i, at_ [] i -> eofb (snd (getWord i)) = true.
Proof.
  intros i (F & T & E). unfold getWord. rewrite F, orb_false_r.
  destruct (eofb i) eqn:Q; [reflexivity|].
  inversion T as [sp H|]; subst.
  rewrite <- (app_empty_r (chars i)), skipWs_app by assumption. reflexivity.
Qed.

Lemma loop_script : forall cs fuel var i s,
  Forall (complete D) cs -> at_ (List.concat (map words cs)) i -> List.length cs < fuel ->
  loop exec fuel D var i s =
  runScript (if dropsLast cs (chars i) then removelast cs else cs) s.
Proof.
  induction cs as [|[name args] cs IH]; intros fuel var i s C A F;
    (destruct fuel as [|fuel]; [cbn in F; lia|]).
  - cbn [map List.concat] in A. cbn [loop]. pose proof (getWord_end A) as E.
    destruct (getWord i) as [v i1]. cbn in E. rewrite E.
    unfold dropsLast. cbn [rev]. now rewrite andb_false_r.
  - inversion C as [|? ? C1 C2]; subst. destruct C1 as [CW CA]. cbn [fst snd] in *.
    cbn [map List.concat words fst snd app] in A.
    destruct (getWord_at A) as (rest & E & T & L). cbn [loop]. rewrite E. cbn [eofb].
    destruct rest as [|ch rest]; cbn [isEmpty].
    + (* the name is the last thing of the text *)
      apply text_empty in T. apply app_eq_nil in T. destruct T as [T1 T2].
      assert (cs = []).
      { destruct cs as [|c cs]; [reflexivity|]. cbn in T2. discriminate. }
      subst. unfold dropsLast. rewrite L. reflexivity.
    + set (r := String ch rest) in *.
      assert (RL : forall t, lastSpace t = lastSpace (chars i) ->
        runScript (if dropsLast (@cons command (name, args) cs) (chars i)
                   then removelast (@cons command (name, args) cs)
                   else @cons command (name, args) cs) s =
        runScript ((name, args) :: (if dropsLast cs t then removelast cs else cs)) s).
      { intros t Ht. destruct cs as [|c cs].
        - assert (Q : dropsLast (@cons command (name, args) nil) (chars i) = false).
          { unfold dropsLast. cbn [rev app snd]. destruct args; [|apply andb_false_r].
            cbn in T. inversion T as [sp HS|]; subst. rewrite L.
            assert (X : forall q, q <> EmptyString -> allc isSpace q -> lastSpace q = true).
            { clear. induction q as [|c q IH]; intros N H; [congruence|].
              inversion H; subst. cbn. destruct q; [assumption|]. apply IH; [discriminate|assumption]. }
            rewrite X; [reflexivity|discriminate|assumption]. }
          rewrite Q. unfold dropsLast. cbn [rev]. now rewrite andb_false_r.
        - assert (Q : dropsLast (@cons command (name, args) (c :: cs)) (chars i) = dropsLast (c :: cs) t).
          { unfold dropsLast. rewrite Ht. f_equal. cbn [rev].
            destruct (rev cs ++ [c]) as [|x l] eqn:Q; [|reflexivity].
            now apply app_eq_nil in Q. }
          rewrite Q. destruct (dropsLast (c :: cs) t); reflexivity. }
      destruct (String.eqb name "FINISH") eqn:QF.
      { rewrite (RL (chars i) eq_refl). cbn [runScript fst]. now rewrite QF. }
      destruct (plan1 D name) as [ks|] eqn:QP.
      2:{ rewrite (RL (chars i) eq_refl). cbn [runScript fst]. now rewrite QF, QP. }
      destruct CA as (a1 & a2 & ks2 & P1 & P2 & P3 & P4).
      destruct (@readArgs_at name args ks a1 a2 ks2 _ _ P1 P2 P3 P4 (at_rest T)) as (i' & E1 & A1 & L1 & L2 & _).
      change (isEmpty r) with false in E1. rewrite E1.
      assert (LS : lastSpace (chars i') = lastSpace (chars i)).
      { rewrite L. destruct args as [|x args].
        - now rewrite (L2 eq_refl).
        - now rewrite <- L1 by discriminate. }
      rewrite (RL (chars i') LS). cbn [runScript fst snd]. rewrite QF, QP.
      destruct (exec name (map Some args) s) as [s'|s'|s']; try reflexivity.
      rewrite (IH fuel name i' s' C2 A1); [reflexivity|cbn in F; lia].
Qed.

(* C33.  For every script of complete commands and every text that consists
   of its words, what readCommands does is to run the script, without its
   last command if that has no argument and the text does not end with white
   space. *)
Theorem readCommands_exact : forall cs t s fuel,
  Forall (complete D) cs -> text (List.concat (map words cs)) t ->
  List.length cs < fuel ->
  readCommands exec fuel D t s =
  runScript (if dropsLast cs t then removelast cs else cs) s.
Proof.
  intros cs t s fuel C T F. unfold readCommands.
  rewrite (@loop_script cs fuel EmptyString (mkIn t false false) s C); auto.
  split; [reflexivity|]. split; [exact T|discriminate].
Qed.

(* C33.  If the text ends with white space (a newline), or the last command
   has an argument, every command is executed. *)
Corollary readCommands_all : forall cs t s fuel,
  Forall (complete D) cs -> text (List.concat (map words cs)) t ->
  (lastSpace t = true \/ exists cs' name a args, cs = cs' ++ [(name, a :: args)]) ->
  List.length cs < fuel ->
  readCommands exec fuel D t s = runScript cs s.
Proof.
  intros cs t s fuel C T H F. rewrite (readCommands_exact s C T F).
  assert (Q : dropsLast cs t = false).
  { unfold dropsLast. destruct H as [->|(cs' & name & a & args & ->)]; [reflexivity|].
    rewrite rev_app_distr. cbn. apply andb_false_r. }
  now rewrite Q.
Qed.

(* If no command stops or throws, the log of a script without FINISH and
   unknown words is the script itself. *)
Theorem runScript_log : forall cs s,
  (forall name vs s, exists s', exec name vs s = Go s') ->
  Forall (fun c => fst c <> "FINISH"%string /\ plan1 D (fst c) <> None) cs ->
  exists s', runScript cs s = (map (fun c => (fst c, map Some (snd c))) cs, s', FEof).
Proof.
  induction cs as [|c cs IH]; intros s G F; cbn [runScript map]; [eauto|].
  inversion F as [|? ? [F1 F2] F3]; subst.
  apply String.eqb_neq in F1. rewrite F1.
  destruct (plan1 D (fst c)); [|congruence].
  destruct (G (fst c) (map Some (snd c)) s) as [s' ->].
  destruct (IH s' G F3) as [s'' ->]. eauto.
Qed.
End Spec.

(* ------------------------------------------------------------------ *)
(* The commands of a command file and the number of their arguments: file
   names, integers and real numbers, in this order except for the ANALYZE
   commands. *)
Definition usage : list (string * (nat * nat * nat)) :=
  [("FINISH", (0, 0, 0)); ("COMPUTE", (0, 0, 0)); ("ITERATE", (0, 0, 0)); ("SWEEP", (0, 0, 0));
   ("COMPRESS", (0, 0, 0)); ("CLEAR_TIMERS", (0, 0, 0)); ("SIMULATE", (0, 1, 0));
   ("READ_W_BASIS", (1, 0, 0)); ("READ_W_RGRID", (1, 0, 0));
   ("READ_H_BASIS", (1, 0, 0)); ("READ_H_RGRID", (1, 0, 0));
   ("READ_MASK_BASIS", (1, 0, 0)); ("READ_MASK_RGRID", (1, 0, 0));
   ("WRITE_PARAM", (1, 0, 0)); ("WRITE_THERMO", (1, 0, 0)); ("WRITE_STRESS", (1, 0, 0));
   ("WRITE_W_BASIS", (1, 0, 0)); ("WRITE_W_RGRID", (1, 0, 0));
   ("WRITE_C_BASIS", (1, 0, 0)); ("WRITE_C_RGRID", (1, 0, 0));
   ("WRITE_H_BASIS", (1, 0, 0)); ("WRITE_H_RGRID", (1, 0, 0));
   ("WRITE_MASK_BASIS", (1, 0, 0)); ("WRITE_MASK_RGRID", (1, 0, 0));
   ("WRITE_BLOCK_C_RGRID", (1, 0, 0)); ("WRITE_Q_ALL", (1, 0, 0)); ("WRITE_STARS", (1, 0, 0));
   ("WRITE_WAVES", (1, 0, 0)); ("WRITE_GROUP", (1, 0, 0)); ("WRITE_TIMERS", (1, 0, 0));
   ("BASIS_TO_RGRID", (2, 0, 0)); ("RGRID_TO_BASIS", (2, 0, 0)); ("KGRID_TO_RGRID", (2, 0, 0));
   ("RGRID_TO_KGRID", (2, 0, 0)); ("BASIS_TO_KGRID", (2, 0, 0)); ("KGRID_TO_BASIS", (2, 0, 0));
   ("COMPARE_BASIS", (2, 0, 0)); ("COMPARE_RGRID", (2, 0, 0)); ("ESTIMATE_W_BASIS", (2, 0, 0));
   ("WRITE_Q_SLICE", (1, 4, 0)); ("WRITE_Q_TAIL", (1, 3, 0)); ("WRITE_Q", (1, 3, 0));
   ("CHECK_RGRID_SYMMETRY", (1, 0, 1)); ("SCALE_BASIS", (2, 0, 1)); ("SCALE_RGRID", (2, 0, 1));
   ("EXPAND_RGRID_DIMENSION", (2, 1, 0))]%string.
Definition usageArgs (u : nat * nat * nat) : list argk :=
  let '(w, i, r) := u in repeat AWord w ++ repeat AInt i ++ repeat AReal r.

Theorem command_arguments : forall D,
  Forall (fun u => plan1 D (fst u) = Some (usageArgs (snd u))) usage /\
  plan1 D "SET_UNIT_CELL" = Some [ALat] /\
  plan1 D "ANALYZE" = Some [AInt; AInt; AWord; AWord] /\
  plan1 D "ANALYZE_TRAJECTORY" = Some [AInt; AInt; AWord; AWord] /\
  plan1 D "REPLICATE_UNIT_CELL" = Some (AWord :: AWord :: repeat AInt D).
Proof. intros D. repeat split. unfold usage. repeat constructor. Qed.

(* Any other word is not a command. *)
Lemma existsb_eqb : forall name l, existsb (String.eqb name) l = true -> In name l.
Proof.
  intros name l H. apply existsb_exists in H. destruct H as (x & H1 & H2).
  apply String.eqb_eq in H2. now subst.
Qed.
Theorem other_words : forall D name, plan1 D name <> None ->
  In name (map fst usage ++
    ["SET_UNIT_CELL"; "ANALYZE"; "ANALYZE_TRAJECTORY"; "REPLICATE_UNIT_CELL"]%string).
Proof.
  intros D name H. unfold plan1 in H. cbv zeta in H.
  assert (S : forall l l', forallb (fun x => existsb (String.eqb x) l') l = true ->
    existsb (String.eqb name) l = true -> In name l').
  { intros l l' I E. apply existsb_eqb. rewrite forallb_forall in I.
    now apply I, existsb_eqb. }
  repeat match type of H with
  | context [if existsb (String.eqb name) ?l then _ else _] =>
      destruct (existsb (String.eqb name) l) eqn:E;
      [revert E; apply S; vm_compute; reflexivity|clear E]
  | context [if String.eqb name ?w then _ else _] =>
      destruct (String.eqb name w) eqn:E;
      [apply String.eqb_eq in E; rewrite E; apply existsb_eqb; vm_compute; reflexivity|clear E]
  end.
  congruence.
Qed.

(* The further arguments: the parameters of the unit cell, and the grid
   dimensions of the added directions. *)
Theorem further_arguments : forall D name vs ks, plan2 D name vs = Some ks ->
  (name = "SET_UNIT_CELL"%string /\ exists lat, vs = [Some lat] /\
     latParams D lat = Some (List.length ks) /\ Forall (eq ACell) ks) \/
  (name = "EXPAND_RGRID_DIMENSION"%string /\ exists a b d, vs = [a; b; Some d] /\
     natOf d = D + List.length ks /\ List.length ks <> 0 /\ Forall (eq AInt) ks) \/
  (name <> "SET_UNIT_CELL"%string /\ name <> "EXPAND_RGRID_DIMENSION"%string /\ ks = []).
Proof.
  intros D name vs ks H. unfold plan2 in H.
  assert (R : forall (x : argk) n, Forall (eq x) (repeat x n)).
  { intros x n. induction n; constructor; auto. }
  destruct (String.eqb name "SET_UNIT_CELL") eqn:E1.
  { apply String.eqb_eq in E1. left. split; [assumption|].
    destruct vs as [|[lat|] [|]]; try discriminate.
    destruct (latParams D lat) as [n|] eqn:L; [|discriminate]. injection H as <-.
    exists lat. rewrite repeat_length. auto. }
  apply String.eqb_neq in E1. right.
  destruct (String.eqb name "EXPAND_RGRID_DIMENSION") eqn:E2.
  { apply String.eqb_eq in E2. left. split; [assumption|].
    destruct vs as [|a [|b [|[d|] [|]]]]; try discriminate.
    destruct (D <? natOf d) eqn:L; [|discriminate]. injection H as <-.
    apply Nat.ltb_lt in L. exists a, b, d. rewrite repeat_length.
    repeat split; auto; lia. }
  apply String.eqb_neq in E2. right. injection H as <-. auto.
Qed.

(* ------------------------------------------------------------------ *)
Definition nl : string := String "010"%char EmptyString.
Definition script1 : list command :=
  [("SET_UNIT_CELL", ["cubic"; "1.5e0"]); ("READ_W_BASIS", ["in/w.bf"]);
   ("WRITE_Q", ["q"; "0"; "+1"; "0"]); ("ITERATE", [])]%string.
Definition text1 : string :=
  ("SET_UNIT_CELL cubic 1.5e0" ++ nl ++ "READ_W_BASIS   in/w.bf" ++ nl ++
   "WRITE_Q q 0 +1 0" ++ nl ++ "ITERATE")%string.

Ltac wordt := split; [discriminate|repeat constructor].
Lemma script1_complete : Forall (complete 3) script1.
Proof.
  repeat constructor; try discriminate; cbn [fst snd plan1].
  - exists ["cubic"%string], ["1.5e0"%string], [ACell].
    repeat (split || constructor); try discriminate; reflexivity.
  - exists ["in/w.bf"%string], [], [].
    repeat (split || constructor); try discriminate; reflexivity.
  - exists ["q"; "0"; "+1"; "0"]%string, [], [].
    split; [reflexivity|]. split; [|split; [reflexivity|constructor]].
    repeat constructor; cbn [argOk]; try discriminate; try reflexivity.
    + exists ""%string, "0"%string. repeat (split || constructor); auto; discriminate.
    + exists "+"%string, "1"%string. repeat (split || constructor); auto; discriminate.
    + exists ""%string, "0"%string. repeat (split || constructor); auto; discriminate.
  - exists [], [], []. repeat (split || constructor).
Qed.

Lemma text_intro : forall sp w ws c r, allc isSpace sp -> isWord w -> isSpace c = true ->
  text ws (String c r) -> text (w :: ws) (sp ++ w ++ String c r)%string.
Proof. intros. constructor; auto. right. eauto. Qed.
Lemma text_last : forall sp w, allc isSpace sp -> isWord w ->
  text [w] (sp ++ w ++ "")%string.
Proof. intros. constructor; auto. repeat constructor. Qed.

Lemma text1_words : forall tail, tail = EmptyString \/ tail = nl ->
  text (List.concat (map words script1)) (text1 ++ tail)%string.
Proof.
  intros tail H. cbn [map List.concat words script1 fst snd app].
  assert (K : text ["ITERATE"%string] (nl ++ "ITERATE" ++ tail)%string).
  { constructor; [repeat constructor|wordt| |].
    - destruct H as [->| ->]; [auto|right; eexists; eexists; split; reflexivity].
    - destruct H as [->| ->]; repeat constructor. }
  apply (@text_intro "" "SET_UNIT_CELL"); [constructor|wordt|reflexivity|].
  apply (@text_intro " " "cubic"); [repeat constructor|wordt|reflexivity|].
  apply (@text_intro " " "1.5e0"); [repeat constructor|wordt|reflexivity|].
  apply (@text_intro nl "READ_W_BASIS"); [repeat constructor|wordt|reflexivity|].
  apply (@text_intro "   " "in/w.bf"); [repeat constructor|wordt|reflexivity|].
  apply (@text_intro nl "WRITE_Q"); [repeat constructor|wordt|reflexivity|].
  apply (@text_intro " " "q"); [repeat constructor|wordt|reflexivity|].
  apply (@text_intro " " "0"); [repeat constructor|wordt|reflexivity|].
  apply (@text_intro " " "+1"); [repeat constructor|wordt|reflexivity|].
  apply (@text_intro " " "0"); [repeat constructor|wordt|reflexivity|].
  exact K.
Qed.

Definition execT (name : string) (vs : list (option string)) (n : nat) : eres nat :=
  Go (S n).

(* With a final newline all four commands are executed. *)
Example all_executed : exists l,
  readCommands execT 9 3 (text1 ++ nl) 0 = (l, 4, FEof) /\ List.length l = 4.
Proof. eexists. split; vm_compute; reflexivity. Qed.

(* C33: without it the last command is not executed. *)
Theorem all_commands_executed_refuted : exists cs t,
  Forall (complete 3) cs /\ text (List.concat (map words cs)) t /\
  forall fuel, List.length cs < fuel ->
    readCommands execT fuel 3 t 0 <> runScript execT 3 cs 0.
Proof.
  exists script1, text1. split; [apply script1_complete|].
  assert (T : text (List.concat (map words script1)) text1).
  { rewrite <- (app_empty_r text1). apply text1_words. auto. }
  split; [exact T|].
  intros fuel F. rewrite (readCommands_exact execT 0 script1_complete T F).
  vm_compute. discriminate.
Qed.

(* An integer that cannot be read is not noticed: the command is executed
   with values that were never assigned, and then the text is lost. *)
Theorem integer_arguments_checked_refuted : exists l f,
  readCommands execT 9 3 ("WRITE_Q q 0 a 0" ++ nl ++ "COMPUTE" ++ nl)%string 0
    = (("WRITE_Q"%string, [Some "q"%string; Some "0"%string; None; None]) :: l, 1, f)
  /\ l = [] /\ f = FThrow.
Proof. eexists. eexists. split; [vm_compute; reflexivity|]. auto. Qed.

Print Assumptions readCommands_exact.
Print Assumptions readCommands_all.
Print Assumptions runScript_log.
Print Assumptions all_commands_executed_refuted.
Print Assumptions integer_arguments_checked_refuted.
Print Assumptions command_arguments.
Print Assumptions other_words.
Print Assumptions further_arguments.
