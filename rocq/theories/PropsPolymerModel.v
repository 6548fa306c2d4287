(* C34: the global polymer model cannot change after it has been locked. *)
From Coq Require Import String List Bool Arith Lia.
From Verif Require Import PolymerModel.
Import ListNotations.
Open Scope list_scope.

(* Specification: the last value set, and whether a call is a setModel. *)
Fixpoint lastSet (d : model) (cs : list call) : model :=
  match cs with
  | [] => d
  | CSet m :: cs' => lastSet m cs'
  | CLock :: cs' => lastSet d cs'
  end.
Definition isSet (c : call) : bool := match c with CSet _ => true | CLock => false end.

Lemma runCalls_app : forall cs1 cs2 s,
  runCalls (cs1 ++ cs2) s =
  (fst (runCalls cs1 s) ++ fst (runCalls cs2 (snd (runCalls cs1 s))),
   snd (runCalls cs2 (snd (runCalls cs1 s)))).
Proof.
  induction cs1 as [|c cs1 IH]; intros cs2 s; cbn [app runCalls].
  - cbn. now destruct (runCalls cs2 s).
  - destruct (stepCall c s) as [b s']. rewrite IH.
    destruct (runCalls cs1 s'). reflexivity.
Qed.

Lemma locked_run : forall cs s, pLocked s = true ->
  runCalls cs s = (map (fun c => negb (isSet c)) cs, s).
Proof.
  induction cs as [|c cs IH]; intros s L; [reflexivity|].
  cbn [runCalls map]. destruct c as [m|]; cbn [stepCall isSet negb].
  - unfold setModel. rewrite L. now rewrite IH.
  - replace (lock s) with s; [now rewrite IH|].
    destruct s. cbn in L. now subst.
Qed.

Lemma unlocked_run : forall cs s, forallb isSet cs = true -> pLocked s = false ->
  runCalls cs s = (map (fun _ => true) cs,
                   mkPm (lastSet (pModel s) cs) false (pSet s + length cs)).
Proof.
  induction cs as [|c cs IH]; intros s F L.
  - cbn. rewrite Nat.add_0_r. destruct s. cbn in *. now subst.
  - destruct c as [m|]; [|discriminate]. cbn [runCalls map stepCall].
    unfold setModel. rewrite L. rewrite IH by (auto; reflexivity).
    cbn [pModel pSet lastSet length]. now rewrite Nat.add_succ_r.
Qed.

(* For every sequence of calls: before the first lock every call succeeds and
   the last value that was set (thread if none) is reported; lock keeps it;
   after it every setModel throws and model, lock and number of settings
   never change again. *)
Theorem model_fixed_after_lock : forall before after,
  forallb isSet before = true ->
  let r1 := runCalls before init in
  let r := runCalls (before ++ CLock :: after) init in
  fst r1 = map (fun _ => true) before /\
  pModel (snd r1) = lastSet Thread before /\ pLocked (snd r1) = false /\
  pSet (snd r1) = length before /\
  fst r = map (fun _ => true) before ++ true :: map (fun c => negb (isSet c)) after /\
  pModel (snd r) = lastSet Thread before /\ pLocked (snd r) = true /\
  pSet (snd r) = length before.
Proof.
  intros before after F r1 r. subst r r1.
  rewrite runCalls_app. rewrite (unlocked_run before init F eq_refl).
  cbn [fst snd pModel pLocked pSet init plus]. cbn [runCalls stepCall].
  rewrite locked_run by reflexivity. cbn. repeat split.
Qed.

(* Every sequence either contains no lock or is of the form above. *)
Theorem lock_cases : forall cs, forallb isSet cs = true \/
  exists before after, cs = before ++ CLock :: after /\ forallb isSet before = true.
Proof.
  induction cs as [|[m|] cs [IH|(b & a & -> & IH)]]; cbn; auto.
  - right. exists (CSet m :: b), a. auto.
  - right. exists [], cs. auto.
  - right. exists [], (b ++ CLock :: a). auto.
Qed.

(* Exactly one of the two predicates holds, in any state. *)
Theorem thread_xor_bead : forall s, isThread s = negb (isBead s).
Proof. intros [[] l n]; reflexivity. Qed.

(* Text form: what is written is read back, both spellings are accepted and
   nothing else. *)
Theorem model_text : (forall m, readModel (writeModel m) = Some m) /\
  (forall s m, readModel s = Some m <->
     match m with
     | Thread => s = "Thread"%string \/ s = "thread"%string
     | Bead => s = "Bead"%string \/ s = "bead"%string
     end).
Proof.
  split; [intros []; reflexivity|].
  intros s m. unfold readModel.
  destruct (String.eqb_spec s "Thread"), (String.eqb_spec s "thread"),
    (String.eqb_spec s "Bead"), (String.eqb_spec s "bead"); subst; cbn;
    destruct m; split; intro H; try discriminate; try reflexivity; auto;
    destruct H as [H|H]; try discriminate; contradiction.
Qed.

(* Reading a system: if the model was not locked it becomes the one of the
   file (thread by default) unless the rest of the file sets it again, which
   is detected; if it was locked nothing changes. *)
Theorem readSystem_model : forall entry body s s',
  (forall t t', body t = Some t' -> pSet t' = pSet t -> pModel t' = pModel t) ->
  readSystem entry body s = Some s' ->
  (pLocked s = true -> entry = None /\ pModel s' = pModel s) /\
  (pLocked s = false -> match entry with
                        | None => pModel s' = Thread
                        | Some b => readModel b = Some (pModel s')
                        end).
Proof.
  intros entry body s s' B E. unfold readSystem, setModel in E.
  destruct (pLocked s) eqn:L.
  - destruct entry; [discriminate|]. destruct (body s) as [s2|] eqn:Q; [|discriminate].
    destruct (Nat.eqb_spec (pSet s2) (pSet s)); [|discriminate]. injection E as <-.
    split; [|discriminate]. intros _. split; [reflexivity|]. now apply (B _ _ Q).
  - split; [discriminate|]. intros _.
    destruct entry as [b|].
    + destruct (readModel b) as [m|]; [|discriminate].
      destruct (body _) as [s2|] eqn:Q in E; [|discriminate].
      destruct (Nat.eqb_spec (pSet s2) (pSet (mkPm m false (S (pSet s))))); [|discriminate].
      injection E as <-. now rewrite (B _ _ Q e).
    + destruct (body _) as [s2|] eqn:Q in E; [|discriminate].
      destruct (Nat.eqb_spec (pSet s2) (pSet (mkPm Thread false (S (pSet s))))); [|discriminate].
      injection E as <-. now rewrite (B _ _ Q e).
Qed.

(* The hypothesis on the rest of the function holds of any sequence of calls
   of setModel and lock. *)
Lemma calls_count : forall cs s, pSet s <= pSet (snd (runCalls cs s)) /\
  (pSet (snd (runCalls cs s)) = pSet s -> pModel (snd (runCalls cs s)) = pModel s).
Proof.
  induction cs as [|c cs IH]; intro s; cbn [runCalls]; [auto|].
  destruct (stepCall c s) as [b s'] eqn:E. specialize (IH s').
  destruct (runCalls cs s') as [bs s'']. cbn [snd] in *. destruct IH as [H1 H2].
  destruct c as [m|]; cbn in E; unfold setModel in E.
  - destruct (pLocked s); injection E as <- <-; cbn in *; [auto|].
    split; [lia|]. intro Q. lia.
  - injection E as <- <-. cbn in *. auto.
Qed.
Corollary readSystem_calls : forall entry cs s s',
  readSystem entry (fun t => Some (snd (runCalls cs t))) s = Some s' ->
  (pLocked s = true -> entry = None /\ pModel s' = pModel s) /\
  (pLocked s = false -> match entry with
                        | None => pModel s' = Thread
                        | Some b => readModel b = Some (pModel s')
                        end).
Proof.
  intros entry cs s s'. apply readSystem_model. intros t t' E. injection E as <-.
  apply calls_count.
Qed.

Example lock_example :
  runCalls [CSet Bead; CSet Thread; CSet Bead; CLock; CSet Thread; CLock] init =
  ([true; true; true; true; false; true], mkPm Bead true 3).
Proof. reflexivity. Qed.
Example readSystem_example :
  readSystem (Some "bead"%string) Some init = Some (mkPm Bead false 1) /\
  readSystem None Some (mkPm Bead true 1) = Some (mkPm Bead true 1) /\
  readSystem None (setModel Bead) init = None.
Proof. repeat split; reflexivity. Qed.

Print Assumptions model_fixed_after_lock.
Print Assumptions lock_cases.
Print Assumptions thread_xor_bead.
Print Assumptions model_text.
Print Assumptions readSystem_model.
Print Assumptions readSystem_calls.
