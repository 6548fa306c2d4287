(** C86: trajectory files. *)
From Coq Require Import String ZArith Reals List Bool Lia Lra.
From Verif Require Import Base Mesh FieldIo Trajectory.
Import ListNotations.
Local Open Scope list_scope.

Section Traj.
Variable rnd : nat -> R -> R.
Variable nm : nat.
Variable rs : list Z.
Hypothesis Hm : (0 < nm)%nat.

(** [c'] holds at all points of the mesh what is left of [c] after writing with 13 decimals. *)
Definition sameConfig (c' c : config) : Prop := forall j r, (j < nm)%nat -> In r rs -> exists x, c j r = Some x /\ c' j r = Some (rnd 13 x).
Definition finite (c : config) : Prop := forall j r, (j < nm)%nat -> In r rs -> c j r <> None.
(** The configurations of the steps that are multiples of the interval, in order. *)
Definition sampled (interval : Z) (l : list (Z * config)) : list config := map snd (filter (fun p => (fst p mod interval =? 0)%Z) l).

Lemma row : forall c js r c0 rest, (forall j, In j js -> c j r <> None) -> exists c',
  readRow js r c0 (map (fun j => dbl rnd 13 (c j r)) js :: rest) = Ok (c', [] :: rest) /\
  (forall j, In j js -> exists x, c j r = Some x /\ c' j r = Some (rnd 13%nat x)) /\ (forall j r', ~ (In j js /\ r' = r) -> c' j r' = c0 j r').
Proof.
  intros c js r. induction js as [|j js IH]; intros c0 rest F; cbn [map readRow].
  - exists c0. split; [reflexivity|]. split; [intros j []|auto].
  - destruct (c j r) as [x|] eqn:E; [|exfalso; apply (F j); [now left|exact E]]. cbn [dbl getReal bind fst snd].
    destruct (IH (store c0 j r (rnd 13%nat x)) rest) as (c' & R & V & U); [intros; apply F; now right|].
    exists c'. split; [exact R|]. split.
    + intros j' [<-|I]; [|auto]. exists x. split; [exact E|]. destruct (in_dec Nat.eq_dec j js) as [I|N].
      * destruct (V j I) as (y & Ey & Ec). congruence.
      * rewrite U by tauto. unfold store. now rewrite Nat.eqb_refl, Z.eqb_refl.
    + intros j' r' N. rewrite U by (intros [I ->]; apply N; split; [now right|auto]). unfold store.
      destruct (Nat.eqb_spec j' j) as [->|]; auto. destruct (Z.eqb_spec r' r) as [->|]; auto. exfalso. apply N. split; [now left|auto].
Qed.

Lemma readRow_blank : forall js r c f, js <> [] -> readRow js r c ([] :: f) = readRow js r c f.
Proof. intros [|j js] r c f N; [contradiction|reflexivity]. Qed.
Lemma js_nonempty : seq 0 nm <> []. Proof. destruct nm; [lia|discriminate]. Qed.

Lemma data : forall c l c0 pre rest, (pre = [] \/ pre = [[]]) -> (forall j r, (j < nm)%nat -> In r l -> c j r <> None) -> exists c' pre',
  readData nm l c0 (pre ++ map (fun r => map (fun j => dbl rnd 13 (c j r)) (seq 0 nm)) l ++ rest) = Ok (c', pre' ++ rest) /\
  (pre' = [] \/ pre' = [[]]) /\ (forall j r, (j < nm)%nat -> In r l -> exists x, c j r = Some x /\ c' j r = Some (rnd 13%nat x)) /\
  (forall j r, ~ In r l -> c' j r = c0 j r).
Proof.
  intros c l. induction l as [|r l IH]; intros c0 pre rest P F; cbn [map readData].
  - exists c0, pre. split; [reflexivity|]. split; [exact P|]. split; [intros j r _ []|auto].
  - assert (RR : readRow (seq 0 nm) r c0 (pre ++ (map (fun j => dbl rnd 13 (c j r)) (seq 0 nm) :: map (fun r => map (fun j => dbl rnd 13 (c j r)) (seq 0 nm)) l) ++ rest)
      = readRow (seq 0 nm) r c0 (map (fun j => dbl rnd 13 (c j r)) (seq 0 nm) :: map (fun r => map (fun j => dbl rnd 13 (c j r)) (seq 0 nm)) l ++ rest)).
    { destruct P as [-> | ->]; [reflexivity|]. cbn [app]. now rewrite readRow_blank by apply js_nonempty. }
    rewrite RR. destruct (row c (seq 0 nm) r c0 (map (fun r => map (fun j => dbl rnd 13 (c j r)) (seq 0 nm)) l ++ rest)) as (c1 & E & V & U).
    { intros j I. apply F; [apply in_seq in I; lia|now left]. }
    rewrite E. cbn [bind fst snd]. destruct (IH c1 [[]] rest) as (c2 & pre' & E2 & P2 & V2 & U2); [now right|intros; apply F; [auto|now right]|].
    cbn [app] in E2. exists c2, pre'. split; [exact E2|]. split; [exact P2|]. split.
    + intros j r' J [<-|I]; [|auto]. destruct (in_dec Z.eq_dec r l) as [I|N]; [auto|].
      rewrite U2 by exact N. apply V. apply in_seq. lia.
    + intros j r' N. rewrite U2 by (intros I; apply N; now right). apply U. intros [_ ->]. apply N. now left.
Qed.

Lemma nextLine_blank : forall b f, getNextLine (repeat [] b ++ f) = getNextLine f.
Proof. induction b; intros f; auto. cbn [repeat app getNextLine]. apply IHb. Qed.

Lemma frame : forall b dims i c c0 rest, dims <> [] -> finite c -> exists c' b',
  readFrame nm rs c0 (repeat [] b ++ writeFrame rnd nm dims rs i c ++ rest) = Ok (Some (c', repeat [] b' ++ rest)) /\ sameConfig c' c.
Proof.
  intros b dims i c c0 rest D F. unfold readFrame, writeFrame. rewrite nextLine_blank. cbn [app getNextLine checkString bind check String.eqb Ascii.eqb Bool.eqb].
  destruct dims as [|d dims]; [contradiction|]. cbn [map getNextLine]. replace (0 <? nm)%nat with true by (symmetry; apply Nat.ltb_lt; lia). cbn [check bind].
  rewrite <- app_assoc. destruct (data c rs c0 [] ([[]] ++ rest) (or_introl eq_refl) F) as (c' & pre' & E & P & V & _). cbn [app] in E. cbn [app]. rewrite E. cbn [bind].
  destruct P as [-> | ->]; [exists c', 1%nat|exists c', 2%nat]; split; try reflexivity; exact V.
Qed.

(** Reading a trajectory gives back the sampled configurations, one by one and nothing else, whatever was stored before. *)
Theorem C86_roundtrip : forall dims interval l c0 fuel, dims <> [] -> (forall p, In p l -> finite (snd p)) -> (length l < fuel)%nat ->
  exists out, readAll fuel nm rs c0 (body rnd nm dims rs interval l) = Ok out /\ Forall2 sameConfig out (sampled interval l).
Proof.
  intros dims interval l c0 fuel D F L. unfold body. change ([] :: [] :: writeRun rnd nm dims rs interval l) with (repeat [] 2 ++ writeRun rnd nm dims rs interval l).
  generalize 2%nat as b. revert c0 fuel L. induction l as [|[i c] l IH]; intros c0 fuel L b; (destruct fuel as [|fuel]; [cbn in L; lia|]).
  - cbn [readAll writeRun]. unfold readFrame. rewrite nextLine_blank. cbn. exists []. split; [reflexivity|constructor].
  - cbn [writeRun]. unfold sampled. cbn [filter fst]. destruct (i mod interval =? 0)%Z.
    + cbn [readAll map snd]. destruct (frame b dims i c c0 (writeRun rnd nm dims rs interval l) D (F _ (or_introl eq_refl))) as (c' & b' & E & V).
      rewrite E. cbn [bind]. destruct (IH ltac:(intros; apply F; now right) c' fuel ltac:(cbn in L; lia) b') as (out & E2 & V2).
      rewrite E2. cbn [bind]. exists (c' :: out). split; [reflexivity|]. constructor; auto.
    + cbn [app]. apply IH; [intros; apply F; now right|cbn in L; lia].
Qed.

(** The number of a step is not read: two runs that differ only in it give the same frames. *)
Theorem C86_step_not_read : forall dims i i' c c0 rest,
  readFrame nm rs c0 (writeFrame rnd nm dims rs i c ++ rest) = readFrame nm rs c0 (writeFrame rnd nm dims rs i' c ++ rest).
Proof. reflexivity. Qed.
End Traj.
Print Assumptions C86_roundtrip. Print Assumptions C86_step_not_read.

(** A frame of two monomers on a mesh of 2 x 3 points, with exact formatting. *)
Definition ranks (dims : list Z) : list Z := match f_visit 10 dims with Ok v => map fst v | _ => [] end.
Definition ramp2 : config := fun j r => Some (IZR (10 * Z.of_nat j + r)).
Example C86_case : ranks [2; 3]%Z = [0; 3; 1; 4; 2; 5]%Z /\ finite 2 (ranks [2; 3]%Z) ramp2 /\
  sampled 2 [(0%Z, ramp2); (1%Z, ramp2); (2%Z, ramp2)] = [ramp2; ramp2].
Proof. split; [vm_compute; reflexivity|]. split; [intros j r _ _; discriminate|]. unfold sampled. cbn [filter fst]. change (0 mod 2)%Z with 0%Z. change (1 mod 2)%Z with 1%Z. change (2 mod 2)%Z with 0%Z. reflexivity. Qed.

(** The dimensions in a frame are not compared with those of the mesh: a frame written on 2 x 3 points is read on 3 x 2
    points without an error, and gives other values. *)
Lemma read_transposed : forall v : Z -> R, match readFrame 1 (ranks [3; 2]%Z) (fun _ _ => None)
    (writeFrame (fun _ x => x) 1 [2; 3]%Z (ranks [2; 3]%Z) 0 (fun _ r => Some (v r))) with
  | Ok (Some (c', _)) => c' 0%nat 1%Z = Some (v 4%Z)
  | _ => False
  end.
Proof. intros v. vm_compute. reflexivity. Qed.
Theorem C86_mesh_refuted : exists c c' f', finite 1 (ranks [2; 3]%Z) c /\
  readFrame 1 (ranks [3; 2]%Z) (fun _ _ => None) (writeFrame (fun _ x => x) 1 [2; 3]%Z (ranks [2; 3]%Z) 0 c) = Ok (Some (c', f')) /\
  c 0%nat 1%Z = Some 1%R /\ c' 0%nat 1%Z = Some 4%R.
Proof.
  exists (fun _ r => Some (IZR r)). pose proof (read_transposed IZR) as H.
  destruct (readFrame _ _ _ _) as [[[c' f']|]| | |]; try contradiction. exists c', f'. repeat split; auto. discriminate.
Qed.
Print Assumptions C86_mesh_refuted.
(** A value that is not finite is written but cannot be read. *)
Theorem C86_nan_refuted : exists c, (forall j r, (j, r) <> (0%nat, 1%Z) -> c j r <> None) /\ forall rnd c0,
  readFrame 1 (ranks [2]%Z) c0 (writeFrame rnd 1 [2]%Z (ranks [2]%Z) 0 c) = Throw.
Proof.
  exists (fun j r => if ((j =? 0)%nat && (r =? 1)%Z)%bool then None else Some 0%R). split.
  - intros j r N. destruct (Nat.eqb_spec j 0) as [->|]; cbn [andb]; [|discriminate]. destruct (Z.eqb_spec r 1) as [->|]; [congruence|discriminate].
  - intros rnd c0. assert (E : ranks [2]%Z = [0; 1]%Z) by (vm_compute; reflexivity). rewrite E. unfold writeFrame. cbn [map seq Nat.eqb Z.eqb andb app dbl].
    unfold readFrame. cbn. reflexivity.
Qed.
Print Assumptions C86_nan_refuted.
