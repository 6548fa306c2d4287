(** CUDA kernels with a grid-stride loop over elements, at the level of
    statements and words of device memory.

    Every thread executes
       for (int i = startID; i < n; i += nThreads) { body }
    where startID = blockIdx.x*blockDim.x + threadIdx.x, nThreads =
    blockDim.x*gridDim.x, and the body is a list of assignments to local variables
    and to components of element i of arrays in global memory.  One assignment is
    one step, and the threads of all blocks take steps in the order of an arbitrary
    schedule, a list of thread identifiers.

    Device memory is a function from addresses of words to words; a word holds one
    real number (of a cudaReal, or of one component of a cudaComplex).  Access to a
    word that is not allocated, and use of a word or of a local variable without a
    value, are undefined behaviour.  Division by zero does not give a finite
    number and is also UB here.  Arithmetic is exact. *)
From Coq Require Import Reals ZArith List Bool Arith Lia.
From Verif Require Import Base GpuGrid.
Import ListNotations.
Local Open Scope nat_scope.

(** cudaReal, cudaComplex *)
Inductive ty := Re | Co.
Definition width (t : ty) : nat := match t with Re => 1 | Co => 2 end.

Inductive word := Free | Junk | Val (v : R).
Definition memory := Z -> word.
Definition upd (m : memory) (x : Z) (v : R) : memory := fun y => if (y =? x)%Z then Val v else m y.

(** Ld k c: component c (0 for .x or a real number, 1 for .y) of element i of
    array argument k; Sc k c: component c of scalar argument k; Lv k: local
    variable k *)
Inductive expr :=
| Ld (k c : nat) | Sc (k c : nat) | Lv (k : nat) | Num (r : R)
| Add (a b : expr) | Sub (a b : expr) | Mul (a b : expr) | Div (a b : expr)
| Exp (a : expr) | Cos (a : expr) | Sin (a : expr).

Inductive stmt :=
| Loc (k : nat) (e : expr)        (* local variable k = e *)
| St (k c : nat) (e : expr).      (* component c of element i of array k = e *)

(** Arguments of a kernel: address and type of element 0 of each array, and the
    scalars *)
Record args := Args { arr : nat -> Z * ty; sca : nat -> R * R }.
Definition addr (A : args) (k c i : nat) : Z :=
  (fst (arr A k) + Z.of_nat (width (snd (arr A k)) * i + c))%Z.

Definition locals := nat -> option R.

Fixpoint eval (A : args) (m : memory) (loc : locals) (i : nat) (e : expr) : outcome R :=
  match e with
  | Ld k c => match m (addr A k c i) with Val v => Ok v | _ => UB end
  | Sc k c => Ok (if c =? 0 then fst (sca A k) else snd (sca A k))
  | Lv k => match loc k with Some v => Ok v | None => UB end
  | Num r => Ok r
  | Add a b => x <- eval A m loc i a ;; y <- eval A m loc i b ;; Ok (x + y)%R
  | Sub a b => x <- eval A m loc i a ;; y <- eval A m loc i b ;; Ok (x - y)%R
  | Mul a b => x <- eval A m loc i a ;; y <- eval A m loc i b ;; Ok (x * y)%R
  | Div a b => x <- eval A m loc i a ;; y <- eval A m loc i b ;;
               if Req_EM_T y 0 then UB else Ok (x / y)%R
  | Exp a => x <- eval A m loc i a ;; Ok (exp x)
  | Cos a => x <- eval A m loc i a ;; Ok (cos x)
  | Sin a => x <- eval A m loc i a ;; Ok (sin x)
  end.

Definition setl (loc : locals) (k : nat) (v : R) : locals :=
  fun j => if j =? k then Some v else loc j.

(** One assignment *)
Definition exec1 (A : args) (m : memory) (loc : locals) (x : nat * stmt) : outcome (memory * locals) :=
  match snd x with
  | Loc k e => v <- eval A m loc (fst x) e ;; Ok (m, setl loc k v)
  | St k c e =>
      v <- eval A m loc (fst x) e ;;
      match m (addr A k c (fst x)) with
      | Free => UB
      | _ => Ok (upd m (addr A k c (fst x)) v, loc)
      end
  end.

(** A thread: assignments that are left, and local variables *)
Record thread := Thr { t_code : list (nat * stmt); t_loc : locals }.

Fixpoint run (A : args) (s : list nat) (m : memory) (ths : nat -> thread)
  : outcome (memory * (nat -> thread)) :=
  match s with
  | [] => Ok (m, ths)
  | t :: s' =>
      match t_code (ths t) with
      | [] => run A s' m ths
      | x :: r =>
          q <- exec1 A m (t_loc (ths t)) x ;;
          run A s' (fst q) (fun t' => if t' =? t then Thr r (snd q) else ths t')
      end
  end.

(** The assignments of one iteration, and those of a list of iterations *)
Definition iter_code (body : list stmt) (i : nat) : list (nat * stmt) := map (pair i) body.
Definition thread_code (body : list stmt) (is : list nat) : list (nat * stmt) :=
  flat_map (iter_code body) is.

(** A kernel with [total] threads on n elements, under schedule s.  NoFuel: the
    schedule does not let all threads finish. *)
Definition start (body : list stmt) (total n t : nat) : thread :=
  Thr (if t <? total then thread_code body (iterations n t n total) else []) (fun _ => None).
Definition kernel (A : args) (body : list stmt) (total n : nat) (s : list nat) (m : memory)
  : outcome memory :=
  q <- run A s m (start body total n) ;;
  if forallb (fun t => match t_code (snd q t) with [] => true | _ => false end) (seq 0 total)
  then Ok (fst q) else NoFuel.

(** ** Addresses used *)

Fixpoint loads (e : expr) : list (nat * nat) :=
  match e with
  | Ld k c => [(k, c)]
  | Sc _ _ | Lv _ | Num _ => []
  | Add a b | Sub a b | Mul a b | Div a b => loads a ++ loads b
  | Exp a | Cos a | Sin a => loads a
  end.
Definition stmt_loads (s : stmt) : list (nat * nat) :=
  match s with Loc _ e => loads e | St _ _ e => loads e end.
Definition stmt_stores (s : stmt) : list (nat * nat) :=
  match s with Loc _ _ => [] | St k c _ => [(k, c)] end.

Definition at_ (A : args) (i : nat) (l : list (nat * nat)) : list Z :=
  map (fun p => addr A (fst p) (snd p) i) l.
Definition rd (A : args) (x : nat * stmt) : list Z := at_ A (fst x) (stmt_loads (snd x)).
Definition wr (A : args) (x : nat * stmt) : list Z := at_ A (fst x) (stmt_stores (snd x)).
Definition rds (A : args) (l : list (nat * stmt)) : list Z := flat_map (rd A) l.
Definition wrs (A : args) (l : list (nat * stmt)) : list Z := flat_map (wr A) l.

(** A list of assignments executed alone *)
Fixpoint solo (A : args) (m : memory) (loc : locals) (l : list (nat * stmt))
  : outcome (memory * locals) :=
  match l with
  | [] => Ok (m, loc)
  | x :: r => q <- exec1 A m loc x ;; solo A (fst q) (snd q) r
  end.

Lemma eval_agree : forall A m m' loc i e,
  (forall x, In x (at_ A i (loads e)) -> m x = m' x) ->
  eval A m loc i e = eval A m' loc i e.
Proof.
  intros A m m' loc i. induction e; cbn [loads eval]; intros H; auto;
    try (unfold at_ in H; rewrite map_app in H;
         rewrite IHe1, IHe2 by (intros; apply H; apply in_or_app; auto); reflexivity);
    try (rewrite IHe by auto; reflexivity).
  rewrite (H (addr A k c i)); auto. now left.
Qed.

Lemma solo_app : forall A l1 l2 m loc,
  solo A m loc (l1 ++ l2) = q <- solo A m loc l1 ;; solo A (fst q) (snd q) l2.
Proof.
  intros A. induction l1; intros; cbn [app solo]; [reflexivity|].
  destruct (exec1 A m loc a) as [[m1 loc1]| | |]; cbn [bind fst snd]; auto.
Qed.

(** Frame: only words of [wr] change; allocated words stay allocated *)
Lemma exec1_frame : forall A m loc x m' loc', exec1 A m loc x = Ok (m', loc') ->
  (forall y, ~ In y (wr A x) -> m' y = m y) /\ (forall y, m' y = Free <-> m y = Free).
Proof.
  intros A m loc [i [k e|k c e]] m' loc'; unfold exec1, wr; cbn [fst snd stmt_stores at_ map In];
    destruct (eval A m loc i e) as [v| | |]; cbn [bind]; try discriminate.
  - intros [= <- <-]. split; tauto.
  - destruct (m (addr A k c i)) eqn:E; try discriminate; intros [= <- <-]; unfold upd;
      (split; intros y; [intros Hy|]; destruct (Z.eqb_spec y (addr A k c i)) as [->|Hn]; try tauto;
       rewrite ?E; split; discriminate).
Qed.

Lemma solo_frame : forall A l m loc m' loc', solo A m loc l = Ok (m', loc') ->
  (forall y, ~ In y (wrs A l) -> m' y = m y) /\ (forall y, m' y = Free <-> m y = Free).
Proof.
  intros A. induction l as [|x l IH]; intros m loc m' loc'; cbn [solo].
  - intros [= <- <-]. split; tauto.
  - destruct (exec1 A m loc x) as [[m1 loc1]| | |] eqn:E; cbn [bind fst snd]; try discriminate.
    intros H. destruct (exec1_frame _ _ _ _ _ _ E) as [F1 G1]. destruct (IH _ _ _ _ H) as [F2 G2].
    split.
    + intros y Hy. unfold wrs in Hy. cbn [flat_map] in Hy. rewrite in_app_iff in Hy.
      rewrite F2 by tauto. apply F1. tauto.
    + intros y. rewrite G2. apply G1.
Qed.

(** The same assignment in two memories that agree where it reads and writes *)
Lemma exec1_agree : forall A m m' loc x m1 loc1,
  (forall y, In y (rd A x) \/ In y (wr A x) -> m y = m' y) ->
  exec1 A m loc x = Ok (m1, loc1) ->
  exists m1', exec1 A m' loc x = Ok (m1', loc1) /\
    (forall y, In y (wr A x) -> m1' y = m1 y).
Proof.
  intros A m m' loc [i [k e|k c e]] m1 loc1 H; unfold exec1, rd, wr in *;
    cbn [fst snd stmt_loads stmt_stores] in *;
    rewrite <- (eval_agree A m m' loc i e) by (intros; apply H; auto);
    destruct (eval A m loc i e) as [v| | |]; cbn [bind]; try discriminate.
  - intros [= <- <-]. eexists. split; [reflexivity|]. intros y [].
  - rewrite <- (H (addr A k c i)) by (right; now left).
    destruct (m (addr A k c i)) eqn:E; try discriminate; intros [= <- <-];
      (eexists; split; [reflexivity|]; intros y [<-|[]]; unfold upd; now rewrite Z.eqb_refl).
Qed.

(** ** Threads that do not interfere *)

Section Free.

Variables (A : args) (m0 : memory) (code : nat -> list (nat * stmt)) (loc0 : locals).
Hypothesis Hrace : forall t t' y, t <> t' -> In y (wrs A (code t)) ->
  ~ In y (wrs A (code t')) /\ ~ In y (rds A (code t')).
Hypothesis Hok : forall t, exists q, solo A m0 loc0 (code t) = Ok q.

Definition quiet (m : memory) (ths : nat -> thread) : Prop :=
  (forall t, exists pre pm, code t = pre ++ t_code (ths t) /\
     solo A m0 loc0 pre = Ok (pm, t_loc (ths t)) /\
     (forall y, In y (wrs A (code t)) -> m y = pm y)) /\
  (forall y, (forall t, ~ In y (wrs A (code t))) -> m y = m0 y).

Lemma wrs_app : forall l1 l2 y, In y (wrs A (l1 ++ l2)) <-> In y (wrs A l1) \/ In y (wrs A l2).
Proof. intros. unfold wrs. rewrite flat_map_app. apply in_app_iff. Qed.
Lemma rds_app : forall l1 l2 y, In y (rds A (l1 ++ l2)) <-> In y (rds A l1) \/ In y (rds A l2).
Proof. intros. unfold rds. rewrite flat_map_app. apply in_app_iff. Qed.

Lemma quiet_step : forall m ths t x r, quiet m ths -> t_code (ths t) = x :: r ->
  exists m1 loc1, exec1 A m (t_loc (ths t)) x = Ok (m1, loc1) /\
    quiet m1 (fun t' => if t' =? t then Thr r loc1 else ths t').
Proof.
  intros m ths t x r [Q1 Q2] E.
  destruct (Q1 t) as (pre & pm & C & S & V). rewrite E in C.
  assert (Sub : forall y, In y (wr A x) -> In y (wrs A (code t))).
  { intros y Hy. rewrite C. apply wrs_app. right. apply in_or_app. now left. }
  assert (Subr : forall y, In y (rd A x) -> In y (rds A (code t))).
  { intros y Hy. rewrite C. apply rds_app. right. apply in_or_app. now left. }
  destruct (Hok t) as [q Hq]. rewrite C, solo_app, S in Hq. cbn [bind fst snd solo] in Hq.
  destruct (exec1 A pm (t_loc (ths t)) x) as [[pm1 loc1]| | |] eqn:Ep; try discriminate.
  destruct (exec1_frame _ _ _ _ _ _ Ep) as [Fp _].
  destruct (solo_frame _ _ _ _ _ _ S) as [Fs _].
  assert (Agree : forall y, In y (rd A x) \/ In y (wr A x) -> pm y = m y).
  { intros y Hy. destruct (in_dec Z.eq_dec y (wrs A (code t))) as [Hw|Hw].
    - symmetry. auto.
    - destruct Hy as [Hy|Hy]; [|destruct Hw; auto].
      rewrite Q2, Fs; auto.
      + intros Hp. apply Hw. rewrite C. apply wrs_app. now left.
      + intros t' Ht'. destruct (Nat.eq_dec t' t) as [->|Hn]; [auto|].
        destruct (Hrace t' t y Hn Ht') as [_ Hr]. apply Hr. auto. }
  destruct (exec1_agree _ _ _ _ _ _ _ Agree Ep) as (m1 & Em & Vm).
  destruct (exec1_frame _ _ _ _ _ _ Em) as [Fm _].
  exists m1, loc1. split; [exact Em|]. split.
  - intros t'. destruct (Nat.eqb_spec t' t) as [->|Hn].
    + exists (pre ++ [x]), pm1. cbn [t_code t_loc]. split; [rewrite <- app_assoc; exact C|].
      split; [rewrite solo_app, S; cbn [bind fst snd solo]; rewrite Ep; reflexivity|].
      intros y Hy. destruct (in_dec Z.eq_dec y (wr A x)) as [Hw|Hw]; [auto|].
      rewrite Fm, Fp by auto. auto.
    + destruct (Q1 t') as (pre' & pm' & C' & S' & V'). exists pre', pm'.
      split; [exact C'|]. split; [exact S'|]. intros y Hy. rewrite Fm; auto.
      intros Hw. destruct (Hrace t' t y Hn Hy) as [H _]. apply H. auto.
  - intros y Hy. rewrite Fm; auto. intros Hw. apply (Hy t). auto.
Qed.

Lemma quiet_run : forall s m ths, quiet m ths ->
  exists m' ths', run A s m ths = Ok (m', ths') /\ quiet m' ths'.
Proof.
  induction s as [|t s IH]; intros m ths Q; cbn [run]; [eauto|].
  destruct (t_code (ths t)) as [|x r] eqn:E; [auto|].
  destruct (quiet_step _ _ _ _ _ Q E) as (m1 & loc1 & E1 & Q1). rewrite E1. cbn [bind fst snd].
  auto.
Qed.

End Free.

(** ** Iterations that do not interfere *)

Section Iterations.

Variables (A : args) (body : list stmt) (n : nat) (m0 : memory) (F : nat -> memory).

(** Words of different elements do not meet *)
Hypothesis Hdis : forall i j y, i < n -> j < n -> i <> j -> In y (wrs A (iter_code body i)) ->
  ~ In y (wrs A (iter_code body j)) /\ ~ In y (rds A (iter_code body j)).
(** Iteration i alone, from the initial memory *)
Hypothesis Hit : forall i loc, i < n -> exists m1 loc', solo A m0 loc (iter_code body i) = Ok (m1, loc') /\
  forall y, In y (wrs A (iter_code body i)) -> m1 y = F i y.

Lemma solo_agree : forall l m m' loc m1 loc1,
  (forall y, In y (rds A l) \/ In y (wrs A l) -> m y = m' y) ->
  solo A m loc l = Ok (m1, loc1) ->
  exists m1', solo A m' loc l = Ok (m1', loc1) /\ (forall y, In y (wrs A l) -> m1' y = m1 y).
Proof.
  induction l as [|x l IH]; intros m m' loc m1 loc1 H; cbn [solo].
  - intros [= <- <-]. eexists. split; [reflexivity|]. intros y [].
  - destruct (exec1 A m loc x) as [[m2 loc2]| | |] eqn:E; cbn [bind fst snd]; try discriminate.
    intros S.
    destruct (exec1_agree A m m' loc x m2 loc2) as (m2' & E' & V); auto.
    { intros y Hy. apply H. unfold rds, wrs. cbn [flat_map]. rewrite !in_app_iff. tauto. }
    rewrite E'. cbn [bind fst snd].
    destruct (exec1_frame _ _ _ _ _ _ E) as [F1 _]. destruct (exec1_frame _ _ _ _ _ _ E') as [F1' _].
    destruct (IH m2 m2' loc2 m1 loc1) as (m1' & S' & V'); auto.
    { intros y Hy. destruct (in_dec Z.eq_dec y (wr A x)) as [Hw|Hw].
      - symmetry. auto.
      - rewrite F1, F1' by auto. apply H. unfold rds, wrs. cbn [flat_map]. rewrite !in_app_iff. tauto. }
    exists m1'. split; [exact S'|].
    intros y Hy. unfold wrs in Hy. cbn [flat_map] in Hy. rewrite in_app_iff in Hy.
    destruct (in_dec Z.eq_dec y (wrs A l)) as [Hw|Hw]; [auto|].
    destruct (solo_frame _ _ _ _ _ _ S) as [F2 _]. destruct (solo_frame _ _ _ _ _ _ S') as [F2' _].
    rewrite F2, F2' by auto. destruct Hy as [Hy|Hy]; [auto|contradiction].
Qed.

Lemma thread_in : forall is y, In y (wrs A (thread_code body is)) <->
  exists i, In i is /\ In y (wrs A (iter_code body i)).
Proof.
  intros is y. unfold thread_code. induction is as [|i is IH]; cbn [flat_map].
  - split; [intros []|intros (? & [] & _)].
  - rewrite wrs_app, IH. split.
    + intros [H|(j & H1 & H2)]; [exists i|exists j]; split; auto; [now left|now right].
    + intros (j & [<-|H1] & H2); [now left|right; eauto].
Qed.
Lemma thread_in_rd : forall is y, In y (rds A (thread_code body is)) <->
  exists i, In i is /\ In y (rds A (iter_code body i)).
Proof.
  intros is y. unfold thread_code. induction is as [|i is IH]; cbn [flat_map].
  - split; [intros []|intros (? & [] & _)].
  - rewrite rds_app, IH. split.
    + intros [H|(j & H1 & H2)]; [exists i|exists j]; split; auto; [now left|now right].
    + intros (j & [<-|H1] & H2); [now left|right; eauto].
Qed.

Lemma solo_thread : forall is m loc, NoDup is -> (forall i, In i is -> i < n) ->
  (forall i y, In i is -> In y (rds A (iter_code body i)) \/ In y (wrs A (iter_code body i)) -> m y = m0 y) ->
  exists m1 loc1, solo A m loc (thread_code body is) = Ok (m1, loc1) /\
    forall i y, In i is -> In y (wrs A (iter_code body i)) -> m1 y = F i y.
Proof.
  induction is as [|i is IH]; intros m loc ND Hn Hm.
  - exists m, loc. split; [reflexivity|]. intros i y [].
  - inversion ND as [|? ? Hni ND']; subst.
    unfold thread_code. cbn [flat_map]. fold (thread_code body is). rewrite solo_app.
    destruct (Hit i loc (Hn i (or_introl eq_refl))) as (mi & loc' & Si & Vi).
    destruct (solo_agree _ m0 m loc _ _ (fun y H => eq_sym (Hm i y (or_introl eq_refl) H)) Si)
      as (m1 & S1 & V1).
    rewrite S1. cbn [bind fst snd]. destruct (solo_frame _ _ _ _ _ _ S1) as [F1 _].
    destruct (IH m1 loc' ND' (fun j H => Hn j (or_intror H))) as (m2 & loc2 & S2 & V2).
    { intros j y Hj Hy. assert (Hne : i <> j) by congruence.
      rewrite F1; [apply (Hm j y (or_intror Hj) Hy)|]. intros Hw.
      destruct (Hdis i j y (Hn i (or_introl eq_refl)) (Hn j (or_intror Hj)) Hne Hw). tauto. }
    exists m2, loc2. split; [exact S2|].
    intros j y [<-|Hj] Hy; [|auto].
    destruct (solo_frame _ _ _ _ _ _ S2) as [F2 _]. rewrite F2; [rewrite V1; auto|].
    rewrite thread_in. intros (j & Hj & Hw).
    assert (Hne : i <> j) by congruence.
    destruct (Hdis i j y (Hn i (or_introl eq_refl)) (Hn j (or_intror Hj)) Hne Hy). tauto.
Qed.

(** Every schedule gives the result of the iterations, each executed alone. *)
Theorem kernel_result : forall total s, 0 < total ->
  match kernel A body total n s m0 with
  | Ok m' => (forall i y, i < n -> In y (wrs A (iter_code body i)) -> m' y = F i y) /\
             (forall y, (forall i, i < n -> ~ In y (wrs A (iter_code body i))) -> m' y = m0 y)
  | NoFuel => True
  | _ => False
  end.
Proof.
  intros total s Ht.
  set (code := fun t => t_code (start body total n t)).
  assert (Hcode : forall t, code t = thread_code body (if t <? total then iterations n t n total else [])).
  { intros t. unfold code, start. cbn [t_code]. now destruct (t <? total). }
  set (its := fun t => if t <? total then iterations n t n total else []) in *.
  assert (Hlt : forall t i, In i (its t) -> t < total /\ i < n /\ i mod total = t).
  { intros t i H. unfold its in H. destruct (Nat.ltb_spec t total); [|destruct H].
    apply iterations_start in H; auto. }
  assert (Hnd : forall t, NoDup (its t)).
  { intros t. unfold its. destruct (t <? total); [now apply iterations_nodup|constructor]. }
  assert (Hsolo : forall t, exists m1 loc1, solo A m0 (fun _ => None) (code t) = Ok (m1, loc1) /\
     forall i y, In i (its t) -> In y (wrs A (iter_code body i)) -> m1 y = F i y).
  { intros t. rewrite Hcode. apply solo_thread; auto. intros i H. now apply (Hlt t). }
  assert (Hrace : forall t t' y, t <> t' -> In y (wrs A (code t)) ->
    ~ In y (wrs A (code t')) /\ ~ In y (rds A (code t'))).
  { intros t t' y Hne Hw. rewrite !Hcode in *. apply thread_in in Hw. destruct Hw as (i & Hi & Hw).
    destruct (Hlt _ _ Hi) as (_ & Hin & Hmi).
    split; [rewrite thread_in|rewrite thread_in_rd]; intros (j & Hj & Hw');
      destruct (Hlt _ _ Hj) as (_ & Hjn & Hmj);
      (assert (i <> j) by congruence); destruct (Hdis i j y); auto. }
  assert (Hq0 : quiet A m0 code (fun _ => None) m0 (start body total n)).
  { split; [|auto]. intros t. exists [], m0. split; [reflexivity|]. split; [reflexivity|auto]. }
  assert (Hok : forall t, exists q, solo A m0 (fun _ => None) (code t) = Ok q).
  { intros t. destruct (Hsolo t) as (m1 & loc1 & H & _). eauto. }
  destruct (quiet_run A m0 code (fun _ => None) Hrace Hok s m0 _ Hq0) as (m' & ths' & E & [Q1 Q2]).
  unfold kernel. rewrite E. cbn [bind fst snd].
  destruct (forallb _ _) eqn:Ef; [|exact I]. rewrite forallb_forall in Ef. split.
  - intros i y Hi Hy. set (t := i mod total).
    assert (Hti : In i (its t)).
    { unfold its. assert (t < total) by (apply Nat.mod_upper_bound; lia).
      destruct (Nat.ltb_spec t total); [|lia]. apply iterations_start; auto. }
    destruct (Q1 t) as (pre & pm & C & S & V).
    destruct (Hlt _ _ Hti) as (Htt & _ & _).
    specialize (Ef t (proj2 (in_seq total 0 t) ltac:(lia))). cbv beta in Ef.
    destruct (t_code (ths' t)) eqn:Et; [|discriminate]. rewrite app_nil_r in C. subst pre.
    destruct (Hsolo t) as (m1 & loc1 & S1 & V1). rewrite S1 in S. injection S as <- _.
    rewrite V, (V1 i) by (auto; rewrite Hcode, thread_in; eauto). reflexivity.
  - intros y Hy. apply Q2. intros t Hw. rewrite Hcode, thread_in in Hw.
    destruct Hw as (i & Hi & Hw). destruct (Hlt _ _ Hi) as (_ & Hin & _). exact (Hy i Hin Hw).
Qed.

End Iterations.

(** A schedule in which every thread gets enough steps is not cut short. *)
Definition enough (total steps : nat) (s : list nat) : Prop :=
  forall t, t < total -> steps <= count_occ Nat.eq_dec s t.

Lemma run_left : forall A s m ths m' ths', run A s m ths = Ok (m', ths') ->
  forall t, length (t_code (ths' t)) = length (t_code (ths t)) - count_occ Nat.eq_dec s t.
Proof.
  intros A. induction s as [|t0 s IH]; intros m ths m' ths'; cbn [run].
  - intros [= <- <-] t. cbn [count_occ]. lia.
  - destruct (t_code (ths t0)) as [|x r] eqn:E.
    + intros H t. rewrite (IH _ _ _ _ H). cbn [count_occ].
      destruct (Nat.eq_dec t0 t) as [->|]; [rewrite E; reflexivity|reflexivity].
    + destruct (exec1 A m (t_loc (ths t0)) x) as [[m1 l1]| | |]; cbn [bind fst snd]; try discriminate.
      intros H t. rewrite (IH _ _ _ _ H). cbn [count_occ].
      destruct (Nat.eq_dec t0 t) as [->|Hn].
      * rewrite Nat.eqb_refl. cbn [t_code]. rewrite E. cbn [length]. lia.
      * destruct (Nat.eqb_spec t t0); [congruence|reflexivity].
Qed.

Lemma kernel_enough : forall A body total n s m,
  enough total (n * length body) s -> kernel A body total n s m <> NoFuel \/ run A s m (start body total n) = NoFuel.
Proof.
  intros A body total n s m H. unfold kernel.
  destruct (run A s m (start body total n)) as [[m' ths']| | |] eqn:E; cbn [bind fst snd];
    try (left; discriminate); [|now right].
  left. replace (forallb _ _) with true; [discriminate|]. symmetry. apply forallb_forall.
  intros t Ht. apply in_seq in Ht. pose proof (run_left _ _ _ _ _ _ E t) as L.
  assert (Hc : length (t_code (start body total n t)) <= n * length body).
  { unfold start. cbn [t_code]. destruct (t <? total); [|cbn [length]; lia].
    pose proof (iterations_length n t n total) as Hl. revert Hl. generalize (iterations n t n total).
    intros l Hl. assert (length (thread_code body l) = length l * length body).
    { clear. unfold thread_code. induction l; [reflexivity|]. cbn [flat_map].
      rewrite app_length, IHl. unfold iter_code. rewrite map_length. cbn [length]. lia. }
    nia. }
  specialize (H t ltac:(lia)). destruct (t_code (ths' t)); [reflexivity|]. cbn [length] in L. lia.
Qed.

(** ** One iteration *)

Section Body.

Variables (A : args) (m0 : memory) (i : nat).

(** The assignments of an iteration, with every operand loaded from the initial
    memory: words written and their values *)
Fixpoint pure (loc : locals) (body : list stmt) : outcome (list (Z * R) * locals) :=
  match body with
  | [] => Ok ([], loc)
  | Loc k e :: r => v <- eval A m0 loc i e ;; pure (setl loc k v) r
  | St k c e :: r =>
      v <- eval A m0 loc i e ;; q <- pure loc r ;; Ok ((addr A k c i, v) :: fst q, snd q)
  end.

Definition stores (ws : list (Z * R)) (m : memory) : memory :=
  fold_left (fun m w => upd m (fst w) (snd w)) ws m.

(** No word is read after it was written *)
Fixpoint no_reread (body : list stmt) : Prop :=
  match body with
  | [] => True
  | s :: r =>
      (forall p q, In p (stmt_stores s) -> In q (flat_map stmt_loads r) ->
         addr A (fst p) (snd p) i <> addr A (fst q) (snd q) i) /\ no_reread r
  end.

Lemma pure_solo_gen : forall body m loc ws loc', no_reread body ->
  (forall q, In q (flat_map stmt_loads body) ->
     m (addr A (fst q) (snd q) i) = m0 (addr A (fst q) (snd q) i)) ->
  (forall p, In p (flat_map stmt_stores body) -> m (addr A (fst p) (snd p) i) <> Free) ->
  pure loc body = Ok (ws, loc') ->
  solo A m loc (iter_code body i) = Ok (stores ws m, loc').
Proof.
  induction body as [|s body IH]; intros m loc ws loc' NR Hm Hf; cbn [pure].
  - intros [= <- <-]. reflexivity.
  - unfold iter_code. cbn [map solo]. fold (iter_code body i). cbn [no_reread] in NR. destruct NR as [N1 N2].
    cbn [flat_map] in Hm, Hf.
    destruct s as [k e|k c e]; unfold exec1; cbn [fst snd stmt_loads stmt_stores] in *;
      rewrite (eval_agree A m m0 loc i e)
        by (intros x Hx; apply in_map_iff in Hx; destruct Hx as (q & <- & Hq); apply Hm; apply in_or_app; now left);
      destruct (eval A m0 loc i e) as [v| | |]; cbn [bind]; try discriminate.
    + cbn [fst snd]. intros H. apply IH; auto. intros q Hq. apply Hm. apply in_or_app. now right.
    + destruct (pure loc body) as [[ws1 loc1]| | |] eqn:E; cbn [bind fst snd]; try discriminate.
      intros [= <- <-].
      assert (Hfr : m (addr A k c i) <> Free) by (apply (Hf (k, c)); now left).
      replace (match m (addr A k c i) with Free => UB | _ => Ok (upd m (addr A k c i) v, loc) end)
        with (Ok (upd m (addr A k c i) v, loc)) by (destruct (m (addr A k c i)); congruence).
      cbn [bind fst snd].
      rewrite (IH (upd m (addr A k c i) v) loc ws1 loc1); auto.
      * intros q Hq. unfold upd.
        destruct (Z.eqb_spec (addr A (fst q) (snd q) i) (addr A k c i)) as [Heq|].
        -- destruct (N1 (k, c) q); [now left|exact Hq|]. symmetry. exact Heq.
        -- apply Hm. apply in_or_app. now right.
      * intros p Hp. unfold upd. destruct (Z.eqb_spec (addr A (fst p) (snd p) i) (addr A k c i)); [discriminate|].
        apply Hf. right. exact Hp.
Qed.

Lemma pure_solo : forall body loc ws loc', no_reread body ->
  (forall p, In p (flat_map stmt_stores body) -> m0 (addr A (fst p) (snd p) i) <> Free) ->
  pure loc body = Ok (ws, loc') ->
  solo A m0 loc (iter_code body i) = Ok (stores ws m0, loc').
Proof. intros. now apply pure_solo_gen. Qed.

End Body.
