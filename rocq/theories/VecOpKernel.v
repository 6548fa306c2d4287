(** The kernels of the element-wise operations, for all schedules. *)
From Coq Require Import Reals ZArith Bool Arith Lia Lra.
From Coquelicot Require Import Complex.
From Coq Require Import List.
From Verif Require Import Base GpuThreads GpuGrid GpuKernel VecOp VecOpSpec VecOpProofs VecOpValue.
Import ListNotations.
Local Open Scope nat_scope.

Lemma eval_fuel : forall A m loc i e, eval A m loc i e <> NoFuel.
Proof.
  intros A m loc i. induction e; cbn [eval]; try discriminate;
    try (destruct (eval A m loc i e1) as [x| | |]; cbn [bind]; try congruence;
         destruct (eval A m loc i e2) as [y| | |]; cbn [bind]; try congruence;
         try discriminate; destruct (Req_EM_T y 0); discriminate);
    try (destruct (eval A m loc i e) as [x| | |]; cbn [bind]; congruence).
  - destruct (m (addr A k c i)); discriminate.
  - destruct (loc k); discriminate.
Qed.
Lemma exec1_fuel : forall A m loc x, exec1 A m loc x <> NoFuel.
Proof.
  intros A m loc [i [k e|k c e]]; unfold exec1; cbn [fst snd];
    pose proof (eval_fuel A m loc i e) as H;
    destruct (eval A m loc i e) as [v| | |]; cbn [bind]; try congruence.
  destruct (m (addr A k c i)); discriminate.
Qed.
Lemma run_fuel : forall A s m ths, run A s m ths <> NoFuel.
Proof.
  intros A. induction s as [|t s IH]; intros m ths; cbn [run]; [discriminate|].
  destruct (t_code (ths t)) as [|x r]; [auto|].
  pose proof (exec1_fuel A m (t_loc (ths t)) x) as H.
  destruct (exec1 A m (t_loc (ths t)) x) as [q| | |]; cbn [bind]; try congruence. auto.
Qed.
Lemma kernel_finishes : forall A b total n s m, enough total (n * length b) s -> kernel A b total n s m <> NoFuel.
Proof.
  intros A b total n s m H. destruct (kernel_enough A b total n s m H) as [K|K]; [exact K|].
  now apply run_fuel in K.
Qed.

Definition op_ok (o : vop) : Prop := match o with addVMany n | mulVMany n => 0 < n | _ => True end.

Section Kernel.

Variables (o : vop) (A : args) (n : nat) (m0 : memory) (v : nat -> nat -> C) (s : nat -> C).
Hypothesis Ho : op_ok o.
Hypothesis Hty : forall k, k < length (types o) -> snd (arr A k) = nth k (types o) Re.
Hypothesis Hsep : separate A o n.
Hypothesis Hv : forall i k, i < n -> In k (operands o) -> holds A m0 k i (v i k).
Hypothesis Hs : forall k, sca A k = s k.
Hypothesis Hr : real_scalar o = true -> forall k, snd (s k) = 0%R.
Hypothesis Hd : forall i z, i < n -> In z (divisors o (v i) s) -> z <> RtoC 0.
Hypothesis Hf : forall k y, k < nout o -> in_array A n k y -> m0 y <> Free.

Lemma two_outputs : forall i, i < n -> nout o = 2 -> addr A 0 0 i <> addr A 1 0 i.
Proof.
  intros i Hi H2 E. pose proof (nout_le o).
  assert (Hw : forall t, 0 < width t) by (intros []; cbn; lia).
  destruct (Hsep 0 1 ltac:(lia) ltac:(lia) ltac:(lia)) as [H1|[H1 _]]; [|lia].
  apply (H1 (addr A 0 0 i)); exists i; (split; [auto|]); exists 0; auto.
Qed.

(** Memory after iteration i alone *)
Definition after (i : nat) : memory :=
  match pure A m0 i (fun _ => None) (body o) with Ok (ws, _) => stores ws m0 | _ => m0 end.

Lemma iteration : forall i loc, i < n -> exists ws loc',
  solo A m0 loc (iter_code (body o) i) = Ok (stores ws m0, loc') /\
  pure A m0 i loc (body o) = Ok (ws, loc') /\
  forall k, k < nout o -> holds A (stores ws m0) k i (formula o (v i) s k).
Proof.
  intros i loc Hi.
  destruct (op_value o A m0 i (v i) s Ho Hty (fun k => Hv i k Hi) Hs Hr (fun z => Hd i z Hi) loc)
    as (ws & loc' & E & H).
  exists ws, loc'. split; [|split; [exact E|]].
  - apply pure_solo; [now apply (no_reread_ok o A n)| |exact E].
    intros p Hp. destruct (store_ok o A Ho Hty p Hp) as [P1 P2].
    apply (Hf (fst p)); [exact P1|]. exists i. split; [exact Hi|]. now exists (snd p).
  - apply H. now apply two_outputs.
Qed.

(** The words of an output are determined by the number it holds *)
Lemma holds_word : forall m m' k i z c, holds A m k i z -> holds A m' k i z ->
  c < width (snd (arr A k)) -> m (addr A k c i) = m' (addr A k c i).
Proof.
  intros m m' k i z c H H' Hc. unfold holds in *. destruct (snd (arr A k)); cbn [width] in Hc.
  - assert (c = 0) by lia. subst c. destruct H, H'. congruence.
  - destruct H, H'. destruct c as [|[|c]]; [congruence|congruence|lia].
Qed.
Lemma holds_agree : forall m m' k i z, (forall c, c < width (snd (arr A k)) -> m' (addr A k c i) = m (addr A k c i)) ->
  holds A m k i z -> holds A m' k i z.
Proof.
  intros m m' k i z H. unfold holds. destruct (snd (arr A k)); cbn [width] in H.
  - intros [? ?]. rewrite H by lia. auto.
  - intros [? ?]. rewrite !H by lia. auto.
Qed.

Lemma op_kernel : forall total sch, 0 < total ->
  match kernel A (body o) total n sch m0 with
  | Ok m' =>
      (forall i k, i < n -> k < nout o -> holds A m' k i (formula o (v i) s k)) /\
      (forall y, (forall k, k < nout o -> ~ in_array A n k y) -> m' y = m0 y)
  | NoFuel => True
  | _ => False
  end.
Proof.
  intros total sch Ht.
  assert (Hit : forall i loc, i < n -> exists m1 loc', solo A m0 loc (iter_code (body o) i) = Ok (m1, loc') /\
    forall y, In y (wrs A (iter_code (body o) i)) -> m1 y = after i y).
  { intros i loc Hi. destruct (iteration i loc Hi) as (ws & loc' & E & _ & H).
    destruct (iteration i (fun _ => None) Hi) as (ws' & loc'' & _ & E' & H').
    exists (stores ws m0), loc'. split; [exact E|]. intros y Hy. unfold after. rewrite E'.
    apply (in_wrs o A) in Hy. destruct Hy as (p & Hp & ->).
    destruct (store_ok o A Ho Hty p Hp) as [P1 P2].
    apply (holds_word _ _ _ _ (formula o (v i) s (fst p))); auto. }
  pose proof (kernel_result A (body o) n m0 after (no_meet o A n Ho Hty Hsep) Hit total sch Ht) as K.
  destruct (kernel A (body o) total n sch m0) as [m'| | |]; auto.
  destruct K as [K1 K2]. split.
  - intros i k Hi Hk. destruct (iteration i (fun _ => None) Hi) as (ws & loc' & E & Ep & H).
    apply (holds_agree (stores ws m0)); [|auto].
    intros c Hc. assert (Ha : after i = stores ws m0) by (unfold after; now rewrite Ep).
    destruct (in_dec Z.eq_dec (addr A k c i) (wrs A (iter_code (body o) i))) as [Hw|Hw].
    + rewrite (K1 i), Ha; auto.
    + destruct (solo_frame _ _ _ _ _ _ E) as [Fr _]. rewrite Fr by exact Hw.
      apply K2. intros j Hj Hwj. destruct (Nat.eq_dec i j) as [->|Hne]; [contradiction|].
      apply (in_wrs o A) in Hwj. destruct Hwj as (p & Hp & Ep').
      destruct (store_ok o A Ho Hty p Hp) as [P1 P2]. pose proof (nout_le o).
      apply (addr_apart o A n Hsep k c (fst p) (snd p) i j) in Ep'; auto. lia.
  - intros y Hy. apply K2. intros i Hi Hw. apply (in_wrs o A) in Hw. destruct Hw as (p & Hp & ->).
    destruct (store_ok o A Ho Hty p Hp) as [P1 P2].
    apply (Hy (fst p) P1). exists i. split; [exact Hi|]. now exists (snd p).
Qed.

End Kernel.

(** ** What a kernel that returns has accessed *)

Lemma eval_throw : forall A m loc i e, eval A m loc i e <> Throw.
Proof.
  intros A m loc i. induction e; cbn [eval]; try discriminate;
    try (destruct (eval A m loc i e1) as [x| | |]; cbn [bind]; try congruence;
         destruct (eval A m loc i e2) as [y| | |]; cbn [bind]; try congruence;
         try discriminate; destruct (Req_EM_T y 0); discriminate);
    try (destruct (eval A m loc i e) as [x| | |]; cbn [bind]; congruence).
  - destruct (m (addr A k c i)); discriminate.
  - destruct (loc k); discriminate.
Qed.
Lemma run_throw : forall A s m ths, run A s m ths <> Throw.
Proof.
  intros A. induction s as [|t s IH]; intros m ths; cbn [run]; [discriminate|].
  destruct (t_code (ths t)) as [|[i [k e|k c e]] r]; [auto| |]; unfold exec1; cbn [fst snd];
    pose proof (eval_throw A m (t_loc (ths t)) i e) as H;
    destruct (eval A m (t_loc (ths t)) i e) as [v| | |]; cbn [bind]; try congruence; auto.
  destruct (m (addr A k c i)); cbn [bind]; try discriminate; auto.
Qed.
Lemma kernel_throw : forall A b total n s m, kernel A b total n s m <> Throw.
Proof.
  intros A b total n s m. unfold kernel. pose proof (run_throw A s m (start b total n)) as H.
  destruct (run A s m (start b total n)) as [q| | |]; cbn [bind]; try congruence. destruct (forallb _ _); discriminate.
Qed.

Lemma run_alloc : forall A s m ths m' ths', run A s m ths = Ok (m', ths') ->
  (forall y, m' y = Free <-> m y = Free) /\
  forall t, exists pre, t_code (ths t) = pre ++ t_code (ths' t) /\ forall y, In y (wrs A pre) -> m y <> Free.
Proof.
  intros A. induction s as [|t0 s IH]; intros m ths m' ths'; cbn [run].
  - intros [= <- <-]. split; [tauto|]. intros t. exists []. split; [reflexivity|]. intros y [].
  - destruct (t_code (ths t0)) as [|x r] eqn:E; [apply IH|].
    destruct (exec1 A m (t_loc (ths t0)) x) as [[m1 l1]| | |] eqn:E1; cbn [bind fst snd]; try discriminate.
    intros H. destruct (IH _ _ _ _ H) as [I1 I2]. destruct (exec1_frame _ _ _ _ _ _ E1) as [_ G].
    assert (Hx : forall y, In y (wr A x) -> m y <> Free).
    { intros y Hy. destruct x as [i [k e|k c e]]; unfold wr in Hy; cbn in Hy; [tauto|].
      destruct Hy as [<-|[]]. unfold exec1 in E1. cbn [fst snd] in E1.
      destruct (eval A m (t_loc (ths t0)) i e) as [w| | |]; cbn [bind] in E1; try discriminate.
      destruct (m (addr A k c i)); congruence. }
    split; [intros y; rewrite I1; apply G|]. intros t. destruct (I2 t) as (pre & P1 & P2).
    destruct (Nat.eqb_spec t t0) as [->|Hne].
    + cbn [t_code] in P1. exists (x :: pre). split; [rewrite E, P1; reflexivity|].
      intros y Hy. unfold wrs in Hy. cbn [flat_map] in Hy. apply in_app_or in Hy. destruct Hy as [Hy|Hy]; [auto|].
      rewrite <- G. now apply P2.
    + exists pre. split; [exact P1|]. intros y Hy. rewrite <- G. now apply P2.
Qed.

(** A kernel that returns has found the words it writes allocated *)
Lemma kernel_alloc : forall A b total n s m m', 0 < total -> kernel A b total n s m = Ok m' ->
  forall i y, i < n -> In y (wrs A (iter_code b i)) -> m y <> Free.
Proof.
  intros A b total n s m m' Ht H i y Hi Hy. unfold kernel in H.
  destruct (run A s m (start b total n)) as [[m1 ths]| | |] eqn:E; cbn [bind fst snd] in H; try discriminate.
  destruct (forallb _ _) eqn:F; [|discriminate]. rewrite forallb_forall in F.
  set (t := i mod total). assert (Htt : t < total) by (apply Nat.mod_upper_bound; lia).
  specialize (F t (proj2 (in_seq total 0 t) ltac:(lia))). cbv beta in F.
  destruct (run_alloc _ _ _ _ _ _ E) as [_ R]. destruct (R t) as (pre & P1 & P2).
  destruct (t_code (ths t)); [|discriminate]. rewrite app_nil_r in P1.
  apply P2. rewrite <- P1. unfold start. cbn [t_code].
  replace (t <? total) with true by (symmetry; now apply Nat.ltb_lt).
  apply (thread_in A b). exists i. split; [|exact Hy]. apply iterations_start; auto.
Qed.

(** One element: the iteration, executed alone *)
Lemma kernel_one : forall A b total s m m1, 0 < total -> enough total (1 * length b) s ->
  (forall loc, exists loc', solo A m loc (iter_code b 0) = Ok (m1, loc')) ->
  exists m', kernel A b total 1 s m = Ok m' /\ forall y, m' y = m1 y.
Proof.
  intros A b total s m m1 Ht He Hs.
  assert (Hdis : forall i j y, i < 1 -> j < 1 -> i <> j -> In y (wrs A (iter_code b i)) ->
    ~ In y (wrs A (iter_code b j)) /\ ~ In y (rds A (iter_code b j))) by (intros; lia).
  assert (Hit : forall i loc, i < 1 -> exists m2 loc', solo A m loc (iter_code b i) = Ok (m2, loc') /\
    forall y, In y (wrs A (iter_code b i)) -> m2 y = m1 y).
  { intros i loc Hi. assert (i = 0) by lia. subst i. destruct (Hs loc) as [loc' E]. exists m1, loc'. auto. }
  pose proof (kernel_result A b 1 m (fun _ => m1) Hdis Hit total s Ht) as K.
  pose proof (kernel_finishes A b total 1 s m He) as F.
  destruct (kernel A b total 1 s m) as [m'| | |]; try contradiction.
  exists m'. split; [reflexivity|]. intros y. destruct K as [K1 K2].
  destruct (in_dec Z.eq_dec y (wrs A (iter_code b 0))) as [Hw|Hw]; [apply (K1 0); [lia|exact Hw]|].
  destruct (Hs (fun _ => None)) as [loc' E]. destruct (solo_frame _ _ _ _ _ _ E) as [Fr _].
  rewrite Fr by exact Hw. apply K2. intros i Hi. assert (i = 0) by lia. subst i. exact Hw.
Qed.
