(** The arrays of a block as named arrays (GpuRep.v), and the effect of the
    functions of GpuBlock.v on their contents. *)
From Coq Require Import Reals ZArith Lia Lra Bool Arith FunctionalExtensionality.
From Coquelicot Require Import Complex.
From Coq Require Import List.
From Verif Require Import Stress Base RSum GpuThreads GpuGrid GpuKernel GpuWaveHost VecOp VecOpSpec VecOpKernel VecOpCall Polymer Solve
  Fft R1d Rpc GpuBlock GpuRep.
Import ListNotations.
Local Open Scope nat_scope.

Inductive nm :=
| N_expW | N_expW2 | N_expWInv | N_expKsq | N_expKsq2 | N_qr | N_qr2 | N_qk | N_qk2 | N_qkB | N_c | N_rTmp
| N_k (p : bool) | N_kS (p : bool) (j : nat) | N_q (p : bool) (i : nat) | N_in (i : nat).
Lemma nm_eqd : forall a b : nm, {a = b} + {a <> b}.
Proof. decide equality; try apply Nat.eq_dec; apply Bool.bool_dec. Qed.

Section Block.
Variables (dev : device) (sched : nat -> vop -> nat -> nat -> list nat) (dims : list Z).
Hypothesis Hfair : forall t o, fair o (sched t o).
Hypothesis Hnx : 0 < nR dims.
Hypothesis Hnk : 0 < nK dims.
Variables (B : garrays) (inp : nat -> darr) (nIn : nat) (ns : nat) (model : polyModel) (batched : bool).

Definition lay (a : nm) : darr :=
  match a with
  | N_expW => a_expW B | N_expW2 => a_expW2 B | N_expWInv => a_expWInv B
  | N_expKsq => a_expKsq B | N_expKsq2 => a_expKsq2 B
  | N_qr => sub (a_qrPair B) 0 (nx dims) | N_qr2 => sub (a_qrPair B) (nx dims) (nx dims)
  | N_qk => sub (a_qkPair B) 0 (kSize dims) | N_qk2 => sub (a_qkPair B) (kSize dims) (kSize dims)
  | N_qkB => a_qk B | N_c => a_c B | N_rTmp => a_rTmp B
  | N_k p => if p then a_q1k B else a_q0k B
  | N_kS p j => kSlice dims B p j
  | N_q p i => qField dims B p i
  | N_in i => inp i
  end.
Definition isThread := match model with Thread => True | Bead => False end.
Definition isBead := match model with Thread => False | Bead => True end.
Definition liv (a : nm) : Prop :=
  match a with
  | N_expW2 | N_qr | N_qr2 | N_qk | N_qk2 => isThread
  | N_expWInv | N_qkB => isBead
  | N_k _ => batched = false
  | N_kS _ j => batched = true /\ j < ns
  | N_q _ i => i < ns
  | N_in i => i < nIn
  | _ => True
  end.
Definition own (a : nm) : Prop := match a with N_in _ => False | _ => True end.
Definition size (a : nm) : nat :=
  match a with
  | N_expKsq | N_expKsq2 | N_qk | N_qk2 | N_qkB | N_rTmp | N_k _ | N_kS _ _ => nK dims
  | _ => nR dims
  end.
Definition typ (a : nm) : ty :=
  match a with N_qk | N_qk2 | N_qkB | N_k _ | N_kS _ _ => Co | _ => Re end.

Variables (m0 : memory).
Hypothesis Hty : forall a, liv a -> own a -> da_ty (lay a) = typ a /\ da_cap (lay a) = Z.of_nat (size a).
Hypothesis Hap : forall a b, liv a -> own a -> liv b -> a <> b ->
  forall y, words (lay a) y -> ~ words (lay b) y.

Notation runs := (runs dev nm lay liv own m0).
Notation at_ := (at_ dev nm lay liv own m0).
Notation up := (upd_ nm nm_eqd).
Notation below := (below nm lay liv).
Notation contents := (contents nm).

Lemma ow : forall a, liv a -> own a -> mine nm lay liv own (typ a) (size a) a.
Proof. intros a La Oa. destruct (Hty a La Oa). split; [|exact Oa]. split; [exact La|]. now split. Qed.
Lemma ok_ : forall a, liv a -> own a -> ok nm lay liv (typ a) (size a) a.
Proof. intros a La Oa. apply (ow a La Oa). Qed.

Lemma one_part : forall a, liv a -> own a -> parts nm lay liv (typ a) 1 (size a) (lay a) (fun _ => a).
Proof.
  intros a La Oa. destruct (Hty a La Oa) as [T C]. split; [exact T|]. split; [now rewrite Nat.mul_1_l|].
  intros b Hb. split; [now apply ok_|]. assert (b = 0) as -> by lia. cbn. rewrite Nat.mul_0_r. lia.
Qed.

(** One transform *)
Lemma fwd1 : forall S a b f, liv a -> own a -> liv b -> own b ->
  typ a = Re -> size a = nR dims -> typ b = Co -> size b = nK dims -> S a = Rl f ->
  runs S (forwardG dev sched dims 1 (lay a) (lay b)) (up S b (Cx (fftForward dims f))).
Proof.
  intros S a b f La Oa Lb Ob Ta Sa Tb Sb Hf.
  pose proof (one_part a La Oa) as Pa. pose proof (one_part b Lb Ob) as Pb. rewrite Ta, Sa in Pa. rewrite Tb, Sb in Pb.
  apply (run_forward dev sched dims Hfair nm lay liv own m0 Hap Hnx Hnk S _ 1 (lay a) (lay b)
           (fun _ => a) (fun _ => b) (fun _ => f)); auto.
  intros c h Lc. unfold upd_. destruct (nm_eqd c b) as [->|Hc].
  - intros [= <-]. left. exists 0. auto.
  - intros E. right. split; [|exact E]. intros _ _ E'. now apply Hc.
Qed.
Lemma inv1 : forall S a b X, liv a -> own a -> liv b -> own b -> a <> b ->
  typ a = Co -> size a = nK dims -> typ b = Re -> size b = nR dims -> S a = Cx X ->
  runs S (inverseG dims 1 (lay a) (lay b)) (up (up S a None) b (Rl (fftInverse dims X))).
Proof.
  intros S a b X La Oa Lb Ob Hab Ta Sa Tb Sb HX.
  pose proof (one_part a La Oa) as Pa. pose proof (one_part b Lb Ob) as Pb. rewrite Ta, Sa in Pa. rewrite Tb, Sb in Pb.
  apply (run_inverse dev dims nm lay liv own m0 Hap Hnx Hnk S _ 1 (lay a) (lay b)
           (fun _ => a) (fun _ => b) (fun _ => X)); auto.
  intros c h Lc. unfold upd_. destruct (nm_eqd c b) as [->|Hc].
  - intros [= <-]. left. exists 0. auto.
  - destruct (nm_eqd c a) as [->|Hc']; [discriminate|]. intros E. right. split; [|exact E]. auto.
Qed.

(** Multiplication in Fourier space: forward, multiply, inverse *)
Lemma kop_runs : forall S a k e b f E, liv a -> own a -> liv k -> own k -> liv e -> own e -> liv b -> own b ->
  typ a = Re -> size a = nR dims -> typ k = Co -> size k = nK dims -> typ e = Re -> size e = nK dims ->
  typ b = Re -> size b = nR dims -> S a = Rl f -> S e = Rl E ->
  runs S (fun g => g <- forwardG dev sched dims 1 (lay a) (lay k) g ;;
                   g <- vecG dev sched (mulEqV ECR) [lay k; lay e] [] g ;;
                   inverseG dims 1 (lay k) (lay b) g)
    (up (up S k None) b (Rl (kOp dims E f))).
Proof.
  intros S a k e b f E La Oa Lk Ok Le Oe Lb Ob Ta Sa Tk Sk Te Se Tb Sb Hf He.
  assert (Hke : e <> k) by congruence. assert (Hkb : k <> b) by congruence.
  apply (runs_bind dev nm lay liv own m0 S _ (up S k (Cx (fftForward dims f)))); [now apply fwd1|].
  apply (runs_bind dev nm lay liv own m0 _ _ (up (up S k (Cx (fftForward dims f))) k (Cx (mulK E (fftForward dims f))))).
  - pose proof (ow k Lk Ok) as Mk. pose proof (ok_ e Le Oe) as Me. rewrite Tk, Sk in Mk. rewrite Te, Se in Me.
    apply (run_mulEqV_complex dev sched Hfair nm nm_eqd lay liv own m0 Hap _ k e (nK dims)); auto.
    + apply upd_same.
    + now rewrite upd_other.
  - apply (runs_below dev nm lay liv own m0 _ _ (up (up (up (up S k (Cx (fftForward dims f))) k (Cx (mulK E (fftForward dims f)))) k None)
             b (Rl (fftInverse dims (mulK E (fftForward dims f)))))).
    + apply inv1; auto. apply upd_same.
    + intros c h Lc. unfold upd_. destruct (nm_eqd c b) as [->|Hc]; [|destruct (nm_eqd c k) as [->|Hc']].
      * intros [= <-]. eexists. split; [reflexivity|]. reflexivity.
      * discriminate.
      * intros H. exists h. auto.
Qed.

Definition clean (S : contents) : contents := fun a =>
  match a with N_qr | N_qr2 | N_qk | N_qk2 | N_qkB => None | _ => S a end.

Ltac look := repeat first [rewrite (upd_same nm nm_eqd) | rewrite (upd_other nm nm_eqd) by congruence].
Ltac okk := match goal with |- mine _ _ _ _ _ _ ?a => exact (ow a ltac:(cbn; auto) I) | |- ok _ _ _ _ _ ?a => exact (ok_ a ltac:(cbn; auto) I) end.

(** ** stepThread *)

Definition thStep (e e2 eW eW2 : nat -> R) (q : field) : field :=
  let qr := kOp dims e (fun i => q i * eW i)%R in
  let qr2 := kOp dims e2 (fun i => q i * eW2 i)%R in
  let qr := fun i => (qr i * eW i)%R in
  let qr2 := kOp dims e2 (fun i => qr2 i * eW i)%R in
  let qr2 := fun i => (qr2 i * eW2 i)%R in
  fun i => ((4 * qr2 i - qr i) / 3)%R.

Hypothesis Hpr : isThread -> da_ty (a_qrPair B) = Re /\ da_cap (a_qrPair B) = Z.of_nat (2 * nR dims).
Hypothesis Hpk : isThread -> da_ty (a_qkPair B) = Co /\ da_cap (a_qkPair B) = Z.of_nat (2 * nK dims).

Lemma parts_r : isThread -> parts nm lay liv Re 2 (nR dims) (a_qrPair B) (fun b => if b =? 0 then N_qr else N_qr2).
Proof.
  intros HT. destruct (Hpr HT) as [T C]. split; [exact T|]. split; [exact C|]. intros b Hb.
  destruct b as [|[|b]]; [| |lia]; cbn [Nat.eqb]; (split; [first [exact (ok_ N_qr HT I) | exact (ok_ N_qr2 HT I)]|]); cbn; rewrite T; cbn; unfold nx; f_equal; f_equal; lia.
Qed.
Lemma parts_k : isThread -> parts nm lay liv Co 2 (nK dims) (a_qkPair B) (fun b => if b =? 0 then N_qk else N_qk2).
Proof.
  intros HT. destruct (Hpk HT) as [T C]. split; [exact T|]. split; [exact C|]. intros b Hb.
  destruct b as [|[|b]]; [| |lia]; cbn [Nat.eqb]; (split; [first [exact (ok_ N_qk HT I) | exact (ok_ N_qk2 HT I)]|]); cbn; rewrite T; cbn; unfold kSize; f_equal; f_equal; lia.
Qed.

Lemma run_stepThread : forall S p i j q e e2 eW eW2, isThread -> i < ns -> j < ns ->
  S (N_q p i) = Rl q -> S N_expW = Rl eW -> S N_expW2 = Rl eW2 -> S N_expKsq = Rl e -> S N_expKsq2 = Rl e2 ->
  runs S (stepThreadG dev sched dims B (qField dims B p i) (qField dims B p j))
    (up (clean S) (N_q p j) (Rl (thStep e e2 eW eW2 q))).
Proof.
  intros S p i j q e e2 eW eW2 HT Hi Hj Hq HW HW2 He He2.
  unfold stepThreadG. apply runs_check; [unfold nx; rewrite (proj2 (Hpr HT)); apply Z.eqb_eq; lia|].
  apply runs_check; [unfold kSize; rewrite (proj2 (Hpk HT)); apply Z.eqb_eq; lia|].
  apply runs_check; [apply Z.eqb_eq; exact (proj2 (Hty N_expW I I))|].
  apply runs_check; [apply Z.eqb_eq; exact (proj2 (Hty N_expKsq I I))|].
  cbv zeta.
  set (f1 := fun i => (q i * eW i)%R). set (f2 := fun i => (q i * eW2 i)%R).
  set (S1 := up (up S N_qr (Rl f1)) N_qr2 (Rl f2)).
  apply (runs_bind dev nm lay liv own m0 _ _ S1).
  { unfold S1. replace f1 with (fun i => (eW i * q i)%R) by (apply functional_extensionality; intros; unfold f1; ring).
    replace f2 with (fun i => (eW2 i * q i)%R) by (apply functional_extensionality; intros; unfold f2; ring).
    apply (run_mulVVPair dev sched Hfair nm nm_eqd lay liv own m0 Hap S N_qr N_qr2 N_expW N_expW2 (N_q p i) (nR dims) eW eW2 q);
      try discriminate; auto; okk. }
  set (S2 := up (up S1 N_qk (Cx (fftForward dims f1))) N_qk2 (Cx (fftForward dims f2))).
  apply (runs_bind dev nm lay liv own m0 _ _ S2).
  { apply (run_forward dev sched dims Hfair nm lay liv own m0 Hap Hnx Hnk S1 S2 2 (a_qrPair B) (a_qkPair B) _ _
      (fun b => if b =? 0 then f1 else f2) ltac:(lia) (parts_r HT) (parts_k HT)).
    - intros b Hb. destruct b as [|[|b]]; [exact I|exact I|lia].
    - intros b Hb. destruct b as [|[|b]]; [| |lia]; cbn [Nat.eqb]; unfold S1; look; reflexivity.
    - intros a h La. unfold S2, upd_. destruct (nm_eqd a N_qk2) as [->|]; [|destruct (nm_eqd a N_qk) as [->|]].
      + intros [= <-]. left. exists 1. auto.
      + intros [= <-]. left. exists 0. repeat split; auto.
      + intros E. right. split; [|exact E]. intros b Hb. destruct b as [|[|b]]; [auto|auto|lia]. }
  set (X1 := mulK e (fftForward dims f1)). set (X2 := mulK e2 (fftForward dims f2)).
  set (S3 := up S2 N_qk (Cx X1)). apply (runs_bind dev nm lay liv own m0 _ _ S3).
  { apply (run_mulEqV_complex dev sched Hfair nm nm_eqd lay liv own m0 Hap S2 N_qk N_expKsq (nK dims)); auto;
      try okk; unfold S2, S1; look; auto. }
  set (S4 := up S3 N_qk2 (Cx X2)). apply (runs_bind dev nm lay liv own m0 _ _ S4).
  { apply (run_mulEqV_complex dev sched Hfair nm nm_eqd lay liv own m0 Hap S3 N_qk2 N_expKsq2 (nK dims)); auto;
      try okk; unfold S3, S2, S1; look; auto. }
  set (r1 := fftInverse dims X1). set (r2 := fftInverse dims X2).
  set (S5 := up (up (up (up S4 N_qk None) N_qk2 None) N_qr (Rl r1)) N_qr2 (Rl r2)).
  apply (runs_bind dev nm lay liv own m0 _ _ S5).
  { apply (run_inverse dev dims nm lay liv own m0 Hap Hnx Hnk S4 S5 2 (a_qkPair B) (a_qrPair B) _ _
      (fun b => if b =? 0 then X1 else X2) ltac:(lia) (parts_k HT) (parts_r HT)).
    - intros b Hb. destruct b as [|[|b]]; [split; exact I|split; exact I|lia].
    - intros b Hb. destruct b as [|[|b]]; [| |lia]; cbn [Nat.eqb]; unfold S4, S3; look; reflexivity.
    - intros a h La. unfold S5, upd_. destruct (nm_eqd a N_qr2) as [->|]; [|destruct (nm_eqd a N_qr) as [->|]].
      + intros [= <-]. left. exists 1. auto.
      + intros [= <-]. left. exists 0. repeat split; auto.
      + destruct (nm_eqd a N_qk2) as [->|]; [discriminate|]. destruct (nm_eqd a N_qk) as [->|]; [discriminate|].
        intros E. right. split; [|exact E]. intros b Hb. destruct b as [|[|b]]; [auto|auto|lia]. }
  set (S6 := up (up S5 N_qr (Rl (fun i => r1 i * eW i)%R)) N_qr2 (Rl (fun i => r2 i * eW i)%R)).
  apply (runs_bind dev nm lay liv own m0 _ _ S6).
  { apply (run_mulEqVPair dev sched Hfair nm nm_eqd lay liv own m0 Hap S5 N_qr N_qr2 N_expW (nR dims) r1 r2 eW);
      try discriminate; auto; try okk; unfold S5, S4, S3, S2, S1; look; auto. }
  set (S7 := up S6 N_qk2 (Cx (fftForward dims (fun i => r2 i * eW i)%R))).
  apply (runs_bind dev nm lay liv own m0 _ _ S7).
  { apply (fwd1 S6 N_qr2 N_qk2); auto; try exact I. unfold S6. look. reflexivity. }
  set (X3 := mulK e2 (fftForward dims (fun i => r2 i * eW i)%R)).
  set (S8 := up S7 N_qk2 (Cx X3)). apply (runs_bind dev nm lay liv own m0 _ _ S8).
  { apply (run_mulEqV_complex dev sched Hfair nm nm_eqd lay liv own m0 Hap S7 N_qk2 N_expKsq2 (nK dims)); auto;
      try okk; unfold S7, S6, S5, S4, S3, S2, S1; look; auto. }
  set (S9 := up (up S8 N_qk2 None) N_qr2 (Rl (fftInverse dims X3))). apply (runs_bind dev nm lay liv own m0 _ _ S9).
  { apply (inv1 S8 N_qk2 N_qr2); auto; try exact I; try discriminate. unfold S8. look. reflexivity. }
  apply (runs_below dev nm lay liv own m0 _ _ (up S9 (N_q p j)
    (Rl (fun i => (4 * (fftInverse dims X3 i * eW2 i) - r1 i * eW i) / 3)%R))).
  { apply (run_richardsonEx dev sched Hfair nm nm_eqd lay liv own m0 Hap S9 (N_q p j) N_qr N_qr2 N_expW2 (nR dims));
      auto; try okk; unfold S9, S8, S7, S6, S5, S4, S3, S2, S1; look; auto. }
  intros a h La. unfold upd_ at 1. destruct (nm_eqd a (N_q p j)) as [->|Ha].
  - intros [= <-]. eexists. split; [apply upd_same|]. reflexivity.
  - intros E. exists h. split; [|auto]. look.
    destruct a; try discriminate E; unfold S9, S8, S7, S6, S5, S4, S3, S2, S1; look; exact E.
Qed.

(** ** Steps of the bead model *)

Lemma run_field : forall S p i q eW, i < ns -> S (N_q p i) = Rl q -> S N_expW = Rl eW ->
  runs S (stepFieldBeadG dev sched dims B (qField dims B p i)) (up S (N_q p i) (Rl (fun x => q x * eW x)%R)).
Proof.
  intros S p i q eW Hi Hq HW. unfold stepFieldBeadG.
  apply runs_check; [apply Z.eqb_eq; exact (proj2 (Hty N_expW I I))|].
  apply runs_check; [apply Z.eqb_eq; exact (proj2 (Hty (N_q p i) Hi I))|].
  apply (run_mulEqV dev sched Hfair nm nm_eqd lay liv own m0 Hap S (N_q p i) N_expW (nR dims)); auto; okk.
Qed.

Lemma run_bond : forall half S p i j q e, isBead -> i < ns -> j < ns -> S (N_q p i) = Rl q ->
  S (if half : bool then N_expKsq2 else N_expKsq) = Rl e ->
  runs S (bondG dev sched dims B (if half then a_expKsq2 B else a_expKsq B) (qField dims B p i) (qField dims B p j))
    (up (clean S) (N_q p j) (Rl (kOp dims e q))).
Proof.
  intros half S p i j q e HB Hi Hj Hq He. unfold bondG.
  apply runs_check; [apply Z.eqb_eq; exact (proj2 (Hty (N_q p i) Hi I))|].
  apply runs_check; [apply Z.eqb_eq; exact (proj2 (Hty (N_q p j) Hj I))|].
  apply runs_check; [apply Z.eqb_eq; exact (proj2 (Hty N_qkB HB I))|].
  apply runs_check; [apply Z.eqb_eq; exact (proj2 (Hty N_expKsq I I))|].
  pose proof (kop_runs S (N_q p i) N_qkB (if half then N_expKsq2 else N_expKsq) (N_q p j) q e) as K.
  apply (runs_below dev nm lay liv own m0 _ _ (up (up S N_qkB None) (N_q p j) (Rl (kOp dims e q)))).
  - destruct half; apply K; auto; exact I.
  - intros a h La. unfold upd_. destruct (nm_eqd a (N_q p j)) as [->|Ha].
    + intros [= <-]. eexists. split; [reflexivity|]. reflexivity.
    + destruct (nm_eqd a N_qkB) as [->|]; [discriminate|]. intros E. exists h. split; [|auto]. destruct a; auto; discriminate E.
Qed.

(** ** Loops *)

Lemma run_for : forall (T : nat -> contents) f n from,
  (forall k, from <= k < from + n -> runs (T k) (f k) (T (Datatypes.S k))) ->
  runs (T from) (forG n from f) (T (from + n)).
Proof.
  intros T f n. induction n as [|n IH]; intros from H.
  - rewrite Nat.add_0_r. apply runs_ok.
  - cbn [forG]. apply (runs_bind dev nm lay liv own m0 _ _ (T (Datatypes.S from))); [apply H; lia|].
    replace (from + Datatypes.S n) with (Datatypes.S from + n) by lia. apply IH. intros k Hk. apply H. lia.
Qed.

(** Slices 0 .. k of propagator p as in sl, the others as in S *)
Definition known (p : bool) (sl : nat -> field) (k : nat) (S : contents) : contents := fun a =>
  match a with
  | N_q p' j => if Bool.eqb p p' then (if j <=? k then Rl (sl j) else S a) else S a
  | _ => clean S a
  end.

Lemma known_at : forall p sl k S j, j <= k -> known p sl k S (N_q p j) = Rl (sl j).
Proof. intros p sl k S j H. cbn. rewrite eqb_reflx. now rewrite (proj2 (Nat.leb_le j k) H). Qed.

Lemma known_next : forall p sl k S h, (forall i, i < nR dims -> h i = sl (Datatypes.S k) i) -> Datatypes.S k < ns ->
  below (known p sl (Datatypes.S k) S) (up (clean (known p sl k S)) (N_q p (Datatypes.S k)) (Rl h)).
Proof.
  intros p sl k S h Hh Hk a f La E. unfold upd_. destruct (nm_eqd a (N_q p (Datatypes.S k))) as [->|Ha].
  - rewrite known_at in E by lia. injection E as <-. eexists. split; [reflexivity|]. intros i Hi.
    cbn beta. rewrite Hh; [reflexivity|]. rewrite (proj2 (Hty (N_q p (Datatypes.S k)) Hk I)) in Hi. cbn [size] in Hi. lia.
  - exists f. split; [|auto]. destruct a as [| | | | | | | | | | | |p'|p' j|p' j|]; try exact E. cbn in E |- *.
    destruct (Bool.eqb p p') eqn:Ep; [|exact E]. apply eqb_prop in Ep. subst p'.
    destruct (Nat.leb_spec j k); [now rewrite (proj2 (Nat.leb_le j (Datatypes.S k)) ltac:(lia)) in E|].
    destruct (Nat.leb_spec j (Datatypes.S k)); [|exact E]. elim Ha. f_equal. lia.
Qed.

Section Model.
Variables (S0 : contents) (e e2 eW eW2 eWI : nat -> R).
Hypothesis HW : S0 N_expW = Rl eW.
Hypothesis He : S0 N_expKsq = Rl e.
Hypothesis He2 : S0 N_expKsq2 = Rl e2.
Hypothesis Hns : 3 <= ns.

Definition thSl (h : field) (j : nat) : field := Nat.iter j (thStep e e2 eW eW2) h.

Lemma run_steps_thread : forall sw p h he te, isThread -> S0 N_expW2 = Rl eW2 ->
  runs (known p (thSl h) 0 S0) (stepsG dev sched dims B sw Thread p ns he te) (known p (thSl h) (ns - 1) S0).
Proof.
  intros sw p h he te HT HW2. unfold stepsG.
  apply (run_for (fun k => known p (thSl h) k S0) _ (ns - 1) 0). intros k Hk.
  apply (runs_below dev nm lay liv own m0 _ _ (up (clean (known p (thSl h) k S0)) (N_q p (k + 1)) (Rl (thStep e e2 eW eW2 (thSl h k))))).
  - apply run_stepThread; auto; try lia. now rewrite known_at by lia.
  - replace (k + 1) with (Datatypes.S k) by lia. apply known_next; [reflexivity|lia].
Qed.

Definition bdStep (q : field) : field := fun i => (kOp dims e q i * eW i)%R.
Definition bdSl (he : bool) (h : field) (j : nat) : field :=
  if j =? 0 then h
  else let q1 := fun i => ((if he then h else kOp dims e2 h) i * eW i)%R in
       if j =? ns - 1 then kOp dims e2 (Nat.iter (ns - 3) bdStep q1) else Nat.iter (j - 1) bdStep q1.

Lemma run_stepBead : forall S p i j q, isBead -> i < ns -> j < ns -> S (N_q p i) = Rl q -> S N_expKsq = Rl e -> S N_expW = Rl eW ->
  runs S (stepBeadG dev sched dims B (qField dims B p i) (qField dims B p j)) (up (clean S) (N_q p j) (Rl (bdStep q))).
Proof.
  intros S p i j q HB Hi Hj Hq H1 H2. unfold stepBeadG, stepBondBeadG.
  apply (runs_bind dev nm lay liv own m0 _ _ (up (clean S) (N_q p j) (Rl (kOp dims e q)))).
  - exact (run_bond false S p i j q e HB Hi Hj Hq H1).
  - apply (runs_below dev nm lay liv own m0 _ _ (up (up (clean S) (N_q p j) (Rl (kOp dims e q))) (N_q p j) (Rl (bdStep q)))).
    + apply run_field; auto; [apply upd_same|]. look. exact H2.
    + intros a h La. unfold upd_. destruct (nm_eqd a (N_q p j)); intros E; exists h; auto.
Qed.

Lemma run_steps_bead : forall sw p h he te, isBead ->
  runs (known p (bdSl he h) 0 S0) (stepsG dev sched dims B sw Bead p ns he te)
    (known p (bdSl he h) (if xorb te sw then ns - 2 else ns - 1) S0).
Proof.
  intros sw p h he te HB. unfold stepsG. set (sl := bdSl he h).
  set (h1 := if he then h else kOp dims e2 h).
  apply (runs_bind dev nm lay liv own m0 _ _ (up (clean (known p sl 0 S0)) (N_q p 1) (Rl h1))).
  { destruct he.
    - apply (runs_below dev nm lay liv own m0 _ _ (up (known p sl 0 S0) (N_q p 1) (Rl h))).
      + apply (run_eqV dev sched Hfair nm nm_eqd lay liv own m0 Hap _ (N_q p 1) (N_q p 0) (nR dims)); auto.
        * exact (ow (N_q p 1) ltac:(cbn; lia) I).
        * exact (ok_ (N_q p 0) ltac:(cbn; lia) I).
        * now rewrite known_at by lia.
      + intros a f La. unfold upd_. destruct (nm_eqd a (N_q p 1)); intros E; exists f; split; auto.
        destruct a; try discriminate E; exact E.
    - apply (run_bond true); auto; try lia. now rewrite known_at by lia. }
  apply (runs_bind dev nm lay liv own m0 _ _ (known p sl 1 S0)).
  { apply (runs_below dev nm lay liv own m0 _ _
      (up (up (clean (known p sl 0 S0)) (N_q p 1) (Rl h1)) (N_q p 1) (Rl (fun x => h1 x * eW x)%R))).
    - apply run_field; [lia|apply upd_same|]. look. exact HW.
    - intros a f La E. destruct (known_next p sl 0 S0 (fun x => h1 x * eW x)%R) with (a := a) (f := f) as (f0 & E0 & Q); auto.
      + intros i Hi. unfold sl, bdSl. destruct (Nat.eqb_spec 1 (ns - 1)); [lia|]. reflexivity.
      + lia.
      + exists f0. split; [|exact Q]. rewrite <- E0. unfold upd_. now destruct (nm_eqd a (N_q p 1)). }
  apply (runs_bind dev nm lay liv own m0 _ _ (known p sl (ns - 2) S0)).
  { pose proof (run_for (fun k => known p sl k S0) (fun i => stepBeadG dev sched dims B (qField dims B p i) (qField dims B p (i + 1)))
      (ns - 2 - 1) 1) as R. replace (1 + (ns - 2 - 1)) with (ns - 2) in R by lia. apply R. intros k Hk.
    apply (runs_below dev nm lay liv own m0 _ _ (up (clean (known p sl k S0)) (N_q p (k + 1)) (Rl (bdStep (sl k))))).
    - apply run_stepBead; auto; try lia. now rewrite known_at by lia.
    - replace (k + 1) with (Datatypes.S k) by lia. apply known_next; [|lia]. intros i Hi. unfold sl, bdSl.
      destruct (Nat.eqb_spec k 0); [lia|]. destruct (Nat.eqb_spec k (ns - 1)); [lia|].
      destruct (Nat.eqb_spec (Datatypes.S k) (ns - 1)); [lia|]. cbn [Nat.eqb]. replace (Datatypes.S k - 1) with (Datatypes.S (k - 1)) by lia. reflexivity. }
  destruct (xorb te sw).
  - apply (runs_below dev nm lay liv own m0 _ _ (up (known p sl (ns - 2) S0) (N_q p (ns - 2)) (Rl (sl (ns - 2))))).
    + apply (run_eqV dev sched Hfair nm nm_eqd lay liv own m0 Hap _ (N_q p (ns - 2)) (N_q p (ns - 2)) (nR dims)); auto.
      * exact (ow (N_q p (ns - 2)) ltac:(cbn; lia) I).
      * exact (ok_ (N_q p (ns - 2)) ltac:(cbn; lia) I).
      * now rewrite known_at by lia.
    + intros a f La E. unfold upd_. destruct (nm_eqd a (N_q p (ns - 2))) as [->|]; [|exists f; auto].
      rewrite known_at in E by lia. exists f. auto.
  - apply (runs_below dev nm lay liv own m0 _ _ (up (clean (known p sl (ns - 2) S0)) (N_q p (ns - 1)) (Rl (kOp dims e2 (sl (ns - 2)))))).
    + apply (run_bond true); auto; try lia. now rewrite known_at by lia.
    + pose proof (known_next p sl (ns - 2) S0 (kOp dims e2 (sl (ns - 2)))) as K.
      replace (Datatypes.S (ns - 2)) with (ns - 1) in K by lia. apply K; [|lia]. intros i Hi. unfold sl, bdSl.
      destruct (Nat.eqb_spec (ns - 2) 0); [lia|]. destruct (Nat.eqb_spec (ns - 2) (ns - 1)); [lia|].
      rewrite Nat.eqb_refl. destruct (Nat.eqb_spec (ns - 1) 0); [lia|]. replace (ns - 2 - 1) with (ns - 3) by lia. reflexivity.
Qed.

(** ** Heads *)

Lemma run_head : forall p (tn : list nm) fs sl,
  (forall t, In t tn -> ok nm lay liv Re (nR dims) t /\ t <> N_q p 0) ->
  Forall2 (fun t f => S0 t = Rl f) tn fs ->
  (forall i, i < nR dims -> prod_of fs i = sl 0 i) ->
  runs S0 (computeHeadG dev sched dims B p (map lay tn)) (known p sl 0 S0).
Proof.
  intros p tn fs sl Ht HF Hsl. unfold computeHeadG.
  assert (Bl : forall S h, below S S0 -> (forall i, i < nR dims -> h i = sl 0 i) ->
     below (known p sl 0 S0) (up S0 (N_q p 0) (Rl h))).
  { intros S h _ Hh a f La E. unfold upd_. destruct (nm_eqd a (N_q p 0)) as [->|Ha].
    - rewrite known_at in E by lia. injection E as <-. eexists. split; [reflexivity|]. intros i Hi. cbn beta.
      rewrite Hh; [reflexivity|]. rewrite (proj2 (Hty (N_q p 0) La I)) in Hi. cbn [size] in Hi. lia.
    - exists f. split; [|auto]. destruct a as [| | | | | | | | | | | |p'|p' j|p' j|]; try discriminate E; try exact E. cbn in E.
      destruct (Bool.eqb p p') eqn:Ep; [|exact E]. apply eqb_prop in Ep. subst p'.
      destruct (Nat.leb_spec j 0); [|exact E]. elim Ha. f_equal. lia. }
  apply (runs_bind dev nm lay liv own m0 _ _ (up S0 (N_q p 0) (Rl (fun _ => 1%R)))).
  { apply (run_eqS dev sched Hfair nm nm_eqd lay liv own m0 Hap _ (N_q p 0) (nR dims)); auto.
    exact (ow (N_q p 0) ltac:(cbn; lia) I). }
  destruct tn as [|t tn].
  - cbn [map]. inversion HF; subst. apply (runs_below dev nm lay liv own m0 _ _ (up S0 (N_q p 0) (Rl (fun _ => 1%R)))); [apply runs_ok|].
    apply (Bl S0); [apply below_refl|]. intros i Hi. rewrite <- Hsl by exact Hi. reflexivity.
  - change (map lay (t :: tn)) with (lay t :: map lay tn). cbv iota.
    change (lay t :: map lay tn) with (map lay (t :: tn)).
    apply (runs_below dev nm lay liv own m0 _ _ (up (up S0 (N_q p 0) (Rl (fun _ => 1%R))) (N_q p 0) (Rl (prod_of ((fun _ => 1%R) :: fs))))).
    + apply (run_many dev sched Hfair nm nm_eqd lay liv own m0 Hap _ (N_q p 0) (N_q p 0 :: t :: tn) (nR dims)); auto.
      * exact (ow (N_q p 0) ltac:(cbn; lia) I).
      * intros b [<-|Hb]; [exact (ok_ (N_q p 0) ltac:(cbn; lia) I)|]. now apply Ht.
      * cbn. lia.
      * constructor; [apply upd_same|]. revert HF Ht. generalize (t :: tn). clear. intros l HF Ht.
        induction HF as [|x f l fs Hx HF IH]; constructor.
        -- rewrite upd_other; [exact Hx|]. apply Ht. now left.
        -- apply IH. intros y Hy. apply Ht. now right.
    + intros a f La E. destruct (Bl S0 (prod_of fs) (below_refl _ _ _ _) Hsl a f La E) as (f0 & E0 & Q).
      unfold upd_ in *. destruct (nm_eqd a (N_q p 0)).
      * injection E0 as <-. eexists. split; [reflexivity|]. intros i Hi. rewrite <- Q by exact Hi. cbn beta.
        unfold prod_of. cbn [map fold_left]. now rewrite Rmult_1_l.
      * exists f0. auto.
Qed.

Lemma run_set_head : forall p t h sl, ok nm lay liv Re (nR dims) t -> S0 t = Rl h ->
  (forall i, i < nR dims -> h i = sl 0 i) ->
  runs S0 (vecG dev sched (eqV Re) [qField dims B p 0; lay t] []) (known p sl 0 S0).
Proof.
  intros p t h sl Ht Hh Hsl.
  apply (runs_below dev nm lay liv own m0 _ _ (up S0 (N_q p 0) (Rl h))).
  - apply (run_eqV dev sched Hfair nm nm_eqd lay liv own m0 Hap S0 (N_q p 0) t (nR dims)); auto.
    exact (ow (N_q p 0) ltac:(cbn; lia) I).
  - intros a f La E. unfold upd_. destruct (nm_eqd a (N_q p 0)) as [->|Ha].
    + rewrite known_at in E by lia. injection E as <-. eexists. split; [reflexivity|]. intros i Hi. cbn beta.
      rewrite Hsl; [reflexivity|]. rewrite (proj2 (Hty (N_q p 0) La I)) in Hi. cbn [size] in Hi. lia.
    + exists f. split; [|auto]. destruct a as [| | | | | | | | | | | |p'|p' j|p' j|]; try discriminate E; try exact E. cbn in E.
      destruct (Bool.eqb p p') eqn:Ep; [|exact E]. apply eqb_prop in Ep. subst p'.
      destruct (Nat.leb_spec j 0); [|exact E]. elim Ha. f_equal. lia.
Qed.

(** ** Partition function *)

Lemma run_Q_sum : forall g p j f, at_ S0 g -> j < ns -> S0 (N_q p j) = Rl f ->
  sumG (qField dims B p j) g = Ok (rsum (nR dims) f).
Proof. intros g p j f Hg Hj Hf. exact (run_sum dev dims nm lay liv own m0 Hnx Hnk S0 g (N_q p j) (nR dims) f Hg (ok_ (N_q p j) Hj I) Hf). Qed.
Lemma run_Q_inner : forall g p j f p' j' h, at_ S0 g -> j < ns -> j' < ns -> S0 (N_q p j) = Rl f -> S0 (N_q p' j') = Rl h ->
  innerProductG (qField dims B p j) (qField dims B p' j') g = Ok (rsum (nR dims) (fun i => f i * h i)%R).
Proof.
  intros g p j f p' j' h Hg Hj Hj' Hf Hh.
  exact (run_inner dev dims nm lay liv own m0 Hnx Hnk S0 g (N_q p j) (N_q p' j') (nR dims) f h Hg (ok_ (N_q p j) Hj I) (ok_ (N_q p' j') Hj' I) Hf Hh).
Qed.

(** ** Concentrations *)

Section Conc.
Variable sl : bool -> nat -> field.
Variables (used : bool -> nat -> Prop).
Hypothesis Hsl : forall p j, used p j -> j < ns /\ S0 (N_q p j) = Rl (sl p j).

Lemma up_below : forall a f h, liv a -> own a -> typ a = Re -> size a = nR dims -> (forall i, i < nR dims -> f i = h i) ->
  below (up S0 a (Rl h)) (up S0 a (Rl f)).
Proof.
  intros a f h La Oa Ta Sa H b u Lb. unfold upd_. destruct (nm_eqd b a) as [->|Hb].
  - intros [= <-]. eexists. split; [reflexivity|]. intros i Hi. cbn beta. rewrite H; [reflexivity|].
    rewrite (proj2 (Hty a La Oa)), Sa in Hi. lia.
  - intros E. exists u. auto.
Qed.
Lemma up_up_below : forall S a u v, below (up S a v) (up (up S a u) a v).
Proof. intros S a u v b f Lb. unfold upd_. destruct (nm_eqd b a); intros E; exists f; auto. Qed.

Lemma run_acc : forall c j f, used false j -> used true (ns - 1 - j) ->
  runs (up S0 N_c (Rl f)) (miscG dev sched addEqMulVVc [a_c B; qField dims B false j; qField dims B true (ns - 1 - j)] [real c])
    (up S0 N_c (Rl (fun i => f i + sl false j i * sl true (ns - 1 - j) i * c)%R)).
Proof.
  intros c j f U0 U1. destruct (Hsl _ _ U0) as [J0 H0]. destruct (Hsl _ _ U1) as [J1 H1].
  apply (runs_below dev nm lay liv own m0 _ _ (up (up S0 N_c (Rl f)) N_c (Rl (fun i => f i + sl false j i * sl true (ns - 1 - j) i * c)%R)));
    [|apply up_up_below].
  apply (run_addEqMulVVc dev sched Hfair nm nm_eqd lay liv own m0 Hap _ N_c (N_q false j) (N_q true (ns - 1 - j)) (nR dims)); auto.
  - exact (ow N_c I I).
  - exact (ok_ (N_q false j) J0 I).
  - exact (ok_ (N_q true (ns - 1 - j)) J1 I).
  - apply upd_same.
  - now look.
  - now look.
Qed.

Definition cThread (ds prefactor : R) : field := fun i =>
  let t := fun j => (sl false j i * sl true (ns - 1 - j)%nat i)%R in
  ((sl false 0%nat i * sl true (ns - 1)%nat i + sl false (ns - 1)%nat i * sl true 0%nat i
     + rsum (ns - 1) (fun j => if Nat.odd j then t j * 4 else 0)
     + rsum (ns - 2) (fun j => if Nat.even j && (2 <=? j)%nat then t j * 2 else 0))
    * (prefactor * (ds / 3)))%R.

Lemma run_concThread : forall ds prefactor, (forall p j, j < ns -> used p j) ->
  runs S0 (concThreadG dev sched dims B ns ds prefactor) (up S0 N_c (Rl (cThread ds prefactor))).
Proof.
  intros ds prefactor U. unfold concThreadG.
  apply runs_check; [apply Z.eqb_eq; exact (proj2 (Hty N_c I I))|]. cbv zeta.
  apply (runs_bind dev nm lay liv own m0 _ _ (up S0 N_c (Rl (fun _ => 0%R)))).
  { apply (run_eqS dev sched Hfair nm nm_eqd lay liv own m0 Hap _ N_c (nR dims)); auto. exact (ow N_c I I). }
  set (t := fun j i => (sl false j i * sl true (ns - 1 - j) i)%R).
  set (f1 := fun i => (0 + t 0%nat i * 1)%R).
  apply (runs_bind dev nm lay liv own m0 _ _ (up S0 N_c (Rl f1))).
  { apply run_acc; apply U; lia. }
  set (f2 := fun i => (f1 i + t (ns - 1)%nat i * 1)%R).
  apply (runs_bind dev nm lay liv own m0 _ _ (up S0 N_c (Rl f2))).
  { apply run_acc; apply U; lia. }
  set (o := fun k i => rsum k (fun j => if Nat.odd j then (t j i * 4)%R else 0%R)).
  apply (runs_bind dev nm lay liv own m0 _ _ (up S0 N_c (Rl (fun i => f2 i + o (1 + (ns - 1 - 1))%nat i)%R))).
  { apply (runs_pre dev nm lay liv own m0 _ (up S0 N_c (Rl (fun i => f2 i + o 1%nat i)%R))).
    - apply (run_for (fun k => up S0 N_c (Rl (fun i => f2 i + o k i)%R)) _ (ns - 1 - 1) 1). intros k Hk.
      destruct (Nat.odd k) eqn:Od.
      + apply (runs_below dev nm lay liv own m0 _ _ (up S0 N_c (Rl (fun i => (f2 i + o k i) + t k i * 4)%R))).
        * apply run_acc; apply U; lia.
        * apply up_below; auto; try exact I. intros i Hi. unfold o. cbn [rsum]. rewrite Od. ring.
      + apply (runs_below dev nm lay liv own m0 _ _ (up S0 N_c (Rl (fun i => f2 i + o k i)%R))); [apply runs_ok|].
        apply up_below; auto; try exact I. intros i Hi. unfold o. cbn [rsum]. rewrite Od. ring.
    - apply up_below; auto; try exact I. intros i Hi. unfold o. cbn. ring. }
  set (f3 := fun i => (f2 i + o (1 + (ns - 1 - 1))%nat i)%R).
  set (v := fun k i => rsum k (fun j => if Nat.even j && (2 <=? j) then (t j i * 2)%R else 0%R)).
  apply (runs_bind dev nm lay liv own m0 _ _ (up S0 N_c (Rl (fun i => f3 i + v (2 + (ns - 2 - 2))%nat i)%R))).
  { apply (runs_pre dev nm lay liv own m0 _ (up S0 N_c (Rl (fun i => f3 i + v 2%nat i)%R))).
    - apply (run_for (fun k => up S0 N_c (Rl (fun i => f3 i + v k i)%R)) _ (ns - 2 - 2) 2). intros k Hk.
      destruct (Nat.even k) eqn:Ev.
      + apply (runs_below dev nm lay liv own m0 _ _ (up S0 N_c (Rl (fun i => (f3 i + v k i) + t k i * 2)%R))).
        * apply run_acc; apply U; lia.
        * apply up_below; auto; try exact I. intros i Hi. unfold v. cbn [rsum]. rewrite Ev.
          rewrite (proj2 (Nat.leb_le 2 k)) by lia. cbn [andb]. ring.
      + apply (runs_below dev nm lay liv own m0 _ _ (up S0 N_c (Rl (fun i => f3 i + v k i)%R))); [apply runs_ok|].
        apply up_below; auto; try exact I. intros i Hi. unfold v. cbn [rsum]. rewrite Ev. cbn [andb]. ring.
    - apply up_below; auto; try exact I. intros i Hi. unfold v. cbn. ring. }
  set (f4 := fun i => (f3 i + v (2 + (ns - 2 - 2))%nat i)%R).
  apply (runs_below dev nm lay liv own m0 _ _ (up (up S0 N_c (Rl f4)) N_c (Rl (fun i => f4 i * (prefactor * ds / 3))%R))).
  { apply (run_mulEqS dev sched Hfair nm nm_eqd lay liv own m0 Hap _ N_c (nR dims)); auto; [exact (ow N_c I I)|apply upd_same]. }
  intros a h La. unfold upd_. destruct (nm_eqd a N_c) as [->|]; intros E; [|exists h; auto].
  injection E as <-. eexists. split; [reflexivity|]. intros i _. cbn beta. f_equal. unfold cThread, f4, f3, f2, f1.
  assert (Ev : v (2 + (ns - 2 - 2)) i = rsum (ns - 2) (fun j => if Nat.even j && (2 <=? j) then (t j i * 2)%R else 0%R)).
  { destruct (Nat.eq_dec ns 3) as [E3|N3].
    - unfold v. rewrite E3. cbn. ring.
    - unfold v. f_equal. lia. }
  rewrite Ev. unfold o. replace (1 + (ns - 1 - 1)) with (ns - 1) by lia. unfold t.
  replace (ns - 1 - (ns - 1)) with 0 by lia. replace (ns - 1 - 0) with (ns - 1) by lia.
  set (A := rsum _ _). set (A' := rsum _ _). field.
Qed.

Definition cBead (prefactor : R) : field := fun i =>
  (rsum (ns - 2) (fun k => sl false (S k) i * sl true (ns - 1 - S k)%nat i * eWI i) * prefactor)%R.

Lemma run_concBead : forall prefactor, isBead -> S0 N_expWInv = Rl eWI -> (forall p j, 1 <= j < ns - 1 -> used p j) ->
  runs S0 (concBeadG dev sched dims B ns prefactor) (up S0 N_c (Rl (cBead prefactor))).
Proof.
  intros prefactor HB HI U. unfold concBeadG.
  apply runs_check; [apply Z.eqb_eq; exact (proj2 (Hty N_c I I))|].
  apply (runs_bind dev nm lay liv own m0 _ _ (up S0 N_c (Rl (fun _ => 0%R)))).
  { apply (run_eqS dev sched Hfair nm nm_eqd lay liv own m0 Hap _ N_c (nR dims)); auto. exact (ow N_c I I). }
  set (o := fun k i => rsum (k - 1) (fun k => (sl false (S k) i * sl true (ns - 1 - S k)%nat i * eWI i)%R)).
  apply (runs_bind dev nm lay liv own m0 _ _ (up S0 N_c (Rl (o (1 + (ns - 1 - 1)))))).
  { apply (runs_pre dev nm lay liv own m0 _ (up S0 N_c (Rl (o 1)))).
    - apply (run_for (fun k => up S0 N_c (Rl (o k))) _ (ns - 1 - 1) 1). intros k Hk.
      destruct (Hsl _ _ (U false k ltac:(lia))) as [J0 H0]. destruct (Hsl _ _ (U true (ns - 1 - k) ltac:(lia))) as [J1 H1].
      apply (runs_below dev nm lay liv own m0 _ _
        (up (up S0 N_c (Rl (o k))) N_c (Rl (fun i => o k i + sl false k i * sl true (ns - 1 - k)%nat i * eWI i)%R))).
      + apply (run_addEqMulVVV dev sched Hfair nm nm_eqd lay liv own m0 Hap _ N_c (N_q false k) (N_q true (ns - 1 - k)) N_expWInv (nR dims)); auto.
        * exact (ow N_c I I).
        * exact (ok_ (N_q false k) J0 I).
        * exact (ok_ (N_q true (ns - 1 - k)) J1 I).
        * exact (ok_ N_expWInv HB I).
        * apply upd_same.
        * now look.
        * now look.
        * now look.
      + intros a h La. unfold upd_. destruct (nm_eqd a N_c) as [->|]; intros E; [|exists h; auto].
        injection E as <-. eexists. split; [reflexivity|]. intros i _. cbn beta. f_equal. unfold o.
        replace (S k - 1) with (S (k - 1)) by lia. cbn [rsum]. replace (S (k - 1)) with k by lia. reflexivity.
    - apply up_below; auto; try exact I. }
  set (f4 := o (1 + (ns - 1 - 1))).
  apply (runs_below dev nm lay liv own m0 _ _ (up (up S0 N_c (Rl f4)) N_c (Rl (fun i => f4 i * prefactor)%R))).
  { apply (run_mulEqS dev sched Hfair nm nm_eqd lay liv own m0 Hap _ N_c (nR dims)); auto; [exact (ow N_c I I)|apply upd_same]. }
  intros a h La. unfold upd_. destruct (nm_eqd a N_c) as [->|]; intros E; [|exists h; auto].
  injection E as <-. eexists. split; [reflexivity|]. intros i _. cbn beta. unfold f4, o, cBead.
  replace (1 + (ns - 1 - 1) - 1) with (ns - 2) by lia. reflexivity.
Qed.

End Conc.
End Model.
(** ** Setup *)

Lemma up2_below : forall S a b u v u' v',
  (forall i, Rl u = Some (fun j => RtoC (u j)) -> u i = u' i) -> (forall i, v i = v' i) ->
  below (up (up S a (Rl u')) b (Rl v')) (up (up S a (Rl u)) b (Rl v)).
Proof.
  intros S a b u v u' v' Hu Hv c f Lc. unfold upd_. destruct (nm_eqd c b); [|destruct (nm_eqd c a)]; intros E.
  - injection E as <-. eexists. split; [reflexivity|]. intros i _. cbn beta. now rewrite Hv.
  - injection E as <-. eexists. split; [reflexivity|]. intros i _. cbn beta. now rewrite Hu.
  - exists f. auto.
Qed.

Lemma run_expKsq : forall S k kSq kuhn ds, ok nm lay liv Re (nK dims) k -> k <> N_expKsq -> S k = Rl kSq ->
  runs S (computeExpKsqG dev sched B model kuhn ds (lay k))
    (up (up S N_expKsq (Rl (expKsq kSq model kuhn ds))) N_expKsq2 (Rl (expKsq2 kSq model kuhn ds))).
Proof.
  intros S k kSq kuhn ds Hk Hne HS. unfold computeExpKsqG. cbv zeta.
  set (f := match model with Thread => (-1 * kuhn * kuhn / 6 * ds)%R | Bead => (-1 * kuhn * kuhn / 6)%R end).
  assert (Ef : bSqFactor model kuhn ds = f) by (unfold bSqFactor, f; destruct model; reflexivity).
  apply (runs_below dev nm lay liv own m0 _ _
    (up (up S N_expKsq (Rl (fun i => exp (kSq i * f)%R))) N_expKsq2 (Rl (fun i => exp (kSq i * (f / 2))%R)))).
  - apply (runs_bind dev nm lay liv own m0 _ _ (up S N_expKsq (Rl (fun i => exp (kSq i * f)%R)))).
    + apply (run_expVc dev sched Hfair nm nm_eqd lay liv own m0 Hap S N_expKsq k (nK dims)); auto. exact (ow N_expKsq I I).
    + apply (run_expVc dev sched Hfair nm nm_eqd lay liv own m0 Hap _ N_expKsq2 k (nK dims)); auto.
      * exact (ow N_expKsq2 I I).
      * now look.
  - apply up2_below; intros i; unfold expKsq, expKsq2; rewrite Ef; intros; f_equal; field.
Qed.

Lemma run_fields_thread : forall S k w ds, isThread -> ok nm lay liv Re (nR dims) k -> k <> N_expW -> S k = Rl w ->
  runs S (setupFieldG dev sched B Thread ds (lay k))
    (up (up S N_expW (Rl (expW Thread ds w))) N_expW2 (Rl (expW2 ds w))).
Proof.
  intros S k w ds HT Hk Hne HS. unfold setupFieldG.
  apply (runs_below dev nm lay liv own m0 _ _
    (up (up S N_expW (Rl (fun i => exp (w i * (-(1/2) * ds))%R))) N_expW2 (Rl (fun i => exp (w i * (-(1/4) * ds))%R)))).
  - apply (runs_bind dev nm lay liv own m0 _ _ (up S N_expW (Rl (fun i => exp (w i * (-(1/2) * ds))%R)))).
    + apply (run_expVc dev sched Hfair nm nm_eqd lay liv own m0 Hap S N_expW k (nR dims)); auto. exact (ow N_expW I I).
    + apply (run_expVc dev sched Hfair nm nm_eqd lay liv own m0 Hap _ N_expW2 k (nR dims)); auto.
      * exact (ow N_expW2 HT I).
      * now look.
  - apply up2_below; intros i; unfold expW, expW2; intros; f_equal; field.
Qed.

Lemma run_fields_bead : forall S k w ds, isBead -> ok nm lay liv Re (nR dims) k -> k <> N_expW -> S k = Rl w ->
  runs S (setupFieldG dev sched B Bead ds (lay k))
    (up (up S N_expW (Rl (expW Bead 1 w))) N_expWInv (Rl (expWInv w))).
Proof.
  intros S k w ds HB Hk Hne HS. unfold setupFieldG.
  apply (runs_below dev nm lay liv own m0 _ _
    (up (up S N_expW (Rl (fun i => exp (w i * (-1))%R))) N_expWInv (Rl (fun i => (1 / exp (w i * (-1)))%R)))).
  - apply (runs_bind dev nm lay liv own m0 _ _ (up S N_expW (Rl (fun i => exp (w i * (-1))%R)))).
    + apply (run_expVc dev sched Hfair nm nm_eqd lay liv own m0 Hap S N_expW k (nR dims)); auto. exact (ow N_expW I I).
    + apply (run_divSV dev sched Hfair nm nm_eqd lay liv own m0 Hap _ N_expWInv N_expW (nR dims)
        (fun i => exp (w i * (-1))%R)); auto.
      * exact (ow N_expWInv HB I).
      * exact (ok_ N_expW I I).
      * now look.
      * intros i _. apply Rgt_not_eq, exp_pos.
  - apply up2_below; intros i; unfold expW, expWInv; intros; replace (w i * -1)%R with (- w i)%R by ring; reflexivity.
Qed.

(** ** Stress *)

Section Stress.
Variables (S0 : contents) (sl : bool -> nat -> field) (nP : nat) (dn : nat -> nm) (dk : nat -> nat -> R)
  (e e2 : nat -> R).
Hypothesis He : S0 N_expKsq = Rl e.
Hypothesis He2 : S0 N_expKsq2 = Rl e2.
Hypothesis Hdn : forall n, n < nP -> ok nm lay liv Re (nK dims) (dn n) /\ S0 (dn n) = Rl (dk n) /\
  match dn n with N_in _ => True | _ => False end.
Variable hi : nat.
Hypothesis Hhi : hi <= ns /\ (batched = true -> hi = ns).
Hypothesis Hq : forall p j, j < hi -> S0 (N_q p j) = Rl (sl p j).
Hypothesis Hns : 3 <= ns.
Hypothesis Hall : batched = true -> forall p,
  (da_ty (qAll B p) = Re /\ da_cap (qAll B p) = Z.of_nat (ns * nR dims)) /\
  (da_ty (kBatched B p) = Co /\ da_cap (kBatched B p) = Z.of_nat (ns * nK dims)).

(** What is known between increments *)
Definition Sk : contents := fun a =>
  match a with
  | N_rTmp | N_k _ => None
  | N_kS p j => Cx (fftForward dims (sl p j))
  | _ => S0 a
  end.
Definition S1 : contents := fun a => match a with N_rTmp | N_k _ | N_kS _ _ => None | _ => S0 a end.

Lemma parts_q : batched = true -> forall p, parts nm lay liv Re ns (nR dims) (qAll B p) (N_q p).
Proof.
  intros Hb p. destruct (Hall Hb p) as [[T C] _]. split; [exact T|]. split; [exact C|]. intros b Hb'.
  split; [exact (ok_ (N_q p b) Hb' I)|]. cbn [lay]. unfold qField, sub. cbn [da_addr]. rewrite T. reflexivity.
Qed.
Lemma parts_kS : batched = true -> forall p, parts nm lay liv Co ns (nK dims) (kBatched B p) (N_kS p).
Proof.
  intros Hb p. destruct (Hall Hb p) as [_ [T C]]. split; [exact T|]. split; [exact C|]. intros b Hb'.
  split; [exact (ok_ (N_kS p b) (conj Hb Hb') I)|]. cbn [lay]. unfold kSlice, sub. cbn [da_addr]. rewrite T. reflexivity.
Qed.

Lemma run_all : runs S0 (transformAllG dev sched dims B batched ns) (if batched then Sk else S1).
Proof.
  unfold transformAllG. destruct (Bool.bool_dec batched true) as [Eb|Eb]; [|apply Bool.not_true_is_false in Eb].
  all: rewrite Eb.
  - set (Sm := fun a => match a with N_kS false j => Cx (fftForward dims (sl false j)) | N_kS true _ => None | _ => Sk a end).
    apply (runs_bind dev nm lay liv own m0 _ _ Sm).
    + pose proof (parts_q Eb false) as P1. pose proof (parts_kS Eb false) as P2. cbn [qAll kBatched] in P1, P2.
      apply (run_forward dev sched dims Hfair nm lay liv own m0 Hap Hnx Hnk S0 Sm ns _ _ _ _ (sl false) ltac:(lia) P1 P2).
      * intros; exact I.
      * intros b Hb. apply Hq. now rewrite (proj2 Hhi Eb).
      * intros a f La. destruct a as [| | | | | | | | | | | |p'|p' j|p' j|]; try (intros E; right; split; [intros; discriminate|exact E]); try discriminate.
        destruct p'; [discriminate|]. intros [= <-]. left. exists j. split; [apply La|auto].
    + pose proof (parts_q Eb true) as P1. pose proof (parts_kS Eb true) as P2. cbn [qAll kBatched] in P1, P2.
      apply (run_forward dev sched dims Hfair nm lay liv own m0 Hap Hnx Hnk Sm Sk ns _ _ _ _ (sl true) ltac:(lia) P1 P2).
      * intros; exact I.
      * intros b Hb. apply Hq. now rewrite (proj2 Hhi Eb).
      * intros a f La. destruct a as [| | | | | | | | | | | |p'|p' j|p' j|]; try (intros E; right; split; [intros; discriminate|exact E]); try discriminate.
        destruct p'.
        -- intros [= <-]. left. exists j. split; [apply La|auto].
        -- intros E. right. split; [intros; discriminate|exact E].
  - apply (runs_below dev nm lay liv own m0 _ _ S0); [apply runs_ok|]. intros a f La. destruct a; try discriminate; intros E; exists f; auto.
Qed.

(** Computations on memory and dQ *)
Definition runsX (S : contents) (x : nat -> R) (c : gstate * (nat -> R) -> outcome (gstate * (nat -> R)))
  (S' : contents) (x' : nat -> R) : Prop :=
  forall g y, at_ S g -> (forall n, n < nP -> y n = x n) ->
    exists g' y', c (g, y) = Ok (g', y') /\ at_ S' g' /\ forall n, n < nP -> y' n = x' n.

Lemma runsX_bind : forall S x c S1 x1 k S2 x2, runsX S x c S1 x1 -> runsX S1 x1 k S2 x2 ->
  runsX S x (fun u => u' <- c u ;; k u') S2 x2.
Proof.
  intros S x c S1' x1 k S2 x2 H1 H2 g y Hg Hy. destruct (H1 g y Hg Hy) as (g1 & y1 & E1 & Hg1 & Hy1).
  destruct (H2 g1 y1 Hg1 Hy1) as (g2 & y2 & E2 & Hg2 & Hy2). exists g2, y2. rewrite E1. cbn [bind]. auto.
Qed.
Lemma runsX_for : forall (T : nat -> contents) (X : nat -> nat -> R) f n from,
  (forall k, from <= k < from + n -> runsX (T k) (X k) (f k) (T (Datatypes.S k)) (X (Datatypes.S k))) ->
  runsX (T from) (X from) (forG n from f) (T (from + n)) (X (from + n)).
Proof.
  intros T X f n. induction n as [|n IH]; intros from H.
  - rewrite Nat.add_0_r. intros g y Hg Hy. exists g, y. auto.
  - cbn [forG]. apply (runsX_bind _ _ _ (T (Datatypes.S from)) (X (Datatypes.S from))); [apply H; lia|].
    replace (from + Datatypes.S n) with (Datatypes.S from + n) by lia. apply IH. intros k Hk. apply H. lia.
Qed.
Lemma runsX_val : forall S x c S' x1 x2, runsX S x c S' x1 -> (forall n, n < nP -> x1 n = x2 n) -> runsX S x c S' x2.
Proof.
  intros S x c S' x1 x2 H E g y Hg Hy. destruct (H g y Hg Hy) as (g' & y' & E1 & Hg' & Hy').
  exists g', y'. split; [exact E1|]. split; [exact Hg'|]. intros n Hn. rewrite Hy' by exact Hn. now apply E.
Qed.

Definition wsum (X Y : nat -> R * R) (d : nat -> R) : R :=
  rsum (nK dims) (fun m => (fst (X m) * fst (Y m) + snd (X m) * snd (Y m)) * d m)%R.
Definition extra (o : option bool) : nat -> R :=
  match o with None => fun _ => 1%R | Some half => if half then e2 else e end.
Definition extraD (o : option bool) : option darr :=
  match o with None => None | Some half => Some (if half then a_expKsq2 B else a_expKsq B) end.

Definition Sr (S : contents) : contents := fun a => match a with N_rTmp => None | _ => S a end.

Lemma run_increment : forall S o c a0 a1 X Y x,
  ok nm lay liv Co (nK dims) a0 -> ok nm lay liv Co (nK dims) a1 -> S a0 = Cx X -> S a1 = Cx Y ->
  match a0 with N_k _ | N_kS _ _ => True | _ => False end ->
  match a1 with N_k _ | N_kS _ _ => True | _ => False end ->
  S N_expKsq = Rl e -> S N_expKsq2 = Rl e2 -> (forall n, n < nP -> S (dn n) = Rl (dk n)) ->
  runsX (Sr S) x (incrementG dev sched B (fun n => lay (dn n)) nP (extraD o) c (lay a0) (lay a1))
    (Sr S) (fun n => x n - wsum X Y (fun m => dk n m * extra o m) * c)%R.
Proof.
  intros S o c a0 a1 X Y x K0 K1 H0 H1 Q0 Q1 HE HE2 HD.
  set (ink := fun (k n : nat) => if n <? k then (x n - wsum X Y (fun m => dk n m * extra o m) * c)%R else x n).
  apply (runsX_val _ _ _ _ (ink nP)); [|intros n Hn; unfold ink; now rewrite (proj2 (Nat.ltb_lt n nP) Hn)].
  assert (E0 : forall n, n < nP -> ink 0 n = x n) by (intros n _; reflexivity).
  unfold incrementG.
  pose proof (runsX_for (fun _ => Sr S) ink (fun n y =>
    g <- miscG dev sched realMulVConjVV [a_rTmp B; lay a0; lay a1; lay (dn n)] [] (fst y) ;;
    g <- match extraD o with Some d => vecG dev sched (mulEqV ERR) [a_rTmp B; d] [] g | None => Ok g end ;;
    s <- sumG (a_rTmp B) g ;;
    Ok (g, fun k => if k =? n then (snd y n - s * c)%R else snd y k)) nP 0) as L. cbn [Nat.add] in L.
  intros g y Hg Hy. apply L; [|exact Hg|intros n Hn; rewrite Hy by exact Hn; reflexivity]. clear L g y Hg Hy.
  intros k Hk g y Hg Hy. cbn [fst snd]. destruct (Hdn k ltac:(lia)) as (Ok_ & _ & In_).
  set (F := fun m => ((fst (X m) * fst (Y m) + snd (X m) * snd (Y m)) * dk k m)%R).
  assert (NR : forall b, Sr S b = if nm_eqd b N_rTmp then None else S b).
  { intros b. destruct (nm_eqd b N_rTmp) as [->|Hb]; [reflexivity|]. destruct b; auto. now elim Hb. }
  assert (R1 : runs (Sr S) (miscG dev sched realMulVConjVV [a_rTmp B; lay a0; lay a1; lay (dn k)] []) (up (Sr S) N_rTmp (Rl F))).
  { apply (run_realMulVConjVV dev sched Hfair nm nm_eqd lay liv own m0 Hap (Sr S) N_rTmp a0 a1 (dn k) (nK dims) X Y (dk k)); auto.
    - exact (ow N_rTmp I I).
    - rewrite NR. destruct (nm_eqd a0 N_rTmp) as [->|]; [destruct Q0|exact H0].
    - rewrite NR. destruct (nm_eqd a1 N_rTmp) as [->|]; [destruct Q1|exact H1].
    - rewrite NR. destruct (nm_eqd (dn k) N_rTmp) as [E|]; [rewrite E in In_; destruct In_|]. apply HD. lia. }
  destruct (R1 g Hg) as (g1 & E1 & Hg1). rewrite E1. cbn [bind].
  assert (R2 : runs (up (Sr S) N_rTmp (Rl F))
     (fun g => match extraD o with Some d => vecG dev sched (mulEqV ERR) [a_rTmp B; d] [] g | None => Ok g end)
     (up (Sr S) N_rTmp (Rl (fun m => F m * extra o m)%R))).
  { destruct o as [half|]; cbn [extraD extra].
    - apply (runs_below dev nm lay liv own m0 _ _ (up (up (Sr S) N_rTmp (Rl F)) N_rTmp (Rl (fun m => F m * (if half then e2 else e) m)%R)));
        [|apply up_up_below].
      destruct half.
      + apply (run_mulEqV dev sched Hfair nm nm_eqd lay liv own m0 Hap _ N_rTmp N_expKsq2 (nK dims)); auto.
        * exact (ow N_rTmp I I).
        * exact (ok_ N_expKsq2 I I).
        * apply upd_same.
        * look. exact HE2.
      + apply (run_mulEqV dev sched Hfair nm nm_eqd lay liv own m0 Hap _ N_rTmp N_expKsq (nK dims)); auto.
        * exact (ow N_rTmp I I).
        * exact (ok_ N_expKsq I I).
        * apply upd_same.
        * look. exact HE.
    - apply (runs_below dev nm lay liv own m0 _ _ (up (Sr S) N_rTmp (Rl F))); [apply runs_ok|].
      intros a f La. unfold upd_. destruct (nm_eqd a N_rTmp) as [->|]; intros E; [|exists f; auto].
      injection E as <-. eexists. split; [reflexivity|]. intros i _. cbn beta. f_equal. ring. }
  destruct (R2 g1 Hg1) as (g2 & E2 & Hg2). rewrite E2. cbn [bind].
  pose proof (run_sum dev dims nm lay liv own m0 Hnx Hnk _ g2 N_rTmp (nK dims) (fun m => (F m * extra o m)%R) Hg2 (ok_ N_rTmp I I)
    (upd_same _ _ _ _ _)) as E3. cbn [lay] in E3. rewrite E3. cbn [bind].
  eexists. eexists. split; [reflexivity|]. split.
  - apply (at_below dev nm lay liv own m0 _ _ _ Hg2). intros a f La E. exists f. split; [|auto]. unfold upd_.
    destruct (nm_eqd a N_rTmp) as [->|]; [discriminate E|exact E].
  - intros n Hn. cbn beta. specialize (Hy n Hn). unfold ink in *.
    destruct (Nat.eqb_spec n k) as [->|Hnk']; [|rewrite Hy].
    + rewrite Hy. rewrite (proj2 (Nat.ltb_ge k k)), (proj2 (Nat.ltb_lt k (Datatypes.S k))) by lia.
      do 2 f_equal. unfold wsum, F. apply rsum_ext. intros m _. ring.
    + destruct (Nat.ltb_spec n k), (Nat.ltb_spec n (Datatypes.S k)); try lia; reflexivity.
Qed.

Definition Sb : contents := if batched then Sk else S1.

Lemma run_slice : forall o c i j x, i < hi -> j < hi ->
  runsX Sb x (sliceG dev sched dims B (fun n => lay (dn n)) nP batched (extraD o) c i j)
    Sb (fun n => x n - wsum (fftForward dims (sl false i)) (fftForward dims (sl true j)) (fun m => dk n m * extra o m) * c)%R.
Proof.
  intros o c i j x Hi Hj g y Hg Hy. unfold sliceG. cbn [fst snd].
  assert (Hi' : i < ns) by lia. assert (Hj' : j < ns) by lia.
  assert (SD : forall n, n < nP -> Sk (dn n) = Rl (dk n) /\ S1 (dn n) = Rl (dk n)).
  { intros n Hn. destruct (Hdn n Hn) as (_ & E & T). destruct (dn n); try destruct T. auto. }
  unfold Sb, transformG in *. destruct (Bool.bool_dec batched true) as [Eb|Eb]; [|apply Bool.not_true_is_false in Eb].
  all: rewrite Eb in Hg |- *.
  - cbn [bind fst snd].
    destruct (run_increment Sk o c (N_kS false i) (N_kS true j) (fftForward dims (sl false i)) (fftForward dims (sl true j)) x)
      with (g := g) (y := y) as (g' & y' & E & Hg' & Hy'); auto.
    + exact (ok_ (N_kS false i) (conj Eb Hi') I).
    + exact (ok_ (N_kS true j) (conj Eb Hj') I).
    + intros n Hn. now apply SD.
    + apply (at_below dev nm lay liv own m0 Sk); [exact Hg|]. intros a f La E. exists f. split; [|auto]. destruct a; exact E || discriminate E.
    + exists g', y'. split; [exact E|]. split; [|exact Hy'].
      apply (at_below dev nm lay liv own m0 _ _ _ Hg'). intros a f La E'. exists f. split; [|auto]. destruct a; exact E' || discriminate E'.
  - assert (R1 : runs S1 (forwardG dev sched dims 1 (qField dims B false i) (a_q0k B)) (up S1 (N_k false) (Cx (fftForward dims (sl false i))))).
    { apply (fwd1 S1 (N_q false i) (N_k false)); auto; try exact I. exact (Hq false i Hi). }
    destruct (R1 g Hg) as (g1 & E1 & Hg1). rewrite E1. cbn [bind].
    set (S2 := up (up S1 (N_k false) (Cx (fftForward dims (sl false i)))) (N_k true) (Cx (fftForward dims (sl true j)))).
    assert (R2 : runs (up S1 (N_k false) (Cx (fftForward dims (sl false i))))
       (forwardG dev sched dims 1 (qField dims B true j) (a_q1k B)) S2).
    { apply (fwd1 _ (N_q true j) (N_k true)); auto; try exact I. look. exact (Hq true j Hj). }
    destruct (R2 g1 Hg1) as (g2 & E2 & Hg2). rewrite E2. cbn [bind fst snd].
    destruct (run_increment S2 o c (N_k false) (N_k true) (fftForward dims (sl false i)) (fftForward dims (sl true j)) x)
      with (g := g2) (y := y) as (g' & y' & E & Hg' & Hy'); auto.
    + exact (ok_ (N_k false) Eb I).
    + exact (ok_ (N_k true) Eb I).
    + unfold S2. now look.
    + unfold S2. now look.
    + unfold S2. now look.
    + unfold S2. now look.
    + intros n Hn. destruct (Hdn n Hn) as (_ & E & T). unfold S2. destruct (dn n); try destruct T. look. exact E.
    + apply (at_below dev nm lay liv own m0 S2); [exact Hg2|]. intros a f La E. exists f. split; [|auto]. destruct a; exact E || discriminate E.
    + exists g', y'. split; [exact E|]. split; [|exact Hy'].
      apply (at_below dev nm lay liv own m0 _ _ _ Hg'). intros a f La E'. exists f. split; [|auto].
      destruct a; try discriminate E'; cbn [Sr]; unfold S2; look; exact E'.
Qed.

Lemma wsum_wave : forall i j d, wsum (fftForward dims (sl false i)) (fftForward dims (sl true j)) d
  = waveSum dims d (sl false i) (sl true j).
Proof. intros i j d. unfold wsum, waveSum. apply rsum_ext. intros m _. ring. Qed.

(** A whole pass over dQ *)
Lemma run_pass : forall body x (out : nat -> R), runsX Sb (fun _ => 0%R) body Sb x ->
  forall g fin, at_ S0 g -> (forall y n, n < nP -> y n = x n -> fin y n = out n) ->
  exists g' y', (g <- transformAllG dev sched dims B batched ns g ;; x <- body (g, fun _ => 0%R) ;;
                 Ok (fst x, fun n => fin (snd x) n)) = Ok (g', y') /\ at_ Sb g' /\ forall n, n < nP -> y' n = out n.
Proof.
  intros body x out Hb g fin Hg Hf. destruct (run_all g Hg) as (g1 & E1 & Hg1). rewrite E1. cbn [bind].
  destruct (Hb g1 (fun _ => 0%R) Hg1 (fun _ _ => eq_refl)) as (g2 & y2 & E2 & Hg2 & Hy2). rewrite E2. cbn [bind fst snd].
  eexists. eexists. split; [reflexivity|]. split; [exact Hg2|]. intros n Hn. apply Hf; auto.
Qed.

Lemma run_stressThread : forall kuhn ds prefactor l0 l1, hi = ns ->
  (forall j, j < ns -> qAt l0 j = sl false j /\ qAt l1 j = sl true j) ->
  forall g, at_ S0 g ->
  exists g' y', stressThreadG dev sched dims B (fun n => lay (dn n)) nP batched ns kuhn ds prefactor g = Ok (g', y') /\
    at_ Sb g' /\ forall n, n < nP -> y' n = blockStressThread dims (dk n) kuhn ds ns l0 l1 prefactor.
Proof.
  intros kuhn ds prefactor l0 l1 Eh Hl g Hg. unfold stressThreadG.
  set (c := fun j => (kuhn * kuhn * (if (negb (j =? 0) && negb (j =? ns - 1))%nat
                     then (if Nat.even j then ds * 2 else ds * 4) else ds) / (3 * 6))%R).
  set (t := fun n j => (waveSum dims (dk n) (sl false j) (sl true (ns - 1 - j)%nat) * c j)%R).
  apply (run_pass (fun y => forG ns 0 (fun j x => sliceG dev sched dims B (fun n => lay (dn n)) nP batched None (c j) j (ns - 1 - j) x) y)
    (fun n => (0 - rsum ns (t n))%R)) with (fin := fun y n => (0 - y n * prefactor)%R); [|exact Hg|].
  - pose proof (runsX_for (fun _ => Sb) (fun k n => (0 - rsum k (t n))%R)
      (fun j x => sliceG dev sched dims B (fun n => lay (dn n)) nP batched None (c j) j (ns - 1 - j) x) ns 0) as L.
    cbn [Nat.add] in L. intros g1 y1 Hg1 Hy1. apply L; [|exact Hg1|].
    + intros k Hk. eapply runsX_val; [apply (run_slice None (c k) k (ns - 1 - k)); lia|].
      intros n Hn. cbn beta. rewrite wsum_wave. cbn [rsum]. set (A := rsum k (t n)). unfold t, extra.
      replace (waveSum dims (fun m => dk n m * 1)%R (sl false k) (sl true (ns - 1 - k)))
        with (waveSum dims (dk n) (sl false k) (sl true (ns - 1 - k))) by (unfold waveSum; apply rsum_ext; intros; ring). ring.
    + intros n Hn. rewrite Hy1 by exact Hn. cbn [rsum]. ring.
  - intros y n Hn ->. unfold blockStressThread.
    rewrite (rsum_ext ns (t n) (fun j => waveSum dims (dk n) (qAt l0 j) (qAt l1 (ns - 1 - j)%nat) *
      (kuhn * kuhn / 6 * (if (negb (j =? 0) && negb (j =? ns - 1))%nat
        then (if Nat.even j then ds / 3 * 2 else ds / 3 * 4) else ds / 3)))%R).
    + set (A := rsum _ _). ring.
    + intros j Hj. unfold t, c. rewrite (proj1 (Hl j Hj)), (proj2 (Hl (ns - 1 - j)%nat ltac:(lia))).
      destruct (negb (j =? 0) && negb (j =? ns - 1))%nat; [destruct (Nat.even j)|]; field.
Qed.

Lemma run_stressBead : forall kuhn kSq he te prefactor l0 l1, ns - 1 <= hi ->
  (forall j, j < ns - 1 -> qAt l0 j = sl false j /\ qAt l1 j = sl true j) ->
  (forall m, m < nK dims -> e m = expKsq kSq Bead kuhn 1 m /\ e2 m = expKsq2 kSq Bead kuhn 1 m) ->
  forall g, at_ S0 g ->
  exists g' y', stressBeadG dev sched dims B (fun n => lay (dn n)) nP batched ns he te kuhn prefactor g = Ok (g', y') /\
    at_ Sb g' /\ forall n, n < nP -> y' n = blockStressBead dims kSq (dk n) kuhn ns he te l0 l1 prefactor.
Proof.
  intros kuhn kSq he te prefactor l0 l1 Eh Hl Hee g Hg. unfold stressBeadG.
  set (bSq := (kuhn * kuhn / 6)%R).
  set (full := fun n m => (dk n m * e m)%R). set (half := fun n m => (dk n m * e2 m)%R).
  set (x1 := fun n => if he then 0%R else (0 - waveSum dims (half n) (sl false 0) (sl true (ns - 2)%nat) * (1/2 * bSq))%R).
  set (x2 := fun n => (x1 n - rsum (ns - 3) (fun k => waveSum dims (full n) (sl false (S k)) (sl true (ns - 2 - S k)%nat) * bSq))%R).
  set (x3 := fun n => if te then x2 n else (x2 n - waveSum dims (half n) (sl false (ns - 2)%nat) (sl true 0%nat) * (1/2 * bSq))%R).
  pose proof (run_pass (fun x =>
    x <- (if he then Ok x else sliceG dev sched dims B (fun n => lay (dn n)) nP batched (Some (a_expKsq2 B)) (1/2 * bSq)%R 0 (ns - 2) x) ;;
    x <- forG (ns - 2 - 1) 1 (fun j x => sliceG dev sched dims B (fun n => lay (dn n)) nP batched (Some (a_expKsq B)) bSq j (ns - 2 - j) x) x ;;
    (if te then Ok x else sliceG dev sched dims B (fun n => lay (dn n)) nP batched (Some (a_expKsq2 B)) (1/2 * bSq)%R (ns - 2) 0 x)) x3) as L.
  assert (Hlow : forall n, n < nP -> blockStressBead dims kSq (dk n) kuhn ns he te l0 l1 prefactor = (-1 * prefactor * x3 n)%R).
  { intros n Hn. unfold blockStressBead. cbv zeta. fold bSq.
    rewrite (proj1 (Hl 0 ltac:(lia))), (proj2 (Hl (ns - 2) ltac:(lia))), (proj1 (Hl (ns - 2) ltac:(lia))), (proj2 (Hl 0 ltac:(lia))).
    assert (W : forall d d' u v, (forall m, m < nK dims -> d m = d' m) -> waveSum dims d u v = waveSum dims d' u v).
    { intros d d' u v Hd. unfold waveSum. apply rsum_ext. intros m Hm. now rewrite Hd. }
    rewrite (W (fun m => dk n m * expKsq2 kSq Bead kuhn 1 m)%R (half n) (sl false 0%nat)),
            (W (fun m => dk n m * expKsq2 kSq Bead kuhn 1 m)%R (half n) (sl false (ns - 2)%nat))
      by (intros m Hm; unfold half; now rewrite (proj2 (Hee m Hm))).
    unfold x3, x2, x1. f_equal.
    match goal with |- context [rsum (ns - 3) ?F] => rewrite (rsum_ext (ns - 3) F
      (fun k => (waveSum dims (full n) (sl false (S k)) (sl true (ns - 2 - S k)%nat) * bSq)%R)) end.
    - destruct he, te; reflexivity.
    - intros k Hk. rewrite (proj1 (Hl (S k) ltac:(lia))), (proj2 (Hl (ns - 2 - S k) ltac:(lia))). f_equal.
      apply W. intros m Hm. unfold full. now rewrite (proj1 (Hee m Hm)). }
  specialize (L (fun n => blockStressBead dims kSq (dk n) kuhn ns he te l0 l1 prefactor)).
  assert (HB : runsX Sb (fun _ => 0%R) (fun x =>
    x <- (if he then Ok x else sliceG dev sched dims B (fun n => lay (dn n)) nP batched (Some (a_expKsq2 B)) (1/2 * bSq)%R 0 (ns - 2) x) ;;
    x <- forG (ns - 2 - 1) 1 (fun j x => sliceG dev sched dims B (fun n => lay (dn n)) nP batched (Some (a_expKsq B)) bSq j (ns - 2 - j) x) x ;;
    (if te then Ok x else sliceG dev sched dims B (fun n => lay (dn n)) nP batched (Some (a_expKsq2 B)) (1/2 * bSq)%R (ns - 2) 0 x)) Sb x3).
  { apply (runsX_bind _ _ _ Sb x1); [|apply (runsX_bind _ _ _ Sb x2)].
    - unfold x1. destruct he; [intros g1 y1 Hg1 Hy1; exists g1, y1; auto|].
      eapply runsX_val; [apply (run_slice (Some true) (1/2 * bSq)%R 0 (ns - 2)); lia|].
      intros n Hn. cbn beta. now rewrite wsum_wave.
    - pose proof (runsX_for (fun _ => Sb)
        (fun k n => (x1 n - rsum (k - 1) (fun k => waveSum dims (full n) (sl false (S k)) (sl true (ns - 2 - S k)%nat) * bSq))%R)
        (fun j x => sliceG dev sched dims B (fun n => lay (dn n)) nP batched (Some (a_expKsq B)) bSq j (ns - 2 - j) x) (ns - 2 - 1) 1) as L1.
      intros g1 y1 Hg1 Hy1.
      destruct (fun H => L1 H g1 y1 Hg1) as (g2 & y2 & E2 & Hg2 & Hy2).
      + intros k Hk. eapply runsX_val; [apply (run_slice (Some false) bSq k (ns - 2 - k)); lia|].
        intros n Hn. cbn beta. rewrite wsum_wave. cbn [extra].
        replace (S k - 1)%nat with (S (k - 1)) by lia. cbn [rsum]. replace (S (k - 1)) with k by lia. fold (full n). ring.
      + intros n Hn. rewrite Hy1 by exact Hn. replace (1 - 1)%nat with 0%nat by lia. cbn [rsum]. ring.
      + exists g2, y2. split; [exact E2|]. split; [exact Hg2|]. intros n Hn. rewrite Hy2 by exact Hn. unfold x2.
        replace (1 + (ns - 2 - 1) - 1)%nat with (ns - 3)%nat by lia. reflexivity.
    - unfold x3. destruct te; [intros g1 y1 Hg1 Hy1; exists g1, y1; auto|].
      eapply runsX_val; [apply (run_slice (Some true) (1/2 * bSq)%R (ns - 2) 0); lia|].
      intros n Hn. cbn beta. now rewrite wsum_wave. }
  destruct (L HB g (fun y n => (-1 * prefactor * y n)%R) Hg) as (g' & y' & E & Hg' & Hy').
  - intros y n Hn ->. symmetry. now apply Hlow.
  - exists g', y'. split; [|auto]. rewrite <- E. clear.
    destruct (transformAllG _ _ _ _ _ _ _); cbn [bind]; auto.
    match goal with |- bind ?a _ = bind (bind ?a _) _ => destruct a; cbn [bind]; auto end.
    match goal with |- bind ?a _ = bind (bind ?a _) _ => destruct a; cbn [bind]; auto end.
Qed.

End Stress.
End Block.
