(** Device memory seen as named arrays with contents, and the effect on the
    contents of the calls of GpuBlock.v. *)
From Coq Require Import Reals ZArith Lia Lra Bool Arith.
From Coquelicot Require Import Complex.
From Coq Require Import List.
From Verif Require Import Base RSum GpuThreads GpuGrid GpuKernel GpuWaveHost VecOp VecOpSpec VecOpKernel VecOpCall Fft R1d Rpc GpuBlock.
Import ListNotations.
Local Open Scope nat_scope.

Definition words (d : darr) (y : Z) : Prop :=
  (da_addr d <= y < da_addr d + Z.of_nat (width (da_ty d)) * da_cap d)%Z.

Section Rep.
Variables (dev : device) (sched : nat -> vop -> nat -> nat -> list nat) (dims : list Z).
Hypothesis Hfair : forall t o, fair o (sched t o).
Variables (name : Type) (eqd : forall a b : name, {a = b} + {a <> b}).
Variables (L : name -> darr) (live owned : name -> Prop) (m0 : memory).
Hypothesis apart : forall a b, live a -> owned a -> live b -> a <> b ->
  forall y, words (L a) y -> ~ words (L b) y.

Definition contents := name -> option (nat -> C).

(** Memory [m0] is the one before; only words of owned arrays differ from it. *)
Record at_ (S : contents) (g : gstate) : Prop := At {
  at_thr : ready dev (g_thr g);
  at_alloc : forall a, live a -> allocated (g_mem g) (L a);
  at_elem : forall a f i, live a -> S a = Some f -> (Z.of_nat i < da_cap (L a))%Z ->
    elem (g_mem g) (L a) (Z.of_nat i) (f i);
  at_frame : forall y, (forall a, live a -> owned a -> ~ words (L a) y) -> g_mem g y = m0 y }.

Definition runs (S : contents) (c : gstate -> outcome gstate) (S' : contents) : Prop :=
  forall g, at_ S g -> exists g', c g = Ok g' /\ at_ S' g'.

Definition upd_ (S : contents) (a : name) (f : option (nat -> C)) : contents :=
  fun b => if eqd b a then f else S b.

(** S' says no more than S *)
Definition below (S' S : contents) : Prop :=
  forall a f, live a -> S' a = Some f -> exists f0, S a = Some f0 /\
    forall i, (Z.of_nat i < da_cap (L a))%Z -> f0 i = f i.

Lemma below_refl : forall S, below S S.
Proof. intros S a f _ H. exists f. auto. Qed.
Lemma at_below : forall S S' g, at_ S g -> below S' S -> at_ S' g.
Proof.
  intros S S' g [H1 H2 H3 H4] Hb. constructor; auto.
  intros a f i Ha Hf Hi. destruct (Hb a f Ha Hf) as (f0 & E & Q). rewrite <- Q by exact Hi. now apply H3.
Qed.
Lemma runs_below : forall S c S1 S2, runs S c S1 -> below S2 S1 -> runs S c S2.
Proof.
  intros S c S1 S2 H Hb g Hg. destruct (H g Hg) as (g' & E & Hg'). exists g'. split; [exact E|].
  now apply (at_below S1).
Qed.
Lemma runs_pre : forall S0 S c S1, runs S c S1 -> below S S0 -> runs S0 c S1.
Proof. intros S0 S c S1 H Hb g Hg. apply H. now apply (at_below S0). Qed.
Lemma runs_bind : forall S c S1 k S2, runs S c S1 -> runs S1 k S2 ->
  runs S (fun g => g' <- c g ;; k g') S2.
Proof.
  intros S c S1 k S2 H1 H2 g Hg. destruct (H1 g Hg) as (g1 & E1 & Hg1).
  destruct (H2 g1 Hg1) as (g2 & E2 & Hg2). exists g2. rewrite E1. cbn [bind]. now split.
Qed.
Lemma runs_ok : forall S, runs S (fun g => Ok g) S.
Proof. intros S g Hg. now exists g. Qed.
Lemma runs_check : forall S b c S', b = true -> runs S c S' -> runs S (fun g => check b ;; c g) S'.
Proof. intros S b c S' -> H g Hg. cbn [check bind]. apply H, Hg. Qed.

(** ** Launches *)

Lemma in_slice_whole : forall d n y, da_cap d = n -> in_slice n (d, 0%Z) y <-> words d y.
Proof. intros d n y E. unfold in_slice, word_at, words. cbn [fst snd]. rewrite E. lia. Qed.

Lemma nth_whole : forall (as_ : list name) k p, nth_error (whole (map L as_)) k = Some p ->
  exists a, nth_error as_ k = Some a /\ p = (L a, 0%Z).
Proof.
  intros as_ k p. unfold whole. rewrite map_map, nth_error_map.
  destruct (nth_error as_ k) as [a|]; cbn; [|discriminate]. intros [= <-]. now exists a.
Qed.

Lemma whole_nth : forall (as_ : list name) k a, nth_error as_ k = Some a ->
  nth_error (whole (map L as_)) k = Some (L a, 0%Z).
Proof. intros as_ k a E. unfold whole. rewrite map_map, nth_error_map, E. reflexivity. Qed.

Lemma elem_word : forall m m' d j z, (forall y, words d y -> m y = m' y) -> (0 <= j < da_cap d)%Z ->
  elem m d j z -> elem m' d j z.
Proof.
  intros m m' d j z H Hj. unfold elem. unfold words in H. unfold word_at.
  destruct (da_ty d); cbn [width] in *; intros [H1 H2]; split; auto; rewrite <- H by lia; assumption.
Qed.

(** Names of the arguments; v k is the content of argument k *)
Lemma launch_runs : forall checked t o as_ sc n v S S' g,
  op_ok o -> at_ S g -> (0 < n)%Z ->
  map da_ty (map L as_) = types o ->
  (forall a, In a as_ -> live a /\ da_cap (L a) = n) ->
  (forall k a, k < nout o -> nth_error as_ k = Some a -> owned a) ->
  (forall k l a b, k < nout o -> k <> l -> nth_error as_ k = Some a -> nth_error as_ l = Some b ->
     a <> b \/ (nout o <= l /\ may_share o k l = true)) ->
  (real_scalar o = true -> forall z, In z sc -> snd z = 0%R) ->
  (forall k a, In k (operands o) -> nth_error as_ k = Some a -> S a = Some (v k)) ->
  (forall i z, (Z.of_nat i < n)%Z -> In z (divisors o (fun k => v k i) (scalars sc)) -> z <> RtoC 0) ->
  (forall b f, live b -> S' b = Some f ->
     (exists k, k < nout o /\ nth_error as_ k = Some b /\
        forall i, (Z.of_nat i < n)%Z -> formula o (fun j => v j i) (scalars sc) k = f i) \/
     ((forall k, k < nout o -> nth_error as_ k <> Some b) /\ exists f0, S b = Some f0 /\
        forall i, (Z.of_nat i < da_cap (L b))%Z -> f0 i = f i)) ->
  exists m' st', launch checked dev (sched t o) o (whole (map L as_)) sc n (g_thr g) (g_mem g) = Ok (m', st') /\
    at_ S' (Gst m' st' (Datatypes.S (g_clock g))).
Proof.
  intros checked t o as_ sc n v S S' g Ho [A1 A2 A3 A4] Hn Hty Hin Hown Hsh Hre Hval Hdiv Hpost.
  assert (Hc : call o (whole (map L as_)) sc n (g_mem g) (fun i k => v k i)).
  { constructor.
    - rewrite <- Hty. unfold whole. rewrite !map_map. reflexivity.
    - intros p Hp. unfold whole in Hp. apply in_map_iff in Hp. destruct Hp as (d & <- & Hd).
      apply in_map_iff in Hd. destruct Hd as (a & <- & Ha). cbn [fst]. apply A2, (Hin a Ha).
    - intros k l p q Hk Hkl Ep Eq. apply nth_whole in Ep, Eq. destruct Ep as (a & Ea & ->). destruct Eq as (b & Eb & ->).
      destruct (Hin a (nth_error_In _ _ Ea)) as [La Ca]. destruct (Hin b (nth_error_In _ _ Eb)) as [Lb Cb].
      destruct (eqd a b) as [<-|Hab].
      + destruct (Hsh k l a a Hk Hkl Ea Eb) as [H|[H1 H2]]; [now elim H|]. right. auto.
      + left. intros y. rewrite !in_slice_whole by assumption. now apply apart; eauto.
    - exact Hre.
    - intros i k p Hi Hk E. apply nth_whole in E. destruct E as (a & Ea & ->). cbn [fst snd].
      destruct (Hin a (nth_error_In _ _ Ea)) as [La Ca]. rewrite Z.add_0_l.
      apply (A3 a (v k) i); auto. now rewrite Ca.
    - intros i z. apply Hdiv. }
  assert (Hb : forall p, In p (whole (map L as_)) -> in_bounds n p).
  { intros p Hp. unfold whole in Hp. apply in_map_iff in Hp. destruct Hp as (d & <- & Hd).
    apply in_map_iff in Hd. destruct Hd as (a & <- & Ha). unfold in_bounds. cbn [fst snd].
    destruct (Hin a Ha) as [_ ->]. lia. }
  pose proof (launch_done o (whole (map L as_)) sc n (g_mem g) (fun i k => v k i)) as LD.
  specialize (LD Ho Hn Hc Hb checked dev (sched t o) (g_thr g) A1).
  destruct (launch checked dev (sched t o) o (whole (map L as_)) sc n (g_thr g) (g_mem g)) as [[m' st']| | |];
    [|now elim LD|now elim LD|now elim (LD (Hfair t o))].
  destruct LD as [R' [D1 D2]]. exists m', st'. split; [reflexivity|].
  assert (Fr : forall b, live b -> (forall k, k < nout o -> nth_error as_ k <> Some b) ->
            forall y, words (L b) y -> g_mem g y = m' y).
  { intros b Lb Hb' y Hy. symmetry. apply D2. intros k p Hk E. apply nth_whole in E. destruct E as (a & Ea & ->).
    destruct (Hin a (nth_error_In _ _ Ea)) as [La Ca]. rewrite in_slice_whole by exact Ca. intros Hy'.
    destruct (eqd a b) as [<-|Hab]; [now apply (Hb' k)|]. revert Hy. apply (apart a b); eauto. }
  constructor; cbn [g_thr g_mem]; auto.
  - intros b Lb y Hy E. specialize (A2 b Lb y Hy).
    (* every word of an output holds a value; others are as before *)
    assert (Hw : words (L b) y) by (unfold words, word_at in *; lia).
    assert (Dc : (exists k, k < nout o /\ nth_error as_ k = Some b) \/ (forall k, k < nout o -> nth_error as_ k <> Some b)).
    { clear -eqd. induction (nout o) as [|q IH]; [right; intros k Hk; lia|].
      destruct IH as [(k & H1 & H2)|IH]; [left; exists k; split; [lia|exact H2]|].
      destruct (nth_error as_ q) as [a|] eqn:Eq.
      - destruct (eqd a b) as [->|Hab]; [left; exists q; split; [lia|exact Eq]|].
        right. intros k Hk. destruct (Nat.eq_dec k q) as [->|]; [rewrite Eq; congruence|apply IH; lia].
      - right. intros k Hk. destruct (Nat.eq_dec k q) as [->|]; [rewrite Eq; congruence|apply IH; lia]. }
    destruct Dc as [(k & Hk & Ek)|Dc].
    + destruct (Hin b (nth_error_In _ _ Ek)) as [_ Cb].
      unfold words in Hw. rewrite Cb in Hw. set (w := width (da_ty (L b))) in *.
      assert (Hw0 : w = 1 \/ w = 2) by (unfold w; destruct (da_ty (L b)); cbn; auto).
      pose proof (Z.div_mod (y - da_addr (L b)) (Z.of_nat w) ltac:(lia)) as DM.
      pose proof (Z.mod_pos_bound (y - da_addr (L b)) (Z.of_nat w) ltac:(lia)) as MB.
      set (q := ((y - da_addr (L b)) / Z.of_nat w)%Z) in *. set (r := ((y - da_addr (L b)) mod Z.of_nat w)%Z) in *.
      assert (Hq : (0 <= q < n)%Z) by nia.
      specialize (D1 (Z.to_nat q) k (L b, 0%Z) ltac:(lia) Hk (whole_nth _ _ _ Ek)).
      cbn [fst snd] in D1. rewrite Z2Nat.id in D1 by lia. unfold elem, word_at in D1. fold w in D1.
      destruct (da_ty (L b)); cbn [width] in w; subst w.
      * destruct D1 as [D1 _]. replace (da_addr (L b) + Z.of_nat 1 * (0 + q) + Z.of_nat 0)%Z with y in D1 by lia. congruence.
      * destruct D1 as [D0 D1]. assert (Hr : r = 0%Z \/ r = 1%Z) by lia. destruct Hr as [Hr|Hr].
        -- replace (da_addr (L b) + Z.of_nat 2 * (0 + q) + Z.of_nat 0)%Z with y in D0 by lia. congruence.
        -- replace (da_addr (L b) + Z.of_nat 2 * (0 + q) + Z.of_nat 1)%Z with y in D1 by lia. congruence.
    + apply A2. rewrite (Fr b Lb Dc y Hw). exact E.
  - intros b f i Lb Hf Hi. destruct (Hpost b f Lb Hf) as [(k & Hk & Ek & Q)|(Hb' & f0 & E0 & Q)].
    + destruct (Hin b (nth_error_In _ _ Ek)) as [_ Cb]. rewrite <- Q by lia.
      specialize (D1 i k (L b, 0%Z) ltac:(lia) Hk (whole_nth _ _ _ Ek)).
      cbn [fst snd] in D1. now rewrite Z.add_0_l in D1.
    + rewrite <- Q by exact Hi. apply (elem_word (g_mem g)); [now apply Fr|lia|]. now apply A3.
  - intros y Hy. rewrite <- A4 by exact Hy. apply D2. intros k p Hk E. apply nth_whole in E.
    destruct E as (a & Ea & ->). destruct (Hin a (nth_error_In _ _ Ea)) as [La Ca].
    rewrite in_slice_whole by exact Ca. apply Hy; eauto.
Qed.

(** ** Calls *)

Definition ok (t : ty) (n : nat) (a : name) : Prop :=
  live a /\ da_ty (L a) = t /\ da_cap (L a) = Z.of_nat n.
Definition mine (t : ty) (n : nat) (a : name) : Prop := ok t n a /\ owned a.

Definition Rl (f : nat -> R) : option (nat -> C) := Some (fun i => RtoC (f i)).
Definition Cx (f : nat -> R * R) : option (nat -> C) := Some f.

Lemma upd_same : forall S a f, upd_ S a f a = f.
Proof. intros S a f. unfold upd_. destruct (eqd a a) as [_|H]; [reflexivity|now elim H]. Qed.
Lemma upd_other : forall S a b f, b <> a -> upd_ S a f b = S b.
Proof. intros S a b f H. unfold upd_. destruct (eqd b a) as [E|_]; [now elim H|reflexivity]. Qed.

Definition callG (block : bool) (o : vop) := if block then miscG dev sched o else vecG dev sched o.

(** Result of a call with m outputs outs, h k the content of output k *)

Lemma call_runs : forall block o as_ sc n v S S',
  op_ok o -> 0 < n -> map da_ty (map L as_) = types o ->
  (forall a, In a as_ -> live a /\ da_cap (L a) = Z.of_nat n) ->
  (forall k a, k < nout o -> nth_error as_ k = Some a -> owned a) ->
  (forall k l a b, k < nout o -> k <> l -> nth_error as_ k = Some a -> nth_error as_ l = Some b ->
     a <> b \/ (nout o <= l /\ may_share o k l = true)) ->
  (real_scalar o = true -> forall z, In z sc -> snd z = 0%R) ->
  (forall k a, In k (operands o) -> nth_error as_ k = Some a -> S a = Some (v k)) ->
  (forall i z, i < n -> In z (divisors o (fun k => v k i) (scalars sc)) -> z <> RtoC 0) ->
  (forall b f, live b -> S' b = Some f ->
     (exists k, k < nout o /\ nth_error as_ k = Some b /\
        forall i, i < n -> formula o (fun j => v j i) (scalars sc) k = f i) \/
     ((forall k, k < nout o -> nth_error as_ k <> Some b) /\ S b = Some f)) ->
  as_ <> [] ->
  runs S (callG block o (map L as_) sc) S'.
Proof.
  intros block o as_ sc n v S S' Ho Hn Hty Hin Hown Hsh Hre Hval Hdiv Hpost Hne g Hg.
  assert (C0 : capacity0 (map L as_) = Z.of_nat n).
  { destruct as_ as [|a l]; [now elim Hne|]. cbn. apply Hin. now left. }
  assert (LR : forall checked t, exists m' st',
     launch checked dev (sched t o) o (whole (map L as_)) sc (Z.of_nat n) (g_thr g) (g_mem g) = Ok (m', st') /\
     at_ S' (Gst m' st' (Datatypes.S (g_clock g)))).
  { intros checked t. apply (launch_runs checked t o as_ sc (Z.of_nat n) v S S' g); auto; try lia.
    - intros i z Hi. apply Hdiv. lia.
    - intros b f Lb Hf. destruct (Hpost b f Lb Hf) as [(k & H1 & H2 & H3)|[H1 H2]].
      + left. exists k. split; [exact H1|]. split; [exact H2|]. intros i Hi. apply H3. lia.
      + right. split; [exact H1|]. exists f. auto. }
  unfold callG. destruct block.
  - unfold miscG, misc. rewrite C0.
    assert (F : forallb (fun p => cap_ok o (Z.of_nat n) (fst p) (snd p))
                  (combine (seq 0 (length (map L as_))) (map L as_)) = true).
    { apply forallb_forall. intros [k d] Hp. apply in_combine_r in Hp. apply in_map_iff in Hp.
      destruct Hp as (a & <- & Ha). unfold cap_ok. cbn [fst snd]. rewrite (proj2 (Hin a Ha)).
      rewrite Z.eqb_refl, Z.leb_refl. now destruct (_ || _). }
    rewrite F. cbn [check bind].
    destruct (LR (negb (in_block o)) (g_clock g)) as (m' & st' & E & A). rewrite E. cbn [bind].
    exists (Gst m' st' (Datatypes.S (g_clock g))). split; [reflexivity|exact A].
  - unfold vecG, vec_all, vec. rewrite C0.
    assert (F : forallb (fun p => Z.of_nat n + snd p <=? da_cap (fst p))%Z (whole (map L as_)) = true).
    { apply forallb_forall. intros p Hp. unfold whole in Hp. rewrite map_map in Hp. apply in_map_iff in Hp.
      destruct Hp as (a & <- & Ha). cbn [fst snd]. rewrite (proj2 (Hin a Ha)). apply Z.leb_le. lia. }
    rewrite F. cbn [check bind].
    destruct (LR true (g_clock g)) as (m' & st' & E & A). rewrite E. cbn [bind].
    exists (Gst m' st' (Datatypes.S (g_clock g))). split; [reflexivity|exact A].
Qed.

(** One output *)
Lemma call1 : forall block o a l sc n v S h,
  nout o = 1 -> op_ok o -> 0 < n -> map da_ty (map L (a :: l)) = types o ->
  (forall b, In b (a :: l) -> live b /\ da_cap (L b) = Z.of_nat n) -> owned a ->
  (forall k b, nth_error l k = Some b -> a <> b \/ may_share o 0 (Datatypes.S k) = true) ->
  (real_scalar o = true -> forall z, In z sc -> snd z = 0%R) ->
  (forall k b, In k (operands o) -> nth_error (a :: l) k = Some b -> S b = Some (v k)) ->
  (forall i z, i < n -> In z (divisors o (fun k => v k i) (scalars sc)) -> z <> RtoC 0) ->
  (forall i, i < n -> formula o (fun j => v j i) (scalars sc) 0 = h i) ->
  runs S (callG block o (map L (a :: l)) sc) (upd_ S a (Some h)).
Proof.
  intros block o a l sc n v S h No Ho Hn Hty Hin Hown Hsh Hre Hval Hdiv Hf.
  apply (call_runs block o (a :: l) sc n v); auto; try discriminate; try (rewrite No).
  - intros k b Hk E. assert (k = 0) as -> by lia. cbn in E. injection E as <-. exact Hown.
  - intros k j b c Hk Hkj E1 E2. assert (k = 0) as -> by lia. cbn in E1. injection E1 as <-.
    destruct j as [|j]; [now elim Hkj|]. cbn in E2. destruct (Hsh j c E2) as [H|H]; [now left|right; split; [lia|exact H]].
  - intros b f Lb. unfold upd_. destruct (eqd b a) as [->|Hb].
    + intros [= <-]. left. exists 0. split; [lia|]. split; [reflexivity|exact Hf].
    + intros E. right. split; [|exact E]. intros k Hk. assert (k = 0) as -> by lia. cbn. congruence.
Qed.

Ltac nths := repeat (
  match goal with
  | H : nth_error ?l ?k = Some _ |- _ =>
      match l with [] => destruct k; discriminate H | _ => is_var k; destruct k as [|k]; cbn [nth_error] in H end
  | H : Some _ = Some _ |- _ => injection H as <-
  | H : nth_error (_ :: _) 0 = Some _ |- _ => cbn [nth_error] in H
  | H : nth_error (_ :: _) (Datatypes.S _) = Some _ |- _ => cbn [nth_error] in H
  end).

Lemma scalar_real : forall (r : list R) z, In z (map real r) -> snd z = 0%R.
Proof. intros r z H. apply in_map_iff in H. destruct H as (x & <- & _). reflexivity. Qed.

Definition one (S : contents) (block : bool) (o : vop) (a : name) (l : list name) (sc : list R) (h : nat -> R) : Prop :=
  runs S (callG block o (map L (a :: l)) (map real sc)) (upd_ S a (Rl h)).

(** Operations on real arrays, the same content functions given as real *)
Lemma real1 : forall block o a l sc n (v : nat -> nat -> R) S h,
  nout o = 1 -> op_ok o -> 0 < n -> types o = repeat Re (length (a :: l)) ->
  mine Re n a -> (forall b, In b l -> ok Re n b) ->
  (forall k b, nth_error l k = Some b -> a <> b \/ may_share o 0 (Datatypes.S k) = true) ->
  (forall k b, In k (operands o) -> nth_error (a :: l) k = Some b -> S b = Rl (v k)) ->
  (forall i z, i < n -> In z (divisors o (fun k => RtoC (v k i)) (scalars (map real sc))) -> z <> RtoC 0) ->
  (forall i, i < n -> formula o (fun j => RtoC (v j i)) (scalars (map real sc)) 0 = RtoC (h i)) ->
  one S block o a l sc h.
Proof.
  intros block o a l sc n v S h No Ho Hn Hty [[La [Ta Ca]] Oa] Hl Hsh Hval Hdiv Hf.
  apply (call1 block o a l (map real sc) n (fun k i => RtoC (v k i)) S (fun i => RtoC (h i))); auto.
  - rewrite Hty. cbn [map length repeat]. rewrite Ta. f_equal. clear -Hl.
    induction l as [|b l IH]; [reflexivity|]. cbn [map length repeat].
    destruct (Hl b (or_introl eq_refl)) as (_ & -> & _). f_equal. apply IH. intros c Hc. apply Hl. now right.
  - intros b [<-|Hb]; [auto|]. destruct (Hl b Hb) as (H1 & _ & H2). auto.
  - intros _ z. apply scalar_real.
Qed.

Ltac split_in := repeat match goal with
  | H : In _ (_ :: _) |- _ => destruct H as [<-|H]
  | H : In _ [] |- _ => destruct H
  end.
Ltac same := match goal with H : ?S ?b = _ |- ?S ?b = _ => exact H end.
Ltac go1 := [> reflexivity | exact I | assumption | reflexivity | assumption
  | let b := fresh in let H := fresh in intros b H; split_in; assumption
  | let k := fresh in let b := fresh in let H := fresh in intros k b H; nths; first [now right | now left]
  | let k := fresh in let b := fresh in let Hk := fresh in let H := fresh in
    intros k b Hk H; cbn [operands nout types eq_types pair_types seq length Nat.sub] in Hk; split_in;
    cbn [nth_error] in H; injection H as <-; same
  | try (intros ? ? _ []; fail)
  | let i := fresh in let H := fresh in intros i H; apply injective_projections; cbn; try field ].

(** VecOp::eqS, VecOp::eqV, VecOp::mulEqV, VecOp::mulEqS, VecOp::mulVV, VecOp::divSV *)
Lemma run_eqS : forall S a n x, 0 < n -> mine Re n a -> one S false (eqS Re) a [] [x] (fun _ => x).
Proof. intros S a n x Hn Ha. apply (real1 false (eqS Re) a [] [x] n (fun _ _ => 0%R)); go1. all: reflexivity. Qed.

Definition pick (l : list (nat -> R)) (k : nat) : nat -> R := nth k l (fun _ => 0%R).

Lemma run_eqV : forall S a b n f, 0 < n -> mine Re n a -> ok Re n b -> S b = Rl f ->
  one S false (eqV Re) a [b] [] f.
Proof. intros S a b n f Hn Ha Hb Hf. apply (real1 false (eqV Re) a [b] [] n (pick [f; f])); go1. all: reflexivity. Qed.

Lemma run_mulEqV : forall S a b n f h, 0 < n -> mine Re n a -> ok Re n b -> S a = Rl f -> S b = Rl h ->
  one S false (mulEqV ERR) a [b] [] (fun i => f i * h i)%R.
Proof. intros S a b n f h Hn Ha Hb Hf Hh. apply (real1 false (mulEqV ERR) a [b] [] n (pick [f; h])); go1. Qed.

Lemma run_mulVV : forall S a b c n f h, 0 < n -> mine Re n a -> ok Re n b -> ok Re n c -> S b = Rl f -> S c = Rl h ->
  one S false (mulVV RR) a [b; c] [] (fun i => f i * h i)%R.
Proof. intros S a b c n f h Hn Ha Hb Hc Hf Hh. apply (real1 false (mulVV RR) a [b; c] [] n (pick [f; f; h])); go1. Qed.

Lemma run_mulEqS : forall S a n f x, 0 < n -> mine Re n a -> S a = Rl f ->
  one S false (mulEqS ERR) a [] [x] (fun i => f i * x)%R.
Proof. intros S a n f x Hn Ha Hf. apply (real1 false (mulEqS ERR) a [] [x] n (pick [f])); go1. Qed.

Lemma run_divSV : forall S a b n f x, 0 < n -> mine Re n a -> ok Re n b -> S b = Rl f -> (forall i, i < n -> f i <> 0%R) ->
  one S false divSV a [b] [x] (fun i => x / f i)%R.
Proof.
  intros S a b n f x Hn Ha Hb Hf Hnz. apply (real1 false divSV a [b] [x] n (pick [f; f])); go1.
  - intros i z Hi [<-|[]]. intros E. apply (Hnz i Hi). now injection E.
  - match goal with H : _ < n |- _ => exact (Hnz _ H) end.
  - match goal with H : _ < n |- _ => exact (Hnz _ H) end.
Qed.

(** VecOpMisc: expVc; Block.tpp: richardsonEx, addEqMulVVc, addEqMulVVV *)
Lemma run_expVc : forall S a b n f x, 0 < n -> mine Re n a -> ok Re n b -> S b = Rl f ->
  one S true expVc a [b] [x] (fun i => exp (f i * x)).
Proof.
  intros S a b n f x Hn Ha Hb Hf. apply (real1 true expVc a [b] [x] n (pick [f; f])); go1.
  all: match goal with |- context [(?u * 0 + 0 * ?w)%R] => replace (u * 0 + 0 * w)%R with 0%R by ring end;
    rewrite ?cos_0, ?sin_0; rewrite ?Rmult_0_l, ?Rminus_0_r; ring.
Qed.

Lemma run_richardsonEx : forall S a b c d n f h u, 0 < n -> mine Re n a -> ok Re n b -> ok Re n c -> ok Re n d ->
  S b = Rl f -> S c = Rl h -> S d = Rl u ->
  one S true richardsonEx a [b; c; d] [] (fun i => (4 * (h i * u i) - f i) / 3)%R.
Proof.
  intros S a b c d n f h u Hn Ha Hb Hc Hd Hf Hh Hu.
  apply (real1 true richardsonEx a [b; c; d] [] n (pick [f; f; h; u])); go1.
Qed.

Lemma run_addEqMulVVc : forall S a b c n f h u x, 0 < n -> mine Re n a -> ok Re n b -> ok Re n c ->
  S a = Rl f -> S b = Rl h -> S c = Rl u ->
  one S true addEqMulVVc a [b; c] [x] (fun i => f i + h i * u i * x)%R.
Proof.
  intros S a b c n f h u x Hn Ha Hb Hc Hf Hh Hu.
  apply (real1 true addEqMulVVc a [b; c] [x] n (pick [f; h; u])); go1.
Qed.

Lemma run_addEqMulVVV : forall S a b c d n f h u x, 0 < n -> mine Re n a -> ok Re n b -> ok Re n c -> ok Re n d ->
  S a = Rl f -> S b = Rl h -> S c = Rl u -> S d = Rl x ->
  one S true addEqMulVVV a [b; c; d] [] (fun i => f i + h i * u i * x i)%R.
Proof.
  intros S a b c d n f h u x Hn Ha Hb Hc Hd Hf Hh Hu Hx.
  apply (real1 true addEqMulVVV a [b; c; d] [] n (pick [f; h; u; x])); go1.
Qed.

(** Operations with complex arrays *)
Lemma run_mulEqV_complex : forall S a b n X e, 0 < n -> mine Co n a -> ok Re n b -> S a = Cx X -> S b = Rl e ->
  runs S (vecG dev sched (mulEqV ECR) [L a; L b] []) (upd_ S a (Cx (mulK e X))).
Proof.
  intros S a b n X e Hn [(La & Ta & Ca) Oa] (Lb & Tb & Cb) HX He.
  apply (call1 false (mulEqV ECR) a [b] [] n (fun k => match k with 0 => X | _ => fun i => RtoC (e i) end));
    try reflexivity; auto.
  - cbn [map]. now rewrite Ta, Tb.
  - intros c Hc. split_in; auto.
  - intros _ z [].
  - intros k c Hk E. cbn [operands types eq_types seq length] in Hk. split_in; cbn [nth_error] in E; injection E as <-; same.
  - intros i Hi. apply injective_projections; cbn; ring.
Qed.

Lemma run_realMulVConjVV : forall S a b c d n X Y e, 0 < n -> mine Re n a -> ok Co n b -> ok Co n c -> ok Re n d ->
  S b = Cx X -> S c = Cx Y -> S d = Rl e ->
  runs S (miscG dev sched realMulVConjVV [L a; L b; L c; L d] [])
    (upd_ S a (Rl (fun i => (fst (X i) * fst (Y i) + snd (X i) * snd (Y i)) * e i)%R)).
Proof.
  intros S a b c d n X Y e Hn [(La & Ta & Ca) Oa] (Lb & Tb & Cb) (Lc & Tc & Cc) (Ld & Td & Cd) HX HY He.
  apply (call1 true realMulVConjVV a [b; c; d] [] n
    (fun k => match k with 1 => X | 2 => Y | _ => fun i => RtoC (e i) end)); try reflexivity; auto.
  - cbn [map]. now rewrite Ta, Tb, Tc, Td.
  - intros x Hx. split_in; auto.
  - intros _ z [].
  - intros k x Hk E. cbn [operands types nout seq length Nat.sub] in Hk. split_in; cbn [nth_error] in E; injection E as <-; same.
  - intros i Hi. apply injective_projections; cbn; ring.
Qed.

(** Two outputs *)
Lemma run_mulVVPair : forall S a b c d q n f h u, 0 < n -> mine Re n a -> mine Re n b ->
  ok Re n c -> ok Re n d -> ok Re n q -> a <> b -> a <> c -> a <> d -> a <> q -> b <> c -> b <> d -> b <> q ->
  S c = Rl f -> S d = Rl h -> S q = Rl u ->
  runs S (miscG dev sched mulVVPair [L a; L b; L c; L d; L q] [])
    (upd_ (upd_ S a (Rl (fun i => f i * u i)%R)) b (Rl (fun i => h i * u i)%R)).
Proof.
  intros S a b c d q n f h u Hn [(La & Ta & Ca) Oa] [(Lb & Tb & Cb) Ob] (Lc & Tc & Cc) (Ld & Td & Cd) (Lq & Tq & Cq)
    Hab Hac Had Haq Hbc Hbd Hbq Hf Hh Hu.
  apply (call_runs true mulVVPair [a; b; c; d; q] [] n (fun k i => RtoC (pick [f; f; f; h; u] k i)));
    try exact I; try discriminate; auto.
  - cbn [map]. now rewrite Ta, Tb, Tc, Td, Tq.
  - intros x Hx. split_in; auto.
  - intros k x Hk E. cbn [nout] in Hk. nths; auto; lia.
  - intros k l x y Hk Hkl E1 E2. cbn [nout] in Hk. left. nths; try congruence; try lia; try (now elim Hkl).
  - intros _ z [].
  - intros k x Hk E. cbn [operands types nout seq length Nat.sub] in Hk. split_in; cbn [nth_error] in E; injection E as <-; same.
  - intros x F Lx. unfold upd_. destruct (eqd x b) as [->|Hxb].
    + intros [= <-]. left. exists 1. split; [cbn; lia|]. split; [reflexivity|]. intros i Hi.
      apply injective_projections; cbn; ring.
    + destruct (eqd x a) as [->|Hxa].
      * intros [= <-]. left. exists 0. split; [cbn; lia|]. split; [reflexivity|]. intros i Hi.
        apply injective_projections; cbn; ring.
      * intros E. right. split; [|exact E]. intros k Hk E'. cbn [nout] in Hk. nths; try lia; congruence.
Qed.

Lemma run_mulEqVPair : forall S a b c n f h u, 0 < n -> mine Re n a -> mine Re n b ->
  ok Re n c -> a <> b -> a <> c -> b <> c ->
  S a = Rl f -> S b = Rl h -> S c = Rl u ->
  runs S (miscG dev sched mulEqVPair [L a; L b; L c] [])
    (upd_ (upd_ S a (Rl (fun i => f i * u i)%R)) b (Rl (fun i => h i * u i)%R)).
Proof.
  intros S a b c n f h u Hn [(La & Ta & Ca) Oa] [(Lb & Tb & Cb) Ob] (Lc & Tc & Cc) Hab Hac Hbc Hf Hh Hu.
  apply (call_runs true mulEqVPair [a; b; c] [] n (fun k i => RtoC (pick [f; h; u] k i)));
    try exact I; try discriminate; auto.
  - cbn [map]. now rewrite Ta, Tb, Tc.
  - intros x Hx. split_in; auto.
  - intros k x Hk E. cbn [nout] in Hk. nths; auto; lia.
  - intros k l x y Hk Hkl E1 E2. cbn [nout] in Hk. left. nths; try congruence; try lia; try (now elim Hkl).
  - intros _ z [].
  - intros k x Hk E. cbn [operands types nout seq length Nat.sub] in Hk. split_in; cbn [nth_error] in E; injection E as <-; same.
  - intros x F Lx. unfold upd_. destruct (eqd x b) as [->|Hxb].
    + intros [= <-]. left. exists 1. split; [cbn; lia|]. split; [reflexivity|]. intros i Hi.
      apply injective_projections; cbn; ring.
    + destruct (eqd x a) as [->|Hxa].
      * intros [= <-]. left. exists 0. split; [cbn; lia|]. split; [reflexivity|]. intros i Hi.
        apply injective_projections; cbn; ring.
      * intros E. right. split; [|exact E]. intros k Hk E'. cbn [nout] in Hk. nths; try lia; congruence.
Qed.

(** Products of several arrays *)
Lemma Cprod_real : forall n (x : nat -> R), Cprod n (fun j => RtoC (x j)) = RtoC (fold_left Rmult (map x (seq 0 n)) 1%R).
Proof.
  induction n as [|n IH]; intros x; [reflexivity|]. cbn [Cprod]. rewrite IH, seq_S, map_app, fold_left_app. cbn [map fold_left Nat.add].
  rewrite RtoC_mult. reflexivity.
Qed.
Lemma Cprod_ext : forall n f h, (forall j, j < n -> f j = h j) -> Cprod n f = Cprod n h.
Proof. induction n as [|n IH]; intros f h H; [reflexivity|]. cbn [Cprod]. rewrite (IH f h), H; auto. Qed.

Definition prod_of (fs : list (nat -> R)) (i : nat) : R := fold_left Rmult (map (fun f => f i) fs) 1%R.

Lemma run_many : forall S a l n fs, 0 < n -> mine Re n a -> (forall b, In b l -> ok Re n b) -> 2 <= length l ->
  Forall2 (fun b f => S b = Rl f) l fs ->
  runs S (manyG dev sched true (L a) (map L l)) (upd_ S a (Rl (prod_of fs))).
Proof.
  intros S a l n fs Hn Ha Hl H2 HF g Hg.
  assert (Len : length fs = length l) by (clear -HF; induction HF; cbn; congruence).
  unfold manyG, many. rewrite map_length. destruct (Nat.ltb_spec 1 (length l)); [|lia]. cbn [check bind].
  destruct (Nat.eqb_spec (length l) 2) as [E2|N2].
  - destruct l as [|b [|c [|d l]]]; try discriminate E2. inversion HF as [|? f ? fs' Hf HF']; subst.
    inversion HF' as [|? h ? fs'' Hh HF'']; subst. inversion HF''; subst.
    assert (R : runs S (vecG dev sched (mulVV RR) [L a; L b; L c] []) (upd_ S a (Rl (prod_of [f; h])))).
    { apply (runs_below S _ (upd_ S a (Rl (fun i => f i * h i)%R))).
      - apply (run_mulVV S a b c n f h); auto; apply Hl; cbn; auto.
      - intros x F Lx. unfold upd_. destruct (eqd x a) as [->|Hx].
        + intros [= <-]. eexists. split; [reflexivity|]. intros i _. cbn. f_equal. unfold prod_of. cbn. ring.
        + intros E. exists F. auto. }
    exact (R g Hg).
  - assert (C0 : capacity0 (map L l) = Z.of_nat n).
    { destruct l as [|b l]; [cbn in H2; lia|]. cbn. apply (Hl b). now left. }
    rewrite C0. change (L a :: map L l) with (map L (a :: l)).
    assert (Ea : map da_ty (map L l) = repeat Re (length l)).
    { clear -Hl. induction l as [|b l IH]; [reflexivity|]. cbn [map length repeat].
      destruct (Hl b (or_introl eq_refl)) as (_ & -> & _). f_equal. apply IH. intros c Hc. apply Hl. now right. }
    destruct Ha as ((La & Ta & Ca) & Oa).
    destruct (launch_runs true (g_clock g) (mulVMany (length l)) (a :: l) [] (Z.of_nat n)
      (fun k i => RtoC (nth (k - 1) fs (fun _ => 0%R) i)) S (upd_ S a (Rl (prod_of fs))) g) as (m' & st' & E & A).
    + cbn. lia.
    + exact Hg.
    + lia.
    + cbn [map types]. now rewrite Ta, Ea.
    + intros b [<-|Hb]; [auto|]. destruct (Hl b Hb) as (H3 & _ & H4). auto.
    + intros k b Hk Eb. cbn [nout] in Hk. assert (k = 0) as -> by lia. cbn in Eb. injection Eb as <-. exact Oa.
    + intros k j b c Hk Hkj _ _. right. cbn [nout] in *. split; [lia|reflexivity].
    + intros _ z [].
    + intros k b Hk Eb. cbn [operands nout types length] in Hk. apply in_seq in Hk. destruct k as [|k]; [lia|].
      cbn [nth_error] in Eb. replace (Datatypes.S k - 1) with k by lia.
      clear -HF Eb. revert k Eb. induction HF as [|x f l fs Hx HF IH]; intros k Eb; [destruct k; discriminate Eb|].
      destruct k as [|k]; cbn in Eb; [injection Eb as <-; exact Hx|]. cbn [nth]. apply IH, Eb.
    + intros i z Hi [].
    + intros b F Lb. unfold upd_. destruct (eqd b a) as [->|Hb].
      * intros [= <-]. left. exists 0. split; [cbn; lia|]. split; [reflexivity|]. intros i Hi. cbn [formula].
        rewrite (Cprod_ext _ _ (fun j => RtoC (nth j fs (fun _ => 0%R) i)))
          by (intros j Hj; do 2 f_equal; lia).
        rewrite (Cprod_real (length l) (fun j => nth j fs (fun _ => 0%R) i)). unfold prod_of. do 2 f_equal.
        rewrite <- Len. clear. induction fs as [|f fs IH]; [reflexivity|]. cbn [length seq map nth]. f_equal.
        rewrite <- seq_shift, map_map. exact IH.
      * intros Eb. right. split; [|exists F; auto]. intros k Hk Ek. cbn [nout] in Hk. assert (k = 0) as -> by lia.
        cbn in Ek. congruence.
    + rewrite E. cbn [bind]. exists (Gst m' st' (Datatypes.S (g_clock g))). split; [reflexivity|exact A].
Qed.

(** ** Transforms *)


Lemma forward_ext : forall f h k, (forall r, r < nR dims -> f r = h r) -> rawForward dims f k = rawForward dims h k.
Proof.
  intros f h k H. unfold rawForward, nx. f_equal; [|f_equal]; apply rsum_ext; intros r Hr; now rewrite H.
Qed.
Lemma inverse_ext : forall X Y r, (forall k, k < nK dims -> X k = Y k) -> fftInverse dims X r = fftInverse dims Y r.
Proof. intros X Y r H. unfold fftInverse. apply rsum_ext. intros k Hk. now rewrite H. Qed.

(** Array d is made of the named arrays nm 0, ..., nm (nb - 1) of n elements *)
Definition parts (t : ty) (nb n : nat) (d : darr) (nm : nat -> name) : Prop :=
  da_ty d = t /\ da_cap d = Z.of_nat (nb * n) /\
  forall b, b < nb -> ok t n (nm b) /\ da_addr (L (nm b)) = (da_addr d + Z.of_nat (width t * (b * n)))%Z.

Lemma parts_word : forall t nb n d nm y, 0 < n -> parts t nb n d nm -> words d y ->
  exists b, b < nb /\ words (L (nm b)) y.
Proof.
  intros t nb n d nm y Hn (Td & Cd & H) Hy. unfold words in Hy. rewrite Td, Cd in Hy.
  set (w := width t) in *. assert (Hw : 0 < w) by (unfold w; destruct t; cbn; lia).
  set (e := Z.to_nat (y - da_addr d)). assert (He : y = (da_addr d + Z.of_nat e)%Z) by lia.
  assert (Hb : e < w * n * nb) by nia.
  pose proof (Nat.div_mod e (w * n) ltac:(nia)). pose proof (Nat.mod_upper_bound e (w * n) ltac:(nia)).
  assert (Hd : e / (w * n) < nb) by (apply Nat.div_lt_upper_bound; nia).
  exists (e / (w * n)). split; [exact Hd|]. destruct (H _ Hd) as ((_ & T & C) & A).
  unfold words. rewrite T, C, A. fold w. set (q := e / (w * n)) in *. nia.
Qed.
Lemma part_words : forall t nb n d nm b y, parts t nb n d nm -> b < nb -> words (L (nm b)) y -> words d y.
Proof.
  intros t nb n d nm b y (Td & Cd & H) Hb. destruct (H b Hb) as ((_ & T & C) & A). unfold words.
  rewrite T, C, A, Td, Cd. destruct t; cbn [width]; nia.
Qed.
Lemma part_elem : forall t nb n d nm b j m z, parts t nb n d nm -> b < nb ->
  elem m (L (nm b)) (Z.of_nat j) z <-> elem m d (Z.of_nat (b * n + j)) z.
Proof.
  intros t nb n d nm b j m z (Td & Cd & H) Hb. destruct (H b Hb) as ((_ & T & C) & A).
  unfold elem, word_at. rewrite T, Td, A. destruct t; cbn [width].
  - replace (da_addr d + Z.of_nat (1 * (b * n)) + Z.of_nat 1 * Z.of_nat j + Z.of_nat 0)%Z
      with (da_addr d + Z.of_nat 1 * Z.of_nat (b * n + j) + Z.of_nat 0)%Z by lia. tauto.
  - replace (da_addr d + Z.of_nat (2 * (b * n)) + Z.of_nat 2 * Z.of_nat j + Z.of_nat 0)%Z
      with (da_addr d + Z.of_nat 2 * Z.of_nat (b * n + j) + Z.of_nat 0)%Z by lia.
    replace (da_addr d + Z.of_nat (2 * (b * n)) + Z.of_nat 2 * Z.of_nat j + Z.of_nat 1)%Z
      with (da_addr d + Z.of_nat 2 * Z.of_nat (b * n + j) + Z.of_nat 1)%Z by lia. tauto.
Qed.
Lemma block_div : forall b n j, j < n -> (b * n + j) / n = b /\ (b * n + j) mod n = j.
Proof.
  intros b n j Hj. replace (b * n + j) with (j + b * n) by lia. split.
  - rewrite Nat.div_add, Nat.div_small by lia. lia.
  - rewrite Nat.mod_add, Nat.mod_small by lia. lia.
Qed.
Lemma block_split : forall nb n e, 0 < n -> e < nb * n -> e / n < nb /\ e mod n < n /\ e = e / n * n + e mod n.
Proof.
  intros nb n e Hn He. pose proof (Nat.div_mod e n ltac:(lia)). pose proof (Nat.mod_upper_bound e n ltac:(lia)).
  split; [apply Nat.div_lt_upper_bound; lia|]. split; lia.
Qed.

Lemma parts_readable : forall t nb n d nm m F, 0 < n -> parts t nb n d nm ->
  (forall b j, b < nb -> j < n -> elem m (L (nm b)) (Z.of_nat j) (F b j)) ->
  readable m (da_addr d) (nb * n * width t) = true.
Proof.
  intros t nb n d nm m F Hn P H. apply forallb_forall. intros e He. apply in_seq in He.
  set (w := width t) in *. assert (Hw : w = 1 \/ w = 2) by (unfold w; destruct t; cbn; auto).
  pose proof (Nat.div_mod e w ltac:(lia)) as D. pose proof (Nat.mod_upper_bound e w ltac:(lia)) as M.
  assert (Hq : e / w < nb * n) by (apply Nat.div_lt_upper_bound; nia).
  destruct (block_split nb n (e / w) Hn Hq) as (B1 & B2 & B3).
  specialize (H _ _ B1 B2). rewrite (part_elem t nb n d nm _ _ m _ P B1) in H. rewrite <- B3 in H.
  destruct P as (Td & _). unfold elem, word_at in H. rewrite Td in H.
  destruct t; cbn [width] in *; subst w.
  - destruct H as [H _]. replace (da_addr d + Z.of_nat e)%Z with (da_addr d + Z.of_nat 1 * Z.of_nat (e / 1) + Z.of_nat 0)%Z by lia.
    now rewrite H.
  - destruct H as [H0 H1]. assert (Hr : e mod 2 = 0 \/ e mod 2 = 1) by lia. destruct Hr as [Hr|Hr].
    + replace (da_addr d + Z.of_nat e)%Z with (da_addr d + Z.of_nat 2 * Z.of_nat (e / 2) + Z.of_nat 0)%Z by lia. now rewrite H0.
    + replace (da_addr d + Z.of_nat e)%Z with (da_addr d + Z.of_nat 2 * Z.of_nat (e / 2) + Z.of_nat 1)%Z by lia. now rewrite H1.
Qed.

Lemma parts_writable : forall t nb n d nm m, 0 < n -> parts t nb n d nm ->
  (forall b, b < nb -> allocated m (L (nm b))) ->
  writable m (da_addr d) (nb * n * width t) = true.
Proof.
  intros t nb n d nm m Hn P H. apply forallb_forall. intros e He. apply in_seq in He.
  destruct (parts_word t nb n d nm (da_addr d + Z.of_nat e) Hn P) as (b & Hb & Hy).
  { destruct P as (Td & Cd & _). unfold words. rewrite Td, Cd. lia. }
  specialize (H b Hb (da_addr d + Z.of_nat e)%Z). unfold words in Hy. unfold word_at in H.
  destruct (m (da_addr d + Z.of_nat e)%Z); auto. elim H; [lia|reflexivity].
Qed.

Hypothesis Hnx : 0 < nR dims.
Hypothesis Hnk : 0 < nK dims.

Lemma run_forward : forall S S' nb r k rn kn F, 0 < nb ->
  parts Re nb (nR dims) r rn -> parts Co nb (nK dims) k kn -> (forall b, b < nb -> owned (kn b)) ->
  (forall b, b < nb -> S (rn b) = Rl (F b)) ->
  (forall a f, live a -> S' a = Some f ->
     (exists b, b < nb /\ a = kn b /\ forall i, i < nK dims -> fftForward dims (F b) i = f i) \/
     ((forall b, b < nb -> a <> kn b) /\ S a = Some f)) ->
  runs S (forwardG dev sched dims nb r k) S'.
Proof.
  intros S S' nb r k rn kn F Hnb Pr Pk Ok_ HF Hpost g Hg. pose proof Hg as [A1 A2 A3 A4].
  unfold forwardG, nx, kSize. rewrite (proj1 (proj2 Pr)), (proj1 (proj2 Pk)), !Z.eqb_refl. cbn [check bind].
  assert (Er : forall b j, b < nb -> j < nR dims -> elem (g_mem g) (L (rn b)) (Z.of_nat j) (RtoC (F b j))).
  { intros b j Hb Hj. destruct (proj2 (proj2 Pr) b Hb) as ((Lb & _ & Cb) & _).
    apply (A3 (rn b) (fun i => RtoC (F b i)) j Lb (HF b Hb)). lia. }
  unfold execD2Z, nx, kSize.
  pose proof (parts_readable Re nb (nR dims) r rn (g_mem g) (fun b j => RtoC (F b j)) Hnx Pr Er) as Rd.
  cbn [width] in Rd. rewrite Nat.mul_1_r in Rd. rewrite Rd.
  pose proof (parts_writable Co nb (nK dims) k kn (g_mem g) Hnk Pk) as Wr. cbn [width] in Wr.
  rewrite Wr by (intros b Hb; apply A2, (proj2 (proj2 Pk) b Hb)). cbn [andb bind].
  set (m1 := fun y => if ((0 <=? y - da_addr k) && (y - da_addr k <? Z.of_nat (nb * nK dims * 2)))%Z%bool then _ else g_mem g y).
  assert (Ty : da_ty k = Co) by apply Pk. assert (Cy : da_cap k = Z.of_nat (nb * nK dims)) by apply Pk.
  assert (M1 : forall y, ~ words k y -> m1 y = g_mem g y).
  { intros y Hy. unfold m1. destruct (Z.leb_spec 0 (y - da_addr k)); [|reflexivity].
    destruct (Z.ltb_spec (y - da_addr k) (Z.of_nat (nb * nK dims * 2))); [|reflexivity].
    elim Hy. unfold words. rewrite Ty, Cy. cbn [width]. lia. }
  assert (Gt : forall b j, b < nb -> j < nR dims ->
     get (g_mem g) (da_addr r + Z.of_nat (b * nR dims + j))%Z = F b j).
  { intros b j Hb Hj. pose proof (Er b j Hb Hj) as E. rewrite (part_elem _ _ _ _ _ _ _ _ _ Pr Hb) in E.
    unfold elem, word_at in E. rewrite (proj1 Pr) in E. destruct E as [E _]. cbn [width] in E.
    replace (da_addr r + Z.of_nat 1 * Z.of_nat (b * nR dims + j) + Z.of_nat 0)%Z
      with (da_addr r + Z.of_nat (b * nR dims + j))%Z in E by lia. unfold get. now rewrite E. }
  assert (E1 : forall i, i < nb * nK dims -> elem m1 k (Z.of_nat i) (rawForward dims (F (i / nK dims)) (i mod nK dims))).
  { intros i Hi. destruct (block_split nb (nK dims) i Hnk Hi) as (B1 & B2 & B3).
    assert (Q : forall c, c < 2 -> m1 (da_addr k + Z.of_nat (2 * i + c))%Z
       = Val (comp c (rawForward dims (F (i / nK dims)) (i mod nK dims)))).
    { intros c Hc. unfold m1.
      replace (da_addr k + Z.of_nat (2 * i + c) - da_addr k)%Z with (Z.of_nat (2 * i + c)) by lia.
      destruct (Z.leb_spec 0 (Z.of_nat (2 * i + c))); [|lia].
      destruct (Z.ltb_spec (Z.of_nat (2 * i + c)) (Z.of_nat (nb * nK dims * 2))); [|lia]. cbn [andb].
      rewrite Nat2Z.id. replace (2 * i + c) with (i * 2 + c) by lia.
      destruct (block_div i 2 c Hc) as [-> ->]. f_equal. f_equal. apply forward_ext.
      intros r' Hr'. now apply Gt. }
    unfold elem, word_at. rewrite Ty. cbn [width]. pose proof (Q 0 ltac:(lia)) as Q0. pose proof (Q 1 ltac:(lia)) as Q1.
    split.
    - replace (da_addr k + Z.of_nat 2 * Z.of_nat i + Z.of_nat 0)%Z with (da_addr k + Z.of_nat (2 * i + 0))%Z by lia. exact Q0.
    - replace (da_addr k + Z.of_nat 2 * Z.of_nat i + Z.of_nat 1)%Z with (da_addr k + Z.of_nat (2 * i + 1))%Z by lia. exact Q1. }
  set (c := (1 / INR (nR dims))%R).
  set (v := fun i (_ : nat) => rawForward dims (F (i / nK dims)) (i mod nK dims)).
  assert (Al : forall y, words k y -> m1 y <> Free).
  { intros y Hy. unfold m1. unfold words in Hy. rewrite Ty, Cy in Hy. cbn [width] in Hy.
    destruct (Z.leb_spec 0 (y - da_addr k)); [|lia].
    destruct (Z.ltb_spec (y - da_addr k) (Z.of_nat (nb * nK dims * 2))); [|lia]. discriminate. }
  assert (Hc : call (mulEqS ECR) (whole [k]) [(c, 0%R)] (Z.of_nat (nb * nK dims)) m1 v).
  { constructor.
    - cbn. now rewrite Ty.
    - intros p [<-|[]]. cbn [fst]. intros y Hy. apply Al. unfold words, word_at in *. lia.
    - intros i l p q Hi Hil Ep Eq. cbn [nout] in Hi. destruct i; [|lia]. destruct l as [|[|l]]; cbn in Eq; try discriminate. now elim Hil.
    - intros _ z [<-|[]]. reflexivity.
    - intros i l p Hi Hl Ep. cbn [operands types eq_types seq length] in Hl. destruct Hl as [<-|[]].
      cbn in Ep. injection Ep as <-. cbn [fst snd]. rewrite Z.add_0_l. apply E1. lia.
    - intros i z Hi []. }
  assert (Hb : forall p, In p (whole [k]) -> in_bounds (Z.of_nat (nb * nK dims)) p).
  { intros p [<-|[]]. unfold in_bounds. cbn [fst snd]. lia. }
  pose proof (launch_done (mulEqS ECR) (whole [k]) [(c, 0%R)] (Z.of_nat (nb * nK dims)) m1 v I ltac:(nia) Hc Hb
                true dev (sched (g_clock g) (mulEqS ECR)) (g_thr g) A1) as LD.
  unfold vecG, vec_all, vec. cbn [capacity0 g_mem g_thr g_clock]. rewrite Cy.
  assert (Fb : forallb (fun p => Z.of_nat (nb * nK dims) + snd p <=? da_cap (fst p))%Z (whole [k]) = true).
  { cbn. rewrite Cy. rewrite andb_true_r. apply Z.leb_le. lia. }
  rewrite Fb. cbn [check bind].
  destruct (launch true dev (sched (g_clock g) (mulEqS ECR)) (mulEqS ECR) (whole [k]) [(c, 0%R)]
    (Z.of_nat (nb * nK dims)) (g_thr g) m1) as [[m' st']| | |];
    [|now elim LD|now elim LD|now elim (LD (Hfair _ _))].
  destruct LD as [R' [D1 D2]]. cbn [bind]. exists (Gst m' st' (Datatypes.S (g_clock g))). split; [reflexivity|].
  assert (Fr : forall y, ~ words k y -> m' y = g_mem g y).
  { intros y Hy. rewrite <- (M1 y Hy). apply D2. intros i p Hi Ep. cbn [nout] in Hi. destruct i; [|lia].
    cbn in Ep. injection Ep as <-. now rewrite in_slice_whole by exact Cy. }
  assert (Fk : forall i, i < nb * nK dims -> elem m' k (Z.of_nat i) (fftForward dims (F (i / nK dims)) (i mod nK dims))).
  { intros i Hi. specialize (D1 i 0 (k, 0%Z) ltac:(lia) ltac:(cbn; lia) eq_refl). cbn [fst snd] in D1.
    rewrite Z.add_0_l in D1. replace (fftForward dims (F (i / nK dims)) (i mod nK dims))
      with (formula (mulEqS ECR) (v i) (scalars [(c, 0%R)]) 0); [exact D1|].
    apply injective_projections; cbn; unfold c, nx; ring. }
  assert (Al' : forall y, words k y -> m' y <> Free).
  { intros y Hy E. unfold words in Hy. rewrite Ty, Cy in Hy. cbn [width] in Hy.
    set (e := Z.to_nat (y - da_addr k)). assert (Hy' : y = (da_addr k + Z.of_nat e)%Z) by lia.
    destruct (block_split (nb * nK dims) 2 e ltac:(lia) ltac:(lia)) as (B1 & B2 & B3).
    specialize (Fk (e / 2) B1). unfold elem, word_at in Fk. rewrite Ty in Fk. cbn [width] in Fk. destruct Fk as [F0 F1].
    assert (Hr : e mod 2 = 0 \/ e mod 2 = 1) by lia. destruct Hr as [Hr|Hr].
    - replace (da_addr k + Z.of_nat 2 * Z.of_nat (e / 2) + Z.of_nat 0)%Z with y in F0 by lia. congruence.
    - replace (da_addr k + Z.of_nat 2 * Z.of_nat (e / 2) + Z.of_nat 1)%Z with y in F1 by lia. congruence. }
  assert (Kw : forall y, words k y \/ ~ words k y) by (intros y; unfold words; lia).
  constructor; cbn [g_thr g_mem]; auto.
  - intros a La y Hy. destruct (Kw y) as [W|W]; [now apply Al'|]. rewrite Fr by exact W. now apply (A2 a).
  - intros a f i La Hf Hi. destruct (Hpost a f La Hf) as [(b & Hb' & -> & Q)|[Hne E]].
    + destruct (proj2 (proj2 Pk) b Hb') as ((_ & _ & Cb) & _). rewrite Cb in Hi.
      rewrite <- Q by lia. rewrite (part_elem _ _ _ _ _ _ _ _ _ Pk Hb').
      destruct (block_div b (nK dims) i ltac:(lia)) as [E1' E2']. specialize (Fk (b * nK dims + i) ltac:(nia)).
      now rewrite E1', E2' in Fk.
    + apply (elem_word (g_mem g)); [|lia|now apply A3].
      intros y Hy. symmetry. apply Fr. intros W.
      destruct (parts_word _ _ _ _ _ _ Hnk Pk W) as (b & Hb' & W').
      destruct (proj2 (proj2 Pk) b Hb') as ((Lb & _) & _).
      apply (apart (kn b) a Lb (Ok_ b Hb') La) with (y := y); auto. intros E'. now apply (Hne b).
  - intros y Hy. rewrite Fr; [now apply A4|]. intros W. destruct (parts_word _ _ _ _ _ _ Hnk Pk W) as (b & Hb' & W').
    destruct (proj2 (proj2 Pk) b Hb') as ((Lb & _) & _). now apply (Hy (kn b)); auto.
Qed.

Lemma run_inverse : forall S S' nb k r kn rn X, 0 < nb ->
  parts Co nb (nK dims) k kn -> parts Re nb (nR dims) r rn ->
  (forall b, b < nb -> owned (kn b) /\ owned (rn b)) ->
  (forall b, b < nb -> S (kn b) = Cx (X b)) ->
  (forall a f, live a -> S' a = Some f ->
     (exists b, b < nb /\ a = rn b /\ forall i, i < nR dims -> RtoC (fftInverse dims (X b) i) = f i) \/
     ((forall b, b < nb -> a <> rn b /\ a <> kn b) /\ S a = Some f)) ->
  runs S (inverseG dims nb k r) S'.
Proof.
  intros S S' nb k r kn rn X Hnb Pk Pr Ow HX Hpost g Hg. pose proof Hg as [A1 A2 A3 A4].
  unfold inverseG, nx, kSize. rewrite (proj1 (proj2 Pr)), (proj1 (proj2 Pk)), !Z.eqb_refl. cbn [check bind].
  assert (Ek : forall b j, b < nb -> j < nK dims -> elem (g_mem g) (L (kn b)) (Z.of_nat j) (X b j)).
  { intros b j Hb Hj. destruct (proj2 (proj2 Pk) b Hb) as ((Lb & _ & Cb) & _).
    apply (A3 (kn b) (X b) j Lb (HX b Hb)). lia. }
  unfold execZ2D, nx, kSize.
  pose proof (parts_readable Co nb (nK dims) k kn (g_mem g) (fun b j => X b j) Hnk Pk Ek) as Rd.
  cbn [width] in Rd. rewrite Rd.
  pose proof (parts_writable Re nb (nR dims) r rn (g_mem g) Hnx Pr) as Wr. cbn [width] in Wr. rewrite Nat.mul_1_r in Wr.
  rewrite Wr by (intros b Hb; apply A2, (proj2 (proj2 Pr) b Hb)). cbn [andb bind].
  set (m1 := fun y => if ((0 <=? y - da_addr r) && (y - da_addr r <? Z.of_nat (nb * nR dims)))%Z%bool then _ else _).
  assert (Ty : da_ty k = Co) by apply Pk. assert (Cy : da_cap k = Z.of_nat (nb * nK dims)) by apply Pk.
  assert (Tr : da_ty r = Re) by apply Pr. assert (Cr : da_cap r = Z.of_nat (nb * nR dims)) by apply Pr.
  exists (Gst m1 (g_thr g) (g_clock g)). split; [reflexivity|].
  assert (Rw : forall y, words r y \/ ~ words r y) by (intros y; unfold words; lia).
  assert (Kw : forall y, words k y \/ ~ words k y) by (intros y; unfold words; lia).
  assert (M1 : forall y, ~ words r y -> ~ words k y -> m1 y = g_mem g y).
  { intros y Hy Hk. unfold m1. unfold words in Hy, Hk. rewrite Ty, Cy in Hk. rewrite Tr, Cr in Hy. cbn [width] in *.
    destruct (Z.leb_spec 0 (y - da_addr r)), (Z.ltb_spec (y - da_addr r) (Z.of_nat (nb * nR dims))); cbn [andb]; try lia;
    destruct (Z.leb_spec 0 (y - da_addr k)), (Z.ltb_spec (y - da_addr k) (Z.of_nat (nb * nK dims * 2))); cbn [andb]; try lia; reflexivity. }
  assert (M2 : forall y, ~ words r y -> words k y -> m1 y = Junk).
  { intros y Hy Hk. unfold m1. unfold words in Hy, Hk. rewrite Ty, Cy in Hk. rewrite Tr, Cr in Hy. cbn [width] in *.
    destruct (Z.leb_spec 0 (y - da_addr r)), (Z.ltb_spec (y - da_addr r) (Z.of_nat (nb * nR dims))); cbn [andb]; try lia;
    destruct (Z.leb_spec 0 (y - da_addr k)), (Z.ltb_spec (y - da_addr k) (Z.of_nat (nb * nK dims * 2))); cbn [andb]; try lia; reflexivity. }
  assert (Gt : forall b j c, b < nb -> j < nK dims -> c < 2 ->
     get (g_mem g) (da_addr k + Z.of_nat ((b * nK dims + j) * 2 + c))%Z = comp c (X b j)).
  { intros b j c Hb Hj Hc. pose proof (Ek b j Hb Hj) as E. rewrite (part_elem _ _ _ _ _ _ _ _ _ Pk Hb) in E.
    unfold elem, word_at in E. rewrite Ty in E. destruct E as [E0 E1]. cbn [width] in E0, E1.
    destruct c as [|[|c]]; [| |lia]; unfold get.
    - replace (da_addr k + Z.of_nat 2 * Z.of_nat (b * nK dims + j) + Z.of_nat 0)%Z
        with (da_addr k + Z.of_nat ((b * nK dims + j) * 2 + 0))%Z in E0 by lia. now rewrite E0.
    - replace (da_addr k + Z.of_nat 2 * Z.of_nat (b * nK dims + j) + Z.of_nat 1)%Z
        with (da_addr k + Z.of_nat ((b * nK dims + j) * 2 + 1))%Z in E1 by lia. now rewrite E1. }
  assert (E1 : forall i, i < nb * nR dims -> elem m1 r (Z.of_nat i) (RtoC (fftInverse dims (X (i / nR dims)) (i mod nR dims)))).
  { intros i Hi. destruct (block_split nb (nR dims) i Hnx Hi) as (B1 & B2 & B3).
    unfold elem, word_at. rewrite Tr. cbn [width]. split; [|reflexivity]. cbn [fst RtoC].
    replace (da_addr r + Z.of_nat 1 * Z.of_nat i + Z.of_nat 0)%Z with (da_addr r + Z.of_nat i)%Z by lia.
    unfold m1. replace (da_addr r + Z.of_nat i - da_addr r)%Z with (Z.of_nat i) by lia.
    destruct (Z.leb_spec 0 (Z.of_nat i)); [|lia].
    destruct (Z.ltb_spec (Z.of_nat i) (Z.of_nat (nb * nR dims))); [|lia]. cbn [andb]. rewrite Nat2Z.id.
    f_equal. apply inverse_ext. intros j Hj. pose proof (Gt (i / nR dims) j 0 B1 Hj ltac:(lia)) as G0.
    pose proof (Gt (i / nR dims) j 1 B1 Hj ltac:(lia)) as G1. rewrite Nat.add_0_r in G0.
    rewrite G0, G1. unfold comp. cbn [Nat.eqb]. now destruct (X (i / nR dims) j). }
  constructor; cbn [g_thr g_mem]; auto.
  - intros a La y Hy. destruct (Rw y) as [W|W].
    + unfold words in W. rewrite Tr, Cr in W. cbn [width] in W. specialize (E1 (Z.to_nat (y - da_addr r)) ltac:(lia)).
      unfold elem, word_at in E1. rewrite Tr in E1. destruct E1 as [E1 _]. cbn [width] in E1.
      replace (da_addr r + Z.of_nat 1 * Z.of_nat (Z.to_nat (y - da_addr r)) + Z.of_nat 0)%Z with y in E1 by lia.
      rewrite E1. discriminate.
    + destruct (Kw y) as [W'|W']; [rewrite M2 by assumption; discriminate|rewrite M1 by assumption; now apply (A2 a)].
  - intros a f i La Hf Hi. destruct (Hpost a f La Hf) as [(b & Hb' & -> & Q)|[Hne E]].
    + destruct (proj2 (proj2 Pr) b Hb') as ((_ & _ & Cb) & _). rewrite Cb in Hi.
      rewrite <- Q by lia. rewrite (part_elem _ _ _ _ _ _ _ _ _ Pr Hb').
      destruct (block_div b (nR dims) i ltac:(lia)) as [E1' E2']. specialize (E1 (b * nR dims + i) ltac:(nia)).
      now rewrite E1', E2' in E1.
    + apply (elem_word (g_mem g)); [|lia|now apply A3].
      intros y Hy. symmetry. apply M1; intros W.
      * destruct (parts_word _ _ _ _ _ _ Hnx Pr W) as (b & Hb' & W').
        destruct (proj2 (proj2 Pr) b Hb') as ((Lb & _) & _). destruct (Ow b Hb') as [Ow1 Ow2].
        apply (apart (rn b) a Lb Ow2 La) with (y := y); auto. intros E'. exact (proj1 (Hne b Hb') (eq_sym E')).
      * destruct (parts_word _ _ _ _ _ _ Hnk Pk W) as (b & Hb' & W').
        destruct (proj2 (proj2 Pk) b Hb') as ((Lb & _) & _). destruct (Ow b Hb') as [Ow1 Ow2].
        apply (apart (kn b) a Lb Ow1 La) with (y := y); auto. intros E'. exact (proj2 (Hne b Hb') (eq_sym E')).
  - intros y Hy. rewrite M1; [now apply A4| |]; intros W.
    + destruct (parts_word _ _ _ _ _ _ Hnx Pr W) as (b & Hb' & W').
      destruct (proj2 (proj2 Pr) b Hb') as ((Lb & _) & _). apply (Hy (rn b)); auto. now apply Ow.
    + destruct (parts_word _ _ _ _ _ _ Hnk Pk W) as (b & Hb' & W').
      destruct (proj2 (proj2 Pk) b Hb') as ((Lb & _) & _). apply (Hy (kn b)); auto. now apply Ow.
Qed.

(** ** Reductions *)

Lemma ok_readable : forall S g a n f, at_ S g -> ok Re n a -> S a = Rl f ->
  readable (g_mem g) (da_addr (L a)) n = true /\
  forall i, i < n -> get (g_mem g) (da_addr (L a) + Z.of_nat i)%Z = f i.
Proof.
  intros S g a n f [A1 A2 A3 A4] (La & Ta & Ca) Hf.
  assert (Q : forall i, i < n -> g_mem g (da_addr (L a) + Z.of_nat i)%Z = Val (f i)).
  { intros i Hi. pose proof (A3 a _ i La Hf ltac:(lia)) as E. unfold elem, word_at in E. rewrite Ta in E.
    cbn [width] in E. destruct E as [E _]. cbn [fst RtoC] in E.
    replace (da_addr (L a) + Z.of_nat 1 * Z.of_nat i + Z.of_nat 0)%Z with (da_addr (L a) + Z.of_nat i)%Z in E by lia. exact E. }
  split.
  - apply forallb_forall. intros i Hi. apply in_seq in Hi. now rewrite Q by lia.
  - intros i Hi. unfold get. now rewrite Q.
Qed.
Lemma run_sum : forall S g a n f, at_ S g -> ok Re n a -> S a = Rl f -> sumG (L a) g = Ok (rsum n f).
Proof.
  intros S g a n f Hg Ha Hf. destruct (ok_readable S g a n f Hg Ha Hf) as [R1 R2].
  unfold sumG. destruct Ha as (_ & _ & ->). rewrite Nat2Z.id, R1. f_equal. apply rsum_ext. intros i Hi. now apply R2.
Qed.
Lemma run_inner : forall S g a b n f h, at_ S g -> ok Re n a -> ok Re n b -> S a = Rl f -> S b = Rl h ->
  innerProductG (L a) (L b) g = Ok (rsum n (fun i => f i * h i)%R).
Proof.
  intros S g a b n f h Hg Ha Hb Hf Hh. destruct (ok_readable S g a n f Hg Ha Hf) as [R1 R2].
  destruct (ok_readable S g b n h Hg Hb Hh) as [R3 R4].
  unfold innerProductG. destruct Ha as (_ & _ & ->). destruct Hb as (_ & _ & ->).
  rewrite Z.eqb_refl. cbn [check bind]. rewrite Nat2Z.id, R1, R3. cbn [andb]. f_equal.
  apply rsum_ext. intros i Hi. now rewrite R2, R4.
Qed.

End Rep.
