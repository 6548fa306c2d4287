(** Blocks of a polymer: from the named arrays of one block (GpuBlockProofs.v) to
    the memory of all blocks. *)
From Coq Require Import Reals ZArith Lia Lra Bool Arith FunctionalExtensionality.
From Coquelicot Require Import Complex.
From Coq Require Import List.
From Verif Require Import Base RSum GpuThreads GpuGrid GpuKernel GpuWaveHost VecOp VecOpSpec VecOpKernel VecOpCall Polymer PolymerProofs
  Solve Species Fft R1d R1dProofs Rpc RpcProofs Stress GpuBlock GpuRep GpuBlockProofs GpuBlockRuns GpuPolymer GpuPolymerSpec.
Import ListNotations.
Local Open Scope nat_scope.

Lemma words_occupies : forall d y, words d y <-> occupies d y.
Proof. intros d y. unfold words, occupies. destruct (da_ty d); reflexivity. Qed.
Lemma allocated_present : forall m d, allocated m d <-> present m d.
Proof.
  intros m d. unfold allocated, present, occupies, word_at. split; intros H y Hy; apply H.
  - destruct (da_ty d); cbn [width]; lia.
  - destruct (da_ty d); cbn [width] in *; lia.
Qed.

(** Position of the array of a name among the arrays of a block *)
Definition home (model : polyModel) (a : nm) : nat :=
  match a with
  | N_expW => 0 | N_expKsq => 1 | N_expKsq2 => 2 | N_c => 3 | N_rTmp => 4
  | N_q p _ => if p then 6 else 5
  | N_expW2 | N_expWInv => 7
  | N_qr | N_qr2 | N_qkB => 8
  | N_qk | N_qk2 => 9
  | N_k p | N_kS p _ => (match model with Thread => 10 | Bead => 9 end) + (if p then 1 else 0)
  | N_in _ => 12
  end.

Section One.
Variables (dims : list Z) (model : polyModel) (batched : bool) (ns : nat) (B : garrays).
Notation arrs := (arraysOf dims model batched ns B).
Hypothesis Hsh : forall d t n, In (d, t, n) arrs -> shape d t n.

Lemma home_in : forall inp nIn a, liv nIn ns model batched a -> own a ->
  exists d t n, nth_error arrs (home model a) = Some (d, t, n) /\
    da_ty (lay dims B inp a) = typ a /\ da_cap (lay dims B inp a) = Z.of_nat (size dims a) /\
    forall y, words (lay dims B inp a) y -> occupies d y.
Proof.
  intros inp nIn a La Oa.
  assert (W : forall d t n, In (d, t, n) arrs -> forall b k, (b + k <= n)%nat -> forall y, words (sub d b k) y -> occupies d y).
  { intros d t n I b k Hbk y. destruct (Hsh d t n I) as [T C]. unfold words, occupies, sub. cbn [da_addr da_ty da_cap].
    rewrite T, C. destruct t; cbn [width]; lia. }
  assert (P : forall d t n, nth_error arrs (home model a) = Some (d, t, n) -> lay dims B inp a = d -> t = typ a -> n = size dims a ->
    exists d t n, nth_error arrs (home model a) = Some (d, t, n) /\
    da_ty (lay dims B inp a) = typ a /\ da_cap (lay dims B inp a) = Z.of_nat (size dims a) /\
    forall y, words (lay dims B inp a) y -> occupies d y).
  { intros d t n E L T C. exists d, t, n. split; [exact E|]. rewrite L.
    destruct (Hsh d t n (nth_error_In _ _ E)) as [T' C']. rewrite T', C', T, C. split; [reflexivity|]. split; [reflexivity|]. intros y. apply words_occupies. }
  assert (Q : forall d t n b, nth_error arrs (home model a) = Some (d, t, n) -> lay dims B inp a = sub d b (size dims a) ->
    t = typ a -> b + size dims a <= n ->
    exists d t n, nth_error arrs (home model a) = Some (d, t, n) /\
    da_ty (lay dims B inp a) = typ a /\ da_cap (lay dims B inp a) = Z.of_nat (size dims a) /\
    forall y, words (lay dims B inp a) y -> occupies d y).
  { intros d t n b E L T C. exists d, t, n. split; [exact E|]. rewrite L.
    destruct (Hsh d t n (nth_error_In _ _ E)) as [T' C']. cbn [sub da_ty da_cap]. rewrite T', T. split; [reflexivity|]. split; [reflexivity|].
    apply (W d t n (nth_error_In _ _ E)), C. }
  destruct a as [| | | | | | | | | | | |p|p j|p j|i]; try destruct Oa; cbn in La; try (destruct model; try contradiction; []);
    try (eapply P; cbn; reflexivity).
  - apply (Q (a_qrPair B) Re (2 * nR dims) 0); cbn; auto; lia.
  - apply (Q (a_qrPair B) Re (2 * nR dims) (nR dims)); cbn; auto; lia.
  - apply (Q (a_qkPair B) Co (2 * nK dims) 0); cbn; auto; lia.
  - apply (Q (a_qkPair B) Co (2 * nK dims) (nK dims)); cbn; auto; lia.
  - unfold arraysOf in *. destruct model, p; eapply P; try (rewrite La; cbn; reflexivity); reflexivity.
  - destruct La as [La Hj]. apply (Q (kBatched B p) Co (ns * nK dims) (j * nK dims)); try reflexivity.
    + unfold arraysOf. rewrite La. destruct model, p; reflexivity.
    + cbn [size]. nia.
  - apply (Q (qAll B p) Re (ns * nR dims) (j * nR dims)); try reflexivity.
    + destruct p; reflexivity.
    + cbn [size]. nia.
Qed.

(** Names of the same array *)
Lemma same_home : forall inp nIn a b, liv nIn ns model batched a -> own a -> liv nIn ns model batched b -> own b -> a <> b ->
  home model a = home model b -> forall y, words (lay dims B inp a) y -> ~ words (lay dims B inp b) y.
Proof.
  intros inp nIn a b La Oa Lb Ob Hab Hh y.
  assert (Z1 : forall d k k' n, k <> k' -> words (sub d (k * n) n) y -> ~ words (sub d (k' * n) n) y).
  { intros d k k' n Hk. unfold words, sub. cbn [da_addr da_ty da_cap]. destruct (da_ty d); cbn [width]; nia. }
  destruct a as [| | | | | | | | | | | |p|p j|p j|i]; destruct b as [| | | | | | | | | | | |p'|p' j'|p' j'|i']; try (now elim Hab);
    try contradiction; cbn [home] in Hh; try discriminate Hh; cbn [liv] in La, Lb;
    try (exfalso; revert Hh; destruct model; try contradiction; try (destruct p); try (destruct p'); try contradiction; cbn; discriminate);
    try (exfalso; unfold isThread, isBead in *; destruct model; contradiction); cbn [lay].
  - pose proof (Z1 (a_qrPair B) 0 1 (nx dims) ltac:(lia)) as Z. rewrite Nat.mul_0_l, Nat.mul_1_l in Z. exact Z.
  - pose proof (Z1 (a_qrPair B) 1 0 (nx dims) ltac:(lia)) as Z. rewrite Nat.mul_0_l, Nat.mul_1_l in Z. exact Z.
  - pose proof (Z1 (a_qkPair B) 0 1 (kSize dims) ltac:(lia)) as Z. rewrite Nat.mul_0_l, Nat.mul_1_l in Z. exact Z.
  - pose proof (Z1 (a_qkPair B) 1 0 (kSize dims) ltac:(lia)) as Z. rewrite Nat.mul_0_l, Nat.mul_1_l in Z. exact Z.
  - destruct Lb as [Lb _]. congruence.
  - destruct La as [La _]. congruence.
  - assert (p = p') as <- by (destruct p, p', model; cbn in Hh; congruence). apply (Z1 (kBatched B p) j j'). congruence.
  - assert (p = p') as <- by (destruct p, p'; cbn in Hh; congruence). apply (Z1 (qAll B p) j j'). congruence.
Qed.
End One.

Section Poly.
Variables (dev : device) (sched : nat -> vop -> nat -> nat -> list nat) (dims : list Z).
Hypothesis Hfair : forall t o, fair o (sched t o).
Hypothesis Hnx : 0 < nR dims.
Hypothesis Hnk : 0 < nK dims.
Variables (model : polyModel) (batched : bool) (dsTarget : R) (bs : list pblock).
Variables (arr : nat -> garrays) (wD : nat -> darr) (kSqD : darr) (dKSqD : nat -> darr) (nParams : nat).
Variables (es : list edge) (vs : list vertex).
Notation nB := (length es).
Notation ns := (pNs model dsTarget bs).
Notation mon b := (pb_monomer (pblockAt bs b)).
Hypothesis Hns : forall b, b < nB -> 3 <= ns b.
Variable mi : memory.
Hypothesis Hlo : layout dims model batched nB ns arr (inputs dims bs nB wD kSqD dKSqD nParams) mi.
Variables (w : nat -> field) (kSq : nat -> R) (dKSq : nat -> nat -> R).
Hypothesis Hw : forall b, b < nB -> holdsR mi (wD (mon b)) (w (mon b)).
Hypothesis Hk : holdsR mi kSqD kSq.
Hypothesis Hd : forall n, n < nParams -> holdsR mi (dKSqD n) (dKSq n).

Definition noIn : nat -> darr := fun _ => kSqD.
Definition lo (b : nat) (a : nm) : darr := lay dims (arr b) noIn a.
Definition lv (b : nat) : nm -> Prop := liv 0 (ns b) model batched.

Lemma lay_own : forall B inp inp' a, own a -> lay dims B inp a = lay dims B inp' a.
Proof. intros B inp inp' [] H; reflexivity || destruct H. Qed.
Lemma liv_own : forall n n' k a, own a -> liv n k model batched a -> liv n' k model batched a.
Proof. intros n n' k [] H; try exact (fun x => x). destruct H. Qed.

Lemma Hsh : forall b, b < nB -> forall d t n, In (d, t, n) (arraysOf dims model batched (ns b) (arr b)) -> shape d t n.
Proof. intros b Hb d t n. now apply (lo_shape _ _ _ _ _ _ _ _ Hlo). Qed.

Lemma ty_ : forall b inp nIn, b < nB -> forall a, liv nIn (ns b) model batched a -> own a ->
  da_ty (lay dims (arr b) inp a) = typ a /\ da_cap (lay dims (arr b) inp a) = Z.of_nat (size dims a).
Proof.
  intros b inp nIn Hb a La Oa. destruct (home_in dims model batched (ns b) (arr b) (Hsh b Hb) inp nIn a La Oa) as (d & t & n & _ & T & C & _).
  auto.
Qed.

Lemma apart_ : forall b b' a a', b < nB -> b' < nB -> lv b a -> own a -> lv b' a' -> own a' -> b <> b' \/ a <> a' ->
  forall y, words (lo b a) y -> ~ words (lo b' a') y.
Proof.
  intros b b' a a' Hb Hb' La Oa La' Oa' Hne y Hy Hy'.
  destruct (home_in _ _ _ _ _ (Hsh b Hb) noIn 0 a La Oa) as (d & t & n & E & _ & _ & W).
  destruct (home_in _ _ _ _ _ (Hsh b' Hb') noIn 0 a' La' Oa') as (d' & t' & n' & E' & _ & _ & W').
  destruct (Nat.eq_dec b b') as [<-|Nb]; [destruct (Nat.eq_dec (home model a) (home model a')) as [Eh|Nh]|].
  - apply (same_home dims model batched (ns b) (arr b) (Hsh b Hb) noIn 0 a a' La Oa La' Oa' ltac:(destruct Hne; auto; contradiction) Eh y Hy Hy').
  - apply (lo_apart _ _ _ _ _ _ _ _ Hlo b b (home model a) (home model a') _ _ Hb Hb E E' (or_intror Nh) y (W y Hy) (W' y Hy')).
  - apply (lo_apart _ _ _ _ _ _ _ _ Hlo b b' (home model a) (home model a') _ _ Hb Hb' E E' (or_introl Nb) y (W y Hy) (W' y Hy')).
Qed.

Lemma input_apart : forall d n b a, inputs dims bs nB wD kSqD dKSqD nParams d n -> b < nB -> lv b a -> own a ->
  forall y, words (lo b a) y -> ~ words d y.
Proof.
  intros d n b a Hi Hb La Oa y Hy Hy'.
  destruct (home_in _ _ _ _ _ (Hsh b Hb) noIn 0 a La Oa) as (d' & t & n' & E & _ & _ & W).
  destruct (lo_input _ _ _ _ _ _ _ _ Hlo d n Hi) as (_ & _ & D).
  apply (D b d' t n' Hb (nth_error_In _ _ E) y (W y Hy)). now apply words_occupies.
Qed.

(** ** Memory of all blocks *)

Record mok (Sd : nat -> contents nm) (g : gstate) : Prop := Mok {
  mo_thr : ready dev (g_thr g);
  mo_alloc : forall b a, b < nB -> lv b a -> own a -> allocated (g_mem g) (lo b a);
  mo_elem : forall b a f i, b < nB -> lv b a -> own a -> Sd b a = Some f -> (Z.of_nat i < da_cap (lo b a))%Z ->
    elem (g_mem g) (lo b a) (Z.of_nat i) (f i);
  mo_frame : forall y, (forall b a, b < nB -> lv b a -> own a -> ~ words (lo b a) y) -> g_mem g y = mi y }.

Definition tailName (x : dart) : nm := N_q (snd x) (ns (fst x) - 1).
Definition inpB (b : nat) (tl : list dart) (i : nat) : darr :=
  match i with
  | 0 => wD (mon b)
  | 1 => kSqD
  | S (S k) => if k <? nParams then dKSqD k
               else match nth_error tl (k - nParams) with Some x => lo (fst x) (tailName x) | None => kSqD end
  end.
Definition nIn (tl : list dart) : nat := 2 + nParams + length tl.
Definition full (S : contents nm) (b : nat) (tl : list dart) (tf : dart -> field) : contents nm := fun a =>
  match a with
  | N_in 0 => Rl (w (mon b))
  | N_in 1 => Rl kSq
  | N_in (S (S k)) => if k <? nParams then Rl (dKSq k)
                      else match nth_error tl (k - nParams) with Some x => Rl (tf x) | None => None end
  | _ => S a
  end.
Definition goodTails (Sd : nat -> contents nm) (b : nat) (tl : list dart) (tf : dart -> field) : Prop :=
  forall x, In x tl -> fst x < nB /\ fst x <> b /\ Sd (fst x) (tailName x) = Rl (tf x).

Lemma tail_live : forall x, fst x < nB -> lv (fst x) (tailName x) /\ own (tailName x).
Proof. intros x Hx. split; [|exact I]. cbn. pose proof (Hns (fst x) Hx). lia. Qed.

Definition wInput (b : nat) (Hb : b < nB) : inputs dims bs nB wD kSqD dKSqD nParams (wD (mon b)) (nR dims) :=
  or_introl (ex_intro _ b (conj Hb (conj eq_refl eq_refl))).
Definition kInput : inputs dims bs nB wD kSqD dKSqD nParams kSqD (nK dims) := or_intror (or_introl (conj eq_refl eq_refl)).
Definition dInput (k : nat) (H : k < nParams) : inputs dims bs nB wD kSqD dKSqD nParams (dKSqD k) (nK dims) :=
  or_intror (or_intror (ex_intro _ k (conj H (conj eq_refl eq_refl)))).

Lemma in_shape : forall b tl i, b < nB -> (forall x, In x tl -> fst x < nB) -> i < nIn tl ->
  da_ty (inpB b tl i) = Re /\
  da_cap (inpB b tl i) = Z.of_nat (match i with 0 => nR dims | S (S k) => if k <? nParams then nK dims else nR dims | _ => nK dims end).
Proof.
  intros b tl i Hb Ht Hi. destruct i as [|[|k]]; cbn [inpB].
  - apply (proj1 (lo_input _ _ _ _ _ _ _ _ Hlo _ _ (wInput b Hb))).
  - apply (proj1 (lo_input _ _ _ _ _ _ _ _ Hlo _ _ kInput)).
  - destruct (Nat.ltb_spec k nParams) as [Hk'|Hk'].
    + apply (proj1 (lo_input _ _ _ _ _ _ _ _ Hlo _ _ (dInput k Hk'))).
    + destruct (nth_error tl (k - nParams)) as [x|] eqn:E.
      * pose proof (Ht x (nth_error_In _ _ E)) as Hx. destruct (tail_live x Hx).
        apply (ty_ (fst x) noIn 0 Hx (tailName x)); auto.
      * apply nth_error_None in E. unfold nIn in Hi. lia.
Qed.

Lemma ap_ : forall b tl, b < nB -> (forall x, In x tl -> fst x < nB /\ fst x <> b) ->
  forall a a', liv (nIn tl) (ns b) model batched a -> own a -> liv (nIn tl) (ns b) model batched a' -> a <> a' ->
  forall y, words (lay dims (arr b) (inpB b tl) a) y -> ~ words (lay dims (arr b) (inpB b tl) a') y.
Proof.
  intros b tl Hb Ht a a' La Oa La' Hne y. rewrite (lay_own _ _ noIn) by exact Oa.
  pose proof (liv_own _ 0 _ a Oa La) as La0. fold (lo b a).
  assert (C : own a' \/ exists i, a' = N_in i) by (destruct a'; [left; exact I..|right; eauto]).
  destruct C as [Oa'|[i ->]].
  - rewrite (lay_own _ _ noIn) by exact Oa'. apply apart_; auto. now apply (liv_own (nIn tl)).
  - cbn [lay]. cbn in La'. destruct i as [|[|k]]; cbn [inpB].
    + apply (input_apart _ _ b a (wInput b Hb)); auto.
    + apply (input_apart _ _ b a kInput); auto.
    + destruct (Nat.ltb_spec k nParams) as [Hk'|Hk']; [apply (input_apart _ _ b a (dInput k Hk')); auto|].
      destruct (nth_error tl (k - nParams)) as [x|] eqn:E.
      * destruct (Ht x (nth_error_In _ _ E)) as [Hx Hxb]. destruct (tail_live x Hx). apply apart_; auto.
      * apply (input_apart _ _ b a kInput); auto.
Qed.

Lemma elem_real : forall m d j f, da_ty d = Re -> holdsR m d f -> (Z.of_nat j < da_cap d)%Z ->
  elem m d (Z.of_nat j) (RtoC (f j)).
Proof.
  intros m d j f T H Hj. unfold elem. rewrite T. cbn [fst snd RtoC]. split; [|reflexivity]. rewrite <- (H j Hj). f_equal.
  unfold word_at. rewrite T. cbn [width]. lia.
Qed.

Lemma in_mem : forall Sd g d n, mok Sd g -> inputs dims bs nB wD kSqD dKSqD nParams d n ->
  allocated (g_mem g) d /\ forall f, holdsR mi d f -> holdsR (g_mem g) d f.
Proof.
  intros Sd g d n [_ _ _ F] Hi.
  assert (E : forall y, words d y -> g_mem g y = mi y).
  { intros y Hy. apply F. intros b a Hb La Oa Hy'. exact (input_apart d n b a Hi Hb La Oa y Hy' Hy). }
  destruct (lo_input _ _ _ _ _ _ _ _ Hlo d n Hi) as ([T C] & P & _). split.
  - apply allocated_present. intros y Hy. rewrite E by now apply words_occupies. now apply P.
  - intros f H j Hj. rewrite E; [now apply H|]. unfold words. rewrite T. cbn [width]. lia.
Qed.

Lemma enter : forall Sd g b tl tf, b < nB -> mok Sd g -> goodTails Sd b tl tf ->
  at_ dev nm (lay dims (arr b) (inpB b tl)) (liv (nIn tl) (ns b) model batched) own (g_mem g) (full (Sd b) b tl tf) g.
Proof.
  intros Sd g b tl tf Hb M Ht.
  constructor; [apply M| | |reflexivity].
  - intros a La. assert (C : own a \/ exists i, a = N_in i) by (destruct a; [left; exact I..|right; eauto]).
    destruct C as [Oa|[i ->]].
    + rewrite (lay_own _ _ noIn) by exact Oa. apply M; auto. now apply (liv_own (nIn tl)).
    + cbn [lay]. cbn in La. destruct i as [|[|k]]; cbn [inpB].
      * apply (in_mem Sd g _ _ M (wInput b Hb)).
      * apply (in_mem Sd g _ _ M kInput).
      * destruct (Nat.ltb_spec k nParams) as [Hk'|Hk']; [apply (in_mem Sd g _ _ M (dInput k Hk'))|].
        destruct (nth_error tl (k - nParams)) as [x|] eqn:E; [|apply (in_mem Sd g _ _ M kInput)].
        destruct (Ht x (nth_error_In _ _ E)) as (Hx & _). destruct (tail_live x Hx). apply M; auto.
  - intros a f i La E Hi. assert (C : own a \/ exists i, a = N_in i) by (destruct a; [left; exact I..|right; eauto]).
    destruct C as [Oa|[k ->]].
    + rewrite (lay_own _ _ noIn) in * by exact Oa. apply (mo_elem _ _ M b a f i); auto; [now apply (liv_own (nIn tl))|].
      destruct a; try exact E. destruct Oa.
    + cbn [lay] in *. cbn in La. assert (T : da_ty (inpB b tl k) = Re) by (apply in_shape; auto; intros x Hx; now apply Ht).
      destruct k as [|[|k]]; cbn [inpB full] in *.
      * injection E as <-. apply elem_real; auto. apply (in_mem Sd g _ _ M (wInput b Hb)); auto.
      * injection E as <-. apply elem_real; auto. apply (in_mem Sd g _ _ M kInput); auto.
      * destruct (Nat.ltb_spec k nParams) as [Hk'|Hk'].
        { injection E as <-. apply elem_real; auto. apply (in_mem Sd g _ _ M (dInput k Hk')); auto. }
        destruct (nth_error tl (k - nParams)) as [x|] eqn:E'; [|discriminate E].
        destruct (Ht x (nth_error_In _ _ E')) as (Hx & _ & Ex). destruct (tail_live x Hx).
        apply (mo_elem _ _ M (fst x) (tailName x)); auto. now rewrite Ex, <- E.
Qed.

Definition set_b (Sd : nat -> contents nm) (b : nat) (S : contents nm) : nat -> contents nm :=
  fun b' => if b' =? b then S else Sd b'.

Lemma leave : forall Sd g g' b tl S', b < nB -> mok Sd g ->
  at_ dev nm (lay dims (arr b) (inpB b tl)) (liv (nIn tl) (ns b) model batched) own (g_mem g) S' g' ->
  mok (set_b Sd b S') g'.
Proof.
  intros Sd g g' b tl S' Hb M [A1 A2 A3 A4].
  assert (Out : forall y, (forall a, lv b a -> own a -> ~ words (lo b a) y) -> g_mem g' y = g_mem g y).
  { intros y H. apply A4. intros a La Oa. rewrite (lay_own _ _ noIn) by exact Oa. apply H; auto. now apply (liv_own (nIn tl)). }
  constructor; [exact A1| | |].
  - intros b' a Hb' La Oa. destruct (Nat.eq_dec b' b) as [->|Hne].
    + unfold lo. rewrite (lay_own _ _ (inpB b tl)) by exact Oa. apply A2. now apply (liv_own 0).
    + intros y Hy. rewrite Out; [exact (mo_alloc _ _ M b' a Hb' La Oa y Hy)|].
      intros a' La' Oa' Hy'. apply (apart_ b b' a' a Hb Hb' La' Oa' La Oa (or_introl (not_eq_sym Hne)) y Hy').
      unfold words. unfold word_at in Hy. lia.
  - intros b' a f i Hb' La Oa E Hi. unfold set_b in E. destruct (Nat.eqb_spec b' b) as [->|Hne].
    + unfold lo in *. rewrite (lay_own _ _ (inpB b tl)) in * by exact Oa. apply A3; auto. now apply (liv_own 0).
    + apply (elem_word (g_mem g)); [|lia|apply (mo_elem _ _ M); auto].
      intros y Hy. symmetry. apply Out. intros a' La' Oa' Hy'.
      exact (apart_ b b' a' a Hb Hb' La' Oa' La Oa (or_introl (not_eq_sym Hne)) y Hy' Hy).
  - intros y H. rewrite Out; [apply M; exact H|]. intros a La Oa. now apply H.
Qed.

Lemma mok_weak : forall Sd Sd' g, mok Sd g -> (forall b, b < nB -> below nm (lo b) (lv b) (fun a => match a with N_in _ => None | _ => Sd' b a end) (Sd b)) -> mok Sd' g.
Proof.
  intros Sd Sd' g [M1 M2 M3 M4] H. constructor; auto.
  intros b a f i Hb La Oa E Hi. destruct (H b Hb a f La) as (f0 & E0 & Q).
  - destruct a; try exact E. destruct Oa.
  - rewrite <- Q by exact Hi. now apply M3.
Qed.

Lemma pr_ : forall b, b < nB -> isThread model ->
  (da_ty (a_qrPair (arr b)) = Re /\ da_cap (a_qrPair (arr b)) = Z.of_nat (2 * nR dims)) /\
  (da_ty (a_qkPair (arr b)) = Co /\ da_cap (a_qkPair (arr b)) = Z.of_nat (2 * nK dims)).
Proof.
  intros b Hb HT. assert (Em : model = Thread) by (revert HT; unfold isThread; generalize model; intros []; [reflexivity|contradiction]).
  split; apply (Hsh b Hb); unfold arraysOf; rewrite Em; cbn; tauto.
Qed.
Lemma all_ : forall b, b < nB -> batched = true -> forall p,
  (da_ty (qAll (arr b) p) = Re /\ da_cap (qAll (arr b) p) = Z.of_nat (ns b * nR dims)) /\
  (da_ty (kBatched (arr b) p) = Co /\ da_cap (kBatched (arr b) p) = Z.of_nat (ns b * nK dims)).
Proof.
  intros b Hb Eb p. split.
  - apply (Hsh b Hb). unfold arraysOf. destruct p; cbn; tauto.
  - apply (Hsh b Hb). unfold arraysOf. rewrite Eb. apply in_or_app. right. apply in_or_app. right. destruct p; cbn; tauto.
Qed.


Lemma aok : forall b tl, b < nB -> (forall x, In x tl -> fst x < nB /\ fst x <> b) ->
  arrays_ok dims (arr b) (inpB b tl) (nIn tl) (ns b) batched model.
Proof.
  intros b tl Hb Ht. split; [apply ty_; exact Hb|]. split; [apply ap_; assumption|].
  split; intros HT; apply (pr_ b Hb HT).
Qed.

Lemma step : forall Sd b tl tf c S', b < nB -> goodTails Sd b tl tf ->
  (forall m0, runs dev nm (lay dims (arr b) (inpB b tl)) (liv (nIn tl) (ns b) model batched) own m0 (full (Sd b) b tl tf) c S') ->
  forall g, mok Sd g -> exists g', c g = Ok g' /\ mok (set_b Sd b S') g'.
Proof.
  intros Sd b tl tf c S' Hb Ht R g M. destruct (R (g_mem g) g (enter Sd g b tl tf Hb M Ht)) as (g' & E & A).
  exists g'. split; [exact E|]. now apply (leave Sd g g' b tl).
Qed.

Lemma forG_inv : forall (T : Type) (P : nat -> T -> Prop) f n from g,
  (forall k g, from <= k < from + n -> P k g -> exists g', f k g = Ok g' /\ P (S k) g') ->
  P from g -> exists g', forG n from f g = Ok g' /\ P (from + n) g'.
Proof.
  intros T P f n. induction n as [|n IH]; intros from g H Hg.
  - exists g. rewrite Nat.add_0_r. auto.
  - cbn [forG]. destruct (H from g ltac:(lia) Hg) as (g1 & E1 & H1). rewrite E1. cbn [bind].
    replace (from + S n) with (S from + n) by lia. apply IH; [|exact H1]. intros k g2 Hk'. apply H. lia.
Qed.

(** ** What is known of the arrays *)

Notation ds_ b := (pDs model dsTarget bs b).
Notation kuhn_ b := (pb_kuhn (pblockAt bs b)).
Definition upto (x : dart) : nat := S (lastSlice (ns (fst x)) model (isTailEnd es vs x)).

Definition desc (J : nat -> contents nm) (st : props) (c : nat -> option field) (b : nat) : contents nm := fun a =>
  match a with
  | N_expW => Rl (expW model (ds_ b) (w (mon b)))
  | N_expW2 => Rl (expW2 (ds_ b) (w (mon b)))
  | N_expWInv => Rl (expWInv (w (mon b)))
  | N_expKsq => Rl (expKsq kSq model (kuhn_ b) (ds_ b))
  | N_expKsq2 => Rl (expKsq2 kSq model (kuhn_ b) (ds_ b))
  | N_q p j => match st (b, p) with Some l => if j <? upto (b, p) then Rl (qAt l j) else J b a | None => J b a end
  | N_c => match c b with Some f => Rl f | None => None end
  | _ => None
  end.
Definition init (has : nat -> bool) (J : nat -> contents nm) (b : nat) : contents nm := fun a =>
  match a with
  | N_expKsq => if has b then Rl (expKsq kSq model (kuhn_ b) (ds_ b)) else None
  | N_expKsq2 => if has b then Rl (expKsq2 kSq model (kuhn_ b) (ds_ b)) else None
  | N_q p j => J b a
  | _ => None
  end.
Definition noSt : props := fun _ => None.
Definition noC : nat -> option field := fun _ => None.

Lemma no_tails : forall Sd b tf, goodTails Sd b [] tf.
Proof. intros Sd b tf x []. Qed.
Lemma ok_in : forall b tl i, b < nB -> (forall x, In x tl -> fst x < nB) -> i < nIn tl ->
  ok nm (lay dims (arr b) (inpB b tl)) (liv (nIn tl) (ns b) model batched) Re
    (match i with 0 => nR dims | S (S k) => if k <? nParams then nK dims else nR dims | _ => nK dims end) (N_in i).
Proof. intros b tl i Hb Ht Hi. split; [exact Hi|]. cbn [lay]. now apply in_shape. Qed.

Lemma gds : forall b, match model with Thread => ds_ b = gDs model dsTarget bs b | Bead => True end.
Proof. intros b. unfold gDs, pDs. generalize model. intros []; [reflexivity|exact I]. Qed.
Lemma expW_ds : forall b f, expW model (gDs model dsTarget bs b) f = expW model (ds_ b) f.
Proof. intros b f. unfold gDs, pDs. generalize model. intros []; reflexivity. Qed.
Lemma expW2_ds : forall b f, isThread model -> expW2 (gDs model dsTarget bs b) f = expW2 (ds_ b) f.
Proof. intros b f. unfold gDs, pDs. generalize model. intros []; [reflexivity|intros []]. Qed.

(** ** Setup *)

Lemma setup_all : forall has J g, mok (init has J) g ->
  exists g', forG nB 0 (setupSolverG dev sched model dsTarget bs arr wD kSqD has) g = Ok g' /\ mok (desc J noSt noC) g'.
Proof.
  intros has J g M.
  set (P := fun k g => mok (fun b => if b <? k then desc J noSt noC b else init has J b) g).
  destruct (forG_inv gstate P (setupSolverG dev sched model dsTarget bs arr wD kSqD has) nB 0 g) as (g' & E & H').
  - intros k g1 Hkr Hg1. assert (Hb : k < nB) by lia. unfold P in Hg1.
    set (Sd := fun b => if b <? k then desc J noSt noC b else init has J b) in *.
    assert (Ek : Sd k = init has J k) by (unfold Sd; now rewrite Nat.ltb_irrefl).
    pose proof (aok k [] Hb ltac:(intros x [])) as A.
    set (tf := fun _ : dart => zero_field).
    set (S1' := withFields model (gDs model dsTarget bs k) (w (mon k)) (full (Sd k) k [] tf)).
    set (S2 := if has k then S1' else withKsq model kSq (kuhn_ k) (ds_ k) S1').
    destruct (step Sd k [] tf (setupSolverG dev sched model dsTarget bs arr wD kSqD has k) S2 Hb (no_tails _ _ _)) with (g := g1)
      as (g2 & E2 & M2); [|exact Hg1|].
    + intros m0. unfold setupSolverG.
      apply (runs_bind dev nm _ _ own m0 _ _ S1').
      * apply (run_fields dev sched dims Hfair Hnx (arr k) (inpB k []) (nIn []) (ns k) batched m0 (Hns k Hb) model A _ (N_in 0)).
        -- apply (ok_in k [] 0 Hb); [intros x []|unfold nIn; lia].
        -- discriminate.
        -- reflexivity.
      * unfold S2. destruct (has k); [apply runs_ok|].
        apply (run_ksq dev sched dims Hfair Hnk (arr k) (inpB k []) (nIn []) (ns k) batched m0 model A S1' (N_in 1)).
        -- apply (ok_in k [] 1 Hb); [intros x []|unfold nIn; lia].
        -- discriminate.
        -- reflexivity.
        -- apply gds.
    + exists g2. split; [exact E2|]. apply (mok_weak _ _ _ M2). intros b Hb' a f La Ea. exists f. split; [|auto].
      unfold set_b. destruct (Nat.eqb_spec b k) as [->|Hne].
      * rewrite (proj2 (Nat.ltb_lt k (S k)) ltac:(lia)) in Ea. rewrite <- Ea. unfold S2, S1', withFields, withKsq, full. rewrite Ek.
        destruct a; cbn [desc init noSt noC]; try discriminate Ea; try reflexivity;
          try (unfold init; destruct (has k); reflexivity);
          try (destruct (has k); rewrite ?expW_ds, ?expW2_ds by exact La; reflexivity).
      * unfold Sd. replace (b <? k) with (b <? S k); [destruct a; try discriminate Ea; exact Ea|].
        destruct (Nat.ltb_spec b (S k)), (Nat.ltb_spec b k); auto; lia.
  - unfold P. apply (mok_weak _ _ _ M). intros b Hb a f La Ea. exists f. split; [|auto]. destruct a; try discriminate Ea; exact Ea.
  - exists g'. split; [exact E|]. unfold P in H'. apply (mok_weak _ _ _ H'). intros b Hb a f La Ea. exists f. split; [|auto].
    cbn [Nat.add]. rewrite (proj2 (Nat.ltb_lt b nB) Hb). destruct a; try discriminate Ea; exact Ea.
Qed.

(** ** Propagators *)

Lemma slices_eq : forall b he te h, rpcSlices model dims kSq dsTarget bs w b he te h =
  slicesOf dims (ns b) model kSq (kuhn_ b) (ds_ b) (w (mon b)) he te h.
Proof.
  intros b he te h. unfold rpcSlices, slicesOf, wOf, pNs, pDs. generalize model. intros []; [reflexivity|].
  replace (pb_nBead (pblockAt bs b) + 2 - 2) with (pb_nBead (pblockAt bs b)) by lia. reflexivity.
Qed.
Lemma slices_length : forall b he te h, b < nB -> length (rpcSlices model dims kSq dsTarget bs w b he te h) = ns b.
Proof.
  intros b he te h Hb. pose proof (Hns b Hb) as H3. revert H3. unfold rpcSlices, pNs. generalize model. intros [] H3.
  - apply iterSlices_length.
  - unfold beadSlices. destruct (pb_nBead (pblockAt bs b)); [lia|]. cbn [length]. rewrite app_length, iterSlices_length. cbn [length]. lia.
Qed.

Definition good (st : props) : Prop := forall x l, st x = Some l -> fst x < nB /\ length l = ns (fst x).
Definition tf_ (st : props) (x : dart) : field := match st x with Some l => last l zero_field | None => zero_field end.

Lemma tail_known : forall J st c x l, good st -> st x = Some l -> rpcTailOk model (isTailEnd es vs x) = true ->
  desc J st c (fst x) (tailName x) = Rl (tf_ st x).
Proof.
  intros J st c [b p] l G E T. destruct (G _ _ E) as [Hb Hl]. cbn [fst snd] in *. unfold tailName, tf_. cbn [desc fst snd]. rewrite E.
  pose proof (Hns b Hb).
  assert (U : (ns b - 1 <? upto (b, p)) = true).
  { apply Nat.ltb_lt. unfold upto, lastSlice. cbn [fst]. revert T. unfold rpcTailOk. generalize (ns b) (isTailEnd es vs (b, p)). clear.
    generalize model. intros [] n []; cbn; intros; try discriminate; lia. }
  rewrite U, last_nth, Hl. reflexivity.
Qed.

Lemma tails_run : forall st sv l qh, (forall x, sv x = isSolved st x) ->
  match headLoop (rpcTailOk model) es vs st l qh with
  | Ok h => tailsG dims model dsTarget bs arr es vs sv l = Ok (map (fun x => lo (fst x) (tailName x)) l) /\
            (forall x, In x l -> exists lx, st x = Some lx /\ rpcTailOk model (isTailEnd es vs x) = true) /\
            (forall i, h i = fold_left Rmult (map (fun x => tf_ st x i) l) (qh i))
  | Throw => tailsG dims model dsTarget bs arr es vs sv l = Throw
  | _ => False
  end.
Proof.
  intros st sv l qh Hs. revert qh. induction l as [|x l IH]; intros qh.
  - cbn. split; [reflexivity|]. split; [intros x []|reflexivity].
  - cbn [headLoop tailsG tailOf]. unfold tailOf. rewrite Hs. unfold isSolved at 1 2. destruct (st x) as [lx|] eqn:Ex; [|reflexivity].
    assert (TG : tailG dims (arr (fst x)) model (snd x) (gNs model dsTarget bs (fst x)) (isTailEnd es vs x) =
                 if rpcTailOk model (isTailEnd es vs x) then Ok (lo (fst x) (tailName x)) else Throw).
    { unfold tailG, rpcTailOk, gNs, lo, tailName. cbn [lay].
      generalize (ns (fst x)). generalize model. intros [] n; [|destruct (isTailEnd es vs x)]; reflexivity. }
    destruct (rpcTailOk model (isTailEnd es vs x)) eqn:Et; rewrite TG; cbn [check bind]; [|reflexivity].
    specialize (IH (mul_field qh (last lx zero_field))).
    destruct (headLoop (rpcTailOk model) es vs st l (mul_field qh (last lx zero_field))) as [h| | |]; try contradiction.
    + destruct IH as (E1 & E2 & E3). rewrite E1. cbn [bind]. split; [reflexivity|]. split.
      * intros y [<-|Hy]; [eauto|]. now apply E2.
      * intros i. rewrite E3. cbn [map fold_left]. f_equal. unfold mul_field, tf_. now rewrite Ex.
    + now rewrite IH.
Qed.

Definition tailNames (n : nat) : list nm := map (fun k => N_in (2 + nParams + k)) (seq 0 n).

Lemma map_nth_error_seq : forall (X Y : Type) (F : option X -> Y) (l : list X),
  map (fun k => F (nth_error l k)) (seq 0 (length l)) = map (fun x => F (Some x)) l.
Proof.
  intros X Y F l. induction l as [|x l IH]; [reflexivity|]. cbn [length seq map nth_error]. f_equal.
  rewrite <- IH, <- seq_shift, map_map. reflexivity.
Qed.
Lemma tails_lay : forall b tl, map (lay dims (arr b) (inpB b tl)) (tailNames (length tl)) = map (fun x => lo (fst x) (tailName x)) tl.
Proof.
  intros b tl. unfold tailNames. rewrite map_map.
  rewrite <- (map_nth_error_seq dart darr (fun o => match o with Some x => lo (fst x) (tailName x) | None => kSqD end) tl).
  apply map_ext. intros k. cbn [lay inpB Nat.add]. rewrite (proj2 (Nat.ltb_ge (nParams + k) nParams)) by lia.
  now replace (nParams + k - nParams) with k by lia.
Qed.
Lemma tails_contents : forall S b tl tf, Forall2 (fun t f => full S b tl tf t = Rl f) (tailNames (length tl)) (map tf tl).
Proof.
  intros S b tl tf. unfold tailNames.
  assert (G : forall l n0, (forall k x, nth_error l k = Some x -> full S b tl tf (N_in (n0 + k)) = Rl (tf x)) ->
    Forall2 (fun t f => full S b tl tf t = Rl f) (map (fun k => N_in (n0 + k)) (seq 0 (length l))) (map tf l)).
  { induction l as [|x l IH]; intros n0 H; cbn; constructor.
    - apply (H 0). reflexivity.
    - rewrite <- seq_shift, map_map.
      rewrite (map_ext (fun k => N_in (n0 + Datatypes.S k)) (fun k => N_in (Datatypes.S n0 + k))) by (intros k; f_equal; lia).
      apply IH. intros k y E. replace (Datatypes.S n0 + k) with (n0 + Datatypes.S k) by lia. now apply H. }
  apply G. intros k x E. cbn [full Nat.add]. rewrite (proj2 (Nat.ltb_ge (nParams + k) nParams)) by lia.
  replace (nParams + k - nParams) with k by lia. now rewrite E.
Qed.

Hypothesis Hval : forall x, fst x < nB -> isHeadEnd es vs x = true -> sources es vs x = [].

Lemma solve_one : forall J st u x, fst x < nB -> mok (desc J st noC) (fst u) -> (forall y, snd u y = isSolved st y) -> good st ->
  match solveProp (rpcSlices model dims kSq dsTarget bs w) (rpcTailOk model) true es vs st x with
  | Ok st' => exists u', solvePropG dev sched dims model dsTarget bs arr es vs x u = Ok u' /\
      mok (desc J st' noC) (fst u') /\ (forall y, snd u' y = isSolved st' y) /\ good st' /\
      (forall y, isSolved st' y = dart_eqb x y || isSolved st y)
  | Throw => solvePropG dev sched dims model dsTarget bs arr es vs x u = Throw
  | _ => False
  end.
Proof.
  intros J st u x Hx M Hs G. destruct u as [g sv]. cbn [fst snd] in *.
  unfold solveProp, solvePropG. cbn [fst snd].
  assert (CH : computeHead (rpcTailOk model) true es vs st x = headLoop (rpcTailOk model) es vs st (sources es vs x) one_field).
  { unfold computeHead. cbn [andb]. destruct (isHeadEnd es vs x) eqn:Eh; [|reflexivity]. now rewrite (Hval x Hx Eh). }
  rewrite CH. pose proof (tails_run st sv (sources es vs x) one_field Hs) as T.
  destruct (headLoop (rpcTailOk model) es vs st (sources es vs x) one_field) as [h| | |]; try contradiction; [|now rewrite T].
  destruct T as (E1 & E2 & E3). rewrite E1. cbn [bind].
  set (tl := sources es vs x) in *. set (b := fst x) in *.
  assert (Htl : forall y, In y tl -> fst y < nB /\ fst y <> b).
  { intros y Hy. destruct (E2 y Hy) as (ly & Ey & _). split; [now apply (G y ly)|].
    unfold tl, sources in Hy. apply filter_In in Hy. destruct Hy as [_ Hy]. apply negb_true_iff, Nat.eqb_neq in Hy. exact Hy. }
  assert (GT : goodTails (desc J st noC) b tl (tf_ st)).
  { intros y Hy. destruct (E2 y Hy) as (ly & Ey & Ty). destruct (Htl y Hy). split; [assumption|]. split; [assumption|].
    now apply (tail_known J st noC y ly). }
  set (l := rpcSlices model dims kSq dsTarget bs w b (isHeadEnd es vs x) (isTailEnd es vs x) h).
  destruct (step (desc J st noC) b tl (tf_ st)
    (solveG dev sched dims (arr b) model (snd x) (ns b) (isHeadEnd es vs x) (isTailEnd es vs x) (map (fun x => lo (fst x) (tailName x)) tl))
    (known (snd x) (qAt l) (lastSlice (ns b) model (isTailEnd es vs x)) (full (desc J st noC b) b tl (tf_ st))) Hx GT) with (g := g)
    as (g' & Eg & M'); [|exact M|].
  - intros m0. rewrite <- (tails_lay b tl). unfold l. rewrite slices_eq.
    apply (run_solve dev sched dims Hfair Hnx Hnk (arr b) (inpB b tl) (nIn tl) (ns b) batched m0 (Hns b Hx) model (aok b tl Hx Htl)
      _ kSq (kuhn_ b) (ds_ b) (w (mon b)) (snd x) _ _ (tailNames (length tl)) (map (tf_ st) tl) h); try reflexivity.
    + intros t Ht. unfold tailNames in Ht. apply in_map_iff in Ht. destruct Ht as (k & <- & Hk'). apply in_seq in Hk'. split; [|discriminate].
      pose proof (ok_in b tl (2 + nParams + k) Hx (fun y Hy => proj1 (Htl y Hy)) ltac:(unfold nIn; lia)) as O.
      cbn [Nat.add] in O. rewrite (proj2 (Nat.ltb_ge (nParams + k) nParams)) in O by lia. exact O.
    + apply tails_contents.
    + intros i _. rewrite E3. unfold prod_of, one_field. rewrite map_map. reflexivity.
  - unfold gNs. fold b. rewrite Eg. cbn [bind]. eexists. split; [reflexivity|]. cbn [fst snd]. split; [|split; [|split]].
    + apply (mok_weak _ _ _ M'). intros b' Hb' a f La Ea. exists f. split; [|auto]. unfold set_b, l in *. fold b in Ea. fold l in Ea |- *.
      destruct (Nat.eqb_spec b' b) as [->|Hne].
      * destruct a as [| | | | | | | | | | | |p|p j|p j|i]; try discriminate Ea; try exact Ea.
        cbn [desc known full] in Ea |- *. unfold set_prop in Ea.
        destruct (dart_eqb x (b, p)) eqn:Ed.
        -- apply dart_eqb_eq in Ed. assert (snd x = p) as Ep by (now rewrite Ed). rewrite Ep, eqb_reflx.
           assert (EU : upto (b, p) = S (lastSlice (ns b) model (isTailEnd es vs x))) by (unfold upto; cbn [fst]; now rewrite <- Ed).
           rewrite EU in Ea. set (m := lastSlice _ _ _) in *.
           destruct (Nat.ltb_spec j (S m)), (Nat.leb_spec j m); try lia; [exact Ea|].
           assert (UF : forall ll, st (b, p) = Some ll -> upto (b, p) = S m) by (intros; exact EU).
           destruct (st (b, p)) as [ll|] eqn:Est; [|exact Ea]. rewrite EU. destruct (Nat.ltb_spec j (S m)); [lia|exact Ea].
        -- assert (Np : Bool.eqb (snd x) p = false).
           { apply eqb_false_iff. intros Ep. assert (x = (b, p)) as Exx by (unfold b; rewrite <- Ep; now destruct x).
             apply dart_eqb_eq in Exx. congruence. }
           rewrite Np. exact Ea.
      * destruct a as [| | | | | | | | | | | |p|p j|p j|i]; try discriminate Ea; try exact Ea.
        cbn [desc] in Ea |- *. unfold set_prop in Ea. destruct (dart_eqb x (b', p)) eqn:Ed; [|exact Ea].
        apply dart_eqb_eq in Ed. elim Hne. unfold b. now rewrite Ed.
    + intros y. unfold isSolved, set_prop. rewrite Hs. unfold isSolved. destruct (dart_eqb x y); reflexivity.
    + intros y ly. unfold set_prop. destruct (dart_eqb x y) eqn:Ed; [|apply G].
      apply dart_eqb_eq in Ed. subst y. intros [= <-]. split; [exact Hx|]. now apply slices_length.
    + intros y. unfold isSolved, set_prop. destruct (dart_eqb x y); reflexivity.
Qed.

Lemma forallb_ext_ : forall (l : list dart) f h, (forall x, f x = h x) -> forallb f l = forallb h l.
Proof. intros l f h H. induction l as [|x l IH]; cbn; [reflexivity|]. now rewrite H, IH. Qed.

Lemma solve_loop : forall J plan st u, (forall x, In x plan -> fst x < nB) -> mok (desc J st noC) (fst u) ->
  (forall y, snd u y = isSolved st y) -> good st ->
  match solveLoop (rpcSlices model dims kSq dsTarget bs w) (rpcTailOk model) true es vs plan st with
  | Ok st' => exists u', solveLoopG dev sched dims model dsTarget bs arr es vs plan u = Ok u' /\
      mok (desc J st' noC) (fst u') /\ (forall y, snd u' y = isSolved st' y) /\ good st' /\
      (forall y, In y plan \/ isSolved st y = true -> isSolved st' y = true)
  | Throw => solveLoopG dev sched dims model dsTarget bs arr es vs plan u = Throw
  | _ => False
  end.
Proof.
  intros J plan. induction plan as [|x plan IH]; intros st u Hp M Hs G.
  - cbn. exists u. split; [reflexivity|]. split; [exact M|]. split; [exact Hs|]. split; [exact G|]. intros y [[]|Hy]. exact Hy.
  - cbn [solveLoop solveLoopG]. unfold isReady. rewrite (forallb_ext_ _ (snd u) (isSolved st) Hs).
    destruct (forallb (isSolved st) (sources es vs x)); cbn [check bind]; [|reflexivity].
    pose proof (solve_one J st u x (Hp x (or_introl eq_refl)) M Hs G) as S1.
    destruct (solveProp (rpcSlices model dims kSq dsTarget bs w) (rpcTailOk model) true es vs st x) as [st'| | |]; try contradiction.
    + destruct S1 as (u' & E & M' & Hs' & G' & N'). rewrite E. cbn [bind].
      specialize (IH st' u' (fun y Hy => Hp y (or_intror Hy)) M' Hs' G').
      destruct (solveLoop _ _ true es vs plan st') as [st2| | |]; try contradiction; [|exact IH].
      destruct IH as (u2 & E2 & M2 & Hs2 & G2 & N2). exists u2. split; [exact E2|]. split; [exact M2|]. split; [exact Hs2|]. split; [exact G2|].
      intros y [[<-|Hy]|Hy]; apply N2; [right|now left|right]; rewrite N'.
      * now rewrite (proj2 (dart_eqb_eq x x) eq_refl).
      * now rewrite Hy, orb_true_r.
    + now rewrite S1.
Qed.

(** ** Partition function *)

Lemma desc_q : forall J st c b p l j, st (b, p) = Some l -> j < upto (b, p) -> desc J st c b (N_q p j) = Rl (qAt l j).
Proof. intros J st c b p l j E Hj. cbn [desc]. rewrite E. now rewrite (proj2 (Nat.ltb_lt _ _) Hj). Qed.

Lemma upto_ge : forall x, fst x < nB -> ns (fst x) - 1 <= upto x <= ns (fst x).
Proof.
  intros x Hx. pose proof (Hns _ Hx) as H. revert H. unfold upto, lastSlice. generalize (ns (fst x)) (isTailEnd es vs x). intros n t H.
  generalize model. intros []; destruct t; lia.
Qed.

Lemma hd_qAt : forall l, hd zero_field l = qAt l 0.
Proof. intros []; reflexivity. Qed.

Lemma q_run : forall J st c u x, fst x < nB -> mok (desc J st c) (fst u) -> (forall y, snd u y = isSolved st y) -> good st ->
  qG dims model dsTarget bs arr es vs x u = rpcComputeQ model dims dsTarget bs es vs st x.
Proof.
  intros J st c u x Hx M Hs G. destruct u as [g sv]. cbn [fst snd] in *. unfold qG, rpcComputeQ. cbn [fst snd]. rewrite !Hs. unfold isSolved.
  destruct (st x) as [l|] eqn:E; [|reflexivity]. destruct (st (partner x)) as [l'|] eqn:E'; [|reflexivity]. cbn [check bind].
  destruct (Bool.eqb (isHeadEnd es vs x) (isTailEnd es vs (partner x))) eqn:Ee; [|reflexivity]. cbn [check bind].
  apply eqb_prop in Ee.
  pose proof (enter _ _ (fst x) [] (fun _ => zero_field) Hx M (no_tails _ _ _)) as A.
  destruct (aok (fst x) [] Hx ltac:(intros y [])) as (H1 & H2 & H3 & H4).
  assert (Q : forall p ll j, st (fst x, p) = Some ll -> j < upto (fst x, p) ->
    full (desc J st c (fst x)) (fst x) [] (fun _ => zero_field) (N_q p j) = Rl (qAt ll j)) by (intros; now apply desc_q).
  assert (Ex : st (fst x, snd x) = Some l) by (now destruct x). unfold partner in E'.
  pose proof (upto_ge (fst x, snd x) Hx) as U. pose proof (upto_ge (fst x, negb (snd x)) Hx) as U'. cbn [fst] in U, U'.
  pose proof (Hns _ Hx) as H3ns. destruct (G _ _ E') as [_ Ll']. cbn [fst] in Ll'.
  unfold gridAvg, computeQG, gNs.
  destruct (match model with Bead => isHeadEnd es vs x | Thread => false end) eqn:Eb.
  - rewrite (run_Q_sum dev dims Hnx Hnk (arr (fst x)) (inpB (fst x) []) (nIn []) (ns (fst x)) model batched _ H1 _ g
      (negb (snd x)) (ns (fst x) - 2) _ A ltac:(lia) (Q (negb (snd x)) l' (ns (fst x) - 2) E' ltac:(lia))). reflexivity.
  - assert (TO : rpcTailOk model (isTailEnd es vs (partner x)) = true).
    { rewrite <- Ee. revert Eb. unfold rpcTailOk. generalize model. intros []; [reflexivity|]. now intros ->. }
    assert (TG : tailG dims (arr (fst x)) model (negb (snd x)) (ns (fst x)) (isHeadEnd es vs x) = Ok (qField dims (arr (fst x)) (negb (snd x)) (ns (fst x) - 1))).
    { revert Eb. unfold tailG. generalize model. intros []; [reflexivity|]. now intros ->. }
    rewrite TO, TG. cbn [check bind].
    assert (Up : ns (fst x) - 1 < upto (fst x, negb (snd x))).
    { unfold upto, lastSlice. fold (partner x). rewrite <- Ee. cbn [fst partner]. revert Eb. generalize (ns (fst x)). generalize model. intros [] n.
      - lia.
      - intros ->. lia. }
    rewrite (run_Q_inner dev dims Hnx Hnk (arr (fst x)) (inpB (fst x) []) (nIn []) (ns (fst x)) model batched _ H1 _ g
      (snd x) 0 _ (negb (snd x)) (ns (fst x) - 1) _ A ltac:(lia) ltac:(lia) (Q (snd x) l 0 Ex ltac:(lia)) (Q _ _ _ E' Up)).
    cbn [bind]. rewrite hd_qAt, last_nth, Ll'. reflexivity.
Qed.

(** ** Concentrations *)

Definition cOf (st : props) (prefactor : R) (b : nat) : field :=
  match st (b, false), st (b, true) with
  | Some l0, Some l1 => concOf (ns b) model (ds_ b) (w (mon b)) l0 l1 prefactor
  | _, _ => zero_field
  end.
Definition all_solved (st : props) : Prop := forall b p, b < nB -> exists l, st (b, p) = Some l.

Lemma known_slices : forall J st c b p l, b < nB -> st (b, p) = Some l -> forall j, j <= lastSlice (ns b) model (isTailEnd es vs (b, p)) ->
  desc J st c b (N_q p j) = Rl (qAt l j).
Proof. intros J st c b p l Hb E j Hj. apply desc_q; [exact E|]. unfold upto. cbn [fst]. lia. Qed.

Lemma concG_eq : forall prefactor b, concG dev sched dims model dsTarget bs arr prefactor b =
  concG_ dev sched dims (arr b) (ns b) model (gDs model dsTarget bs b) prefactor.
Proof.
  intros prefactor b. apply functional_extensionality. intros g. unfold concG, concG_, gNs.
  generalize (ns b) (gDs model dsTarget bs b). generalize model. intros []; reflexivity.
Qed.

Lemma conc_all : forall J st prefactor g, mok (desc J st noC) g -> all_solved st ->
  exists g', forG nB 0 (concG dev sched dims model dsTarget bs arr prefactor) g = Ok g' /\
    mok (desc J st (fun b => Some (cOf st prefactor b))) g'.
Proof.
  intros J st prefactor g M Hst.
  set (cs := fun k b => if b <? k then Some (cOf st prefactor b) else None).
  set (P := fun k g => mok (desc J st (cs k)) g).
  destruct (forG_inv gstate P (concG dev sched dims model dsTarget bs arr prefactor) nB 0 g) as (g' & E & H').
  - intros k g1 Hkr Hg1. assert (Hb : k < nB) by lia. unfold P in Hg1.
    destruct (Hst k false Hb) as [l0 E0]. destruct (Hst k true Hb) as [l1 E1].
    pose proof (aok k [] Hb ltac:(intros x [])) as A.
    set (tf := fun _ : dart => zero_field).
    destruct (step (desc J st (cs k)) k [] tf (concG dev sched dims model dsTarget bs arr prefactor k)
      (upd_ nm nm_eqd (full (desc J st (cs k) k) k [] tf) N_c (Rl (cOf st prefactor k))) Hb (no_tails _ _ _)) with (g := g1)
      as (g2 & E2 & M2); [|exact Hg1|].
    + intros m0. unfold cOf. rewrite E0, E1, concG_eq.
      pose proof (run_conc dev sched dims Hfair Hnx Hnk (arr k) (inpB k []) (nIn []) (ns k) batched m0 (Hns k Hb) model A
        (full (desc J st (cs k) k) k [] tf) (ds_ k) (gDs model dsTarget bs k) (w (mon k)) l0 l1
        (isTailEnd es vs (k, false)) (isTailEnd es vs (k, true)) prefactor) as R.
      apply R; clear R.
      * reflexivity.
      * unfold gDs, pDs. generalize model. intros []; reflexivity || exact I.
      * intros j Hj. now apply known_slices.
      * intros j Hj. now apply known_slices.
    + exists g2. split; [exact E2|]. apply (mok_weak _ _ _ M2). intros b Hb' a f La Ea. exists f. split; [|auto].
      unfold set_b. destruct (Nat.eqb_spec b k) as [->|Hne].
      * destruct a; try discriminate Ea; upds; try exact Ea. cbn [desc] in Ea. unfold cs in Ea.
        rewrite (proj2 (Nat.ltb_lt k (S k)) ltac:(lia)) in Ea. exact Ea.
      * destruct a; try discriminate Ea; try exact Ea. cbn [desc] in Ea |- *. unfold cs in *.
        replace (b <? k) with (b <? S k); [exact Ea|]. destruct (Nat.ltb_spec b (S k)), (Nat.ltb_spec b k); auto; lia.
  - unfold P. apply (mok_weak _ _ _ M). intros b Hb a f La Ea. exists f. split; [|auto]. destruct a; try discriminate Ea; exact Ea.
  - exists g'. split; [exact E|]. unfold P in H'. apply (mok_weak _ _ _ H'). intros b Hb a f La Ea. exists f. split; [|auto].
    destruct a; try discriminate Ea; try exact Ea. cbn [desc Nat.add] in Ea |- *. unfold cs. rewrite (proj2 (Nat.ltb_lt b nB) Hb). exact Ea.
Qed.

(** ** Stress *)

Definition sOf (st : props) (prefactor : R) (n b : nat) : R :=
  match st (b, false), st (b, true) with
  | Some l0, Some l1 => stressOf dims (ns b) model kSq (dKSq n) (kuhn_ b) (ds_ b) (isHeadEnd es vs (b, false)) (isTailEnd es vs (b, false)) l0 l1 prefactor
  | _, _ => 0%R
  end.

Lemma stress_ext : forall B d d' he te kuhn ds prefactor k m, (forall n, n < nParams -> d n = d' n) ->
  stressG_ dev sched dims B k batched m d nParams he te kuhn ds prefactor =
  stressG_ dev sched dims B k batched m d' nParams he te kuhn ds prefactor.
Proof.
  intros B d d' he te kuhn ds prefactor k m H.
  assert (E : incrementG dev sched B d nParams = incrementG dev sched B d' nParams).
  { apply functional_extensionality. intros e. apply functional_extensionality. intros c. apply functional_extensionality. intros k0.
    apply functional_extensionality. intros k1. apply functional_extensionality. intros x. unfold incrementG.
    assert (F : forall F F' : nat -> gstate * (nat -> R) -> outcome (gstate * (nat -> R)), forall n from, (forall j, from <= j < from + n -> F j = F' j) ->
      forall x, forG n from F x = forG n from F' x).
    { intros F F'. induction n as [|n IH]; intros from HF y; [reflexivity|]. cbn [forG]. rewrite (HF from) by lia.
      destruct (F' from y); cbn [bind]; try reflexivity. apply IH. intros j Hj. apply HF. lia. }
    apply F. intros j Hj. rewrite (H j) by lia. reflexivity. }
  apply functional_extensionality. intros g. destruct m; cbn [stressG_].
  - unfold stressThreadG, sliceG. now rewrite E.
  - unfold stressBeadG, sliceG. now rewrite E.
Qed.

Lemma stress_one : forall J st c prefactor sv b g, b < nB -> mok (desc J st c) g -> all_solved st -> (forall y, sv y = isSolved st y) ->
  (batched = true -> model = Bead -> forall p j, j < ns b -> exists f, J b (N_q p j) = Rl f) ->
  exists g' y, blockStressG dev sched dims model batched dsTarget bs arr dKSqD nParams es vs prefactor sv b g = Ok (g', y) /\
    mok (desc J st c) g' /\ forall n, n < nParams -> y n = sOf st prefactor n b.
Proof.
  intros J st c prefactor sv b g Hb M Hst Hs HJ.
  destruct (Hst b false Hb) as [l0 E0]. destruct (Hst b true Hb) as [l1 E1].
  pose proof (aok b [] Hb ltac:(intros x [])) as A. set (tf := fun _ : dart => zero_field).
  pose proof (enter _ _ b [] tf Hb M (no_tails _ _ _)) as At0.
  unfold blockStressG. rewrite !Hs. unfold isSolved. rewrite E0, E1. cbn [check bind].
  pose proof (run_stress dev sched dims Hfair Hnx Hnk (arr b) (inpB b []) (nIn []) (ns b) batched (g_mem g) (Hns b Hb) model A (all_ b Hb)
    (full (desc J st c b) b [] tf) nParams (fun n => N_in (2 + n)) dKSq kSq (kuhn_ b) (ds_ b) (gDs model dsTarget bs b)
    (isHeadEnd es vs (b, false)) (isTailEnd es vs (b, false)) (isTailEnd es vs (b, true)) l0 l1 prefactor) as R.
  destruct R with (g := g) as (g' & y' & E & A' & V); clear R.
  - reflexivity.
  - reflexivity.
  - intros n Hn. pose proof (ok_in b [] (2 + n) Hb ltac:(intros x []) ltac:(unfold nIn; cbn; lia)) as O. cbn [Nat.add] in O |- *.
    rewrite (proj2 (Nat.ltb_lt n nParams) Hn) in O. split; [exact O|]. split; [|exact I]. cbn [full]. now rewrite (proj2 (Nat.ltb_lt n nParams) Hn).
  - unfold gDs, pDs. generalize model. intros []; reflexivity || exact I.
  - intros j Hj. now apply known_slices.
  - intros j Hj. now apply known_slices.
  - intros Eb p j Hj. cbn [full desc]. destruct (Hst b p Hb) as [l El]. rewrite El.
    destruct (Nat.ltb_spec j (upto (b, p))); [eauto|]. apply HJ; auto.
    revert H. unfold upto. cbn [fst]. destruct model; [|reflexivity]. cbn [lastSlice]. pose proof (Hns b Hb). intros. exfalso. lia.
  - exact At0.
  - exists g', y'. split; [|split].
    + rewrite (stress_ext (arr b) _ dKSqD) in E.
      * rewrite <- E. unfold stressG_, gNs, gKuhn. generalize (ns b) (gDs model dsTarget bs b). generalize model. intros []; reflexivity.
      * intros n Hn. cbn [lay inpB Nat.add]. now rewrite (proj2 (Nat.ltb_lt n nParams) Hn).
    + apply (mok_weak _ _ _ (leave _ _ _ b [] _ Hb M A')). intros b' Hb' a f La Ea. exists f. split; [|auto].
      unfold set_b. destruct (Nat.eqb_spec b' b) as [->|Hne]; destruct a; try discriminate Ea; exact Ea.
    + intros n Hn. rewrite (V n Hn). unfold sOf. now rewrite E0, E1.
Qed.

Lemma stress_all : forall J st c s u, mok (desc J st c) (fst u) -> all_solved st -> (forall y, snd u y = isSolved st y) ->
  (batched = true -> model = Bead -> forall b p j, b < nB -> j < ns b -> exists f, J b (N_q p j) = Rl f) ->
  exists g' y, gpuStress dev sched dims model batched dsTarget bs arr dKSqD nParams es vs s u = Ok (g', y) /\
    mok (desc J st c) g' /\ forall n, n < nParams -> y n = polymerStress model dims kSq (dKSq n) dsTarget bs es vs st s.
Proof.
  intros J st c s u M Hst Hs HJ. unfold gpuStress.
  set (P := fun k (x : gstate * (nat -> R)) => mok (desc J st c) (fst x) /\
     forall n, n < nParams -> snd x n = rsum k (sOf st (prefactorG model bs s) n)).
  match goal with |- context [forG nB 0 ?F ?x] => destruct (forG_inv _ P F nB 0 x) as ([g' y] & E & M' & V) end.
  - intros k [g1 y1] Hkr [M1 V1]. cbn [fst snd] in *.
    destruct (stress_one J st c (prefactorG model bs s) (snd u) k g1 ltac:(lia) M1 Hst Hs) as (g2 & y2 & E2 & M2 & V2).
    { intros Eb Em p j Hj. apply HJ; auto. lia. }
    rewrite E2. cbn [bind fst snd]. eexists. split; [reflexivity|]. split; [exact M2|]. intros n Hn. cbn [snd rsum].
    rewrite V1, V2 by exact Hn. reflexivity.
  - split; [exact M|]. intros n Hn. reflexivity.
  - cbn [fst snd] in M', V. exists g', y. split; [exact E|]. split; [exact M'|]. intros n Hn. rewrite (V n Hn). cbn [Nat.add].
    unfold polymerStress. apply rsum_ext. intros b Hb. unfold sOf. destruct (st (b, false)) as [l0|]; [|reflexivity].
    destruct (st (b, true)) as [l1|]; [|reflexivity]. unfold stressOf, prefactorG, pDs, pNs. generalize model. intros []; reflexivity.
Qed.

(** ** compute *)

Lemma compute_all : forall J p s phiTot has g, p_vertices p = vs -> (forall x, In x (p_plan p) <-> fst x < nB) -> 0 < nB ->
  mok (init has J) g ->
  match rpcCompute model dims kSq dsTarget bs w es p s phiTot with
  | Ok (s', c) => exists g' sv st, gpuCompute dev sched dims model dsTarget bs arr wD kSqD es vs (p_plan p) s phiTot has g = Ok (s', (g', sv)) /\
      solveAll (rpcSlices model dims kSq dsTarget bs w) (rpcTailOk model) true es vs (p_plan p) = Ok st /\
      mok (desc J st (fun b => Some (c b))) g' /\ (forall y, sv y = isSolved st y) /\ all_solved st
  | Throw => gpuCompute dev sched dims model dsTarget bs arr wD kSqD es vs (p_plan p) s phiTot has g = Throw
  | _ => False
  end.
Proof.
  intros J p s phiTot has g Ev Hp H0 M. unfold rpcCompute, gpuCompute, solveAll. rewrite Ev.
  destruct (setup_all has J g M) as (g1 & E1 & M1). rewrite E1. cbn [bind].
  pose proof (solve_loop J (p_plan p) noSt (g1, fun _ => false) (fun x => proj1 (Hp x)) M1 (fun _ => eq_refl) ltac:(intros x l [=])) as L.
  unfold noSt in L.
  destruct (solveLoop _ _ true es vs (p_plan p) _) as [st| | |]; try contradiction; [|now rewrite L].
  destruct L as (u & E2 & M2 & Hs & G & N). rewrite E2. cbn [bind].
  assert (AS : all_solved st).
  { intros b q Hb. pose proof (N (b, q) (or_introl (proj2 (Hp (b, q)) Hb))) as I. unfold isSolved in I. destruct (st (b, q)); [eauto|discriminate]. }
  rewrite (q_run J st noC u (0, false) H0 M2 Hs G).
  destruct (rpcComputeQ model dims dsTarget bs es vs st (0, false)) as [Q| | |] eqn:EQ; cbn [bind]; try reflexivity.
  - set (s' := setQ s (Q / phiTot)).
    destruct (conc_all J st (prefactorG model bs s') (fst u) M2 AS) as (g3 & E3 & M3). rewrite E3. cbn [bind].
    exists g3, (snd u), st. split; [reflexivity|]. split; [reflexivity|]. split; [|split; [exact Hs|exact AS]].
    apply (mok_weak _ _ _ M3). intros b Hb a f La Ea. exists f. split; [|auto]. destruct a; try discriminate Ea; try exact Ea.
  - unfold rpcComputeQ in EQ. destruct (st (0, false)), (st (partner (0, false))); try discriminate EQ.
    destruct (Bool.eqb _ _); [|discriminate EQ]. cbn [check bind] in EQ. destruct (match model with Bead => _ | Thread => _ end); [discriminate EQ|].
    destruct (rpcTailOk _ _); discriminate EQ.
  - unfold rpcComputeQ in EQ. destruct (st (0, false)), (st (partner (0, false))); try discriminate EQ.
    destruct (Bool.eqb _ _); [|discriminate EQ]. cbn [check bind] in EQ. destruct (match model with Bead => _ | Thread => _ end); [discriminate EQ|].
    destruct (rpcTailOk _ _); discriminate EQ.
Qed.

(** ** Before and after *)

Definition found (b : nat) : contents nm := fun a =>
  match a with
  | N_q p j => let d := lo b (N_q p j) in
               if readable mi (da_addr d) (nR dims) then Rl (fun i => get mi (da_addr d + Z.of_nat i)%Z) else None
  | _ => None
  end.

Lemma start : forall has g, g_mem g = mi -> ready dev (g_thr g) ->
  (forall b, b < nB -> has b = true -> holdsR mi (a_expKsq (arr b)) (expKsq kSq model (kuhn_ b) (ds_ b)) /\
     holdsR mi (a_expKsq2 (arr b)) (expKsq2 kSq model (kuhn_ b) (ds_ b))) ->
  mok (init has found) g.
Proof.
  intros has g Em Rd Hh.
  assert (RE : forall b a f, b < nB -> lv b a -> own a -> typ a = Re -> holdsR mi (lo b a) f ->
     forall i, (Z.of_nat i < da_cap (lo b a))%Z -> elem mi (lo b a) (Z.of_nat i) (RtoC (f i))).
  { intros b a f Hb La Oa T H i Hi. apply elem_real; auto. exact (eq_trans (proj1 (ty_ b noIn 0 Hb a La Oa)) T). }
  constructor; rewrite ?Em; auto.
  - intros b a Hb La Oa. destruct (home_in _ _ _ _ _ (Hsh b Hb) noIn 0 a La Oa) as (d & t & n & E & _ & _ & W).
    apply allocated_present. intros y Hy. apply (lo_present _ _ _ _ _ _ _ _ Hlo b d t n Hb (nth_error_In _ _ E)). apply W. now apply words_occupies.
  - intros b a f i Hb La Oa Ea Hi. destruct a as [| | | | | | | | | | | |p|p j|p j|]; try discriminate Ea; cbn [init found] in Ea.
    + destruct (has b) eqn:Eh; [|discriminate Ea]. injection Ea as <-. exact (RE b N_expKsq _ Hb La Oa eq_refl (proj1 (Hh b Hb Eh)) i Hi).
    + destruct (has b) eqn:Eh; [|discriminate Ea]. injection Ea as <-. exact (RE b N_expKsq2 _ Hb La Oa eq_refl (proj2 (Hh b Hb Eh)) i Hi).
    + destruct (readable mi _ _) eqn:Er; [|discriminate Ea]. injection Ea as <-. refine (RE b (N_q p j) (fun i => get mi (da_addr (lo b (N_q p j)) + Z.of_nat i)%Z) Hb La Oa eq_refl _ i Hi).
      intros k Hk'. pose proof (proj2 (ty_ b noIn 0 Hb _ La Oa)) as Cp. fold (lo b (N_q p j)) in Cp. rewrite Cp in Hk'. cbn [size] in Hk'.
      unfold readable in Er. rewrite forallb_forall in Er. specialize (Er k ltac:(apply in_seq; lia)). unfold get.
      destruct (mi (da_addr (lo b (N_q p j)) + Z.of_nat k)%Z); try discriminate Er. reflexivity.
Qed.

Lemma found_defined : forall b p j, b < nB -> j < ns b -> defined mi (qAll (arr b) p) -> exists f, found b (N_q p j) = Rl f.
Proof.
  intros b p j Hb Hj D. cbn [found]. replace (readable mi _ _) with true; [eauto|]. symmetry. apply forallb_forall. intros i Hi. apply in_seq in Hi.
  destruct (Hsh b Hb (qAll (arr b) p) Re (ns b * nR dims)) as [T Cp].
  { unfold arraysOf. destruct p; cbn; tauto. }
  destruct (D (da_addr (lo b (N_q p j)) + Z.of_nat i)%Z) as [x ->]; [|reflexivity].
  unfold occupies. rewrite T, Cp. unfold lo. cbn [lay]. unfold qField, sub. cbn [da_addr]. rewrite T. cbn [width].
  assert (Z.of_nat (j * nx dims + i) < Z.of_nat (ns b * nR dims))%Z by (unfold nx; nia). unfold nx in *. nia.
Qed.

Lemma finish_real : forall Sd g b a f, b < nB -> lv b a -> own a -> typ a = Re -> mok Sd g -> Sd b a = Rl f -> holdsR (g_mem g) (lo b a) f.
Proof.
  intros Sd g b a f Hb La Oa T M E i Hi. pose proof (mo_elem _ _ M b a _ i Hb La Oa E Hi) as H.
  unfold elem, word_at in H. pose proof (proj1 (ty_ b noIn 0 Hb a La Oa)) as T'. fold (lo b a) in T'. rewrite T', T in H. cbn [width] in H. destruct H as [H _].
  cbn [fst RtoC] in H. rewrite <- H. f_equal. lia.
Qed.

Lemma still : forall Sd g, mok Sd g -> layout dims model batched nB ns arr (inputs dims bs nB wD kSqD dKSqD nParams) (g_mem g).
Proof.
  intros Sd g M. destruct Hlo as [L1 L2 L3 L4]. constructor; auto.
  - intros b d t n Hb I y Hy.
    destruct (Classical_Prop.classic (exists b a, b < nB /\ lv b a /\ own a /\ words (lo b a) y)) as [(b' & a & Hb' & La & Oa & W)|N].
    + apply (proj1 (allocated_present _ _) (mo_alloc _ _ M b' a Hb' La Oa)). now apply words_occupies.
    + rewrite (mo_frame _ _ M); [apply (L2 b d t n Hb I y Hy)|]. intros b' a Hb' La Oa W. apply N. exists b', a. auto.
  - intros d n I. destruct (L4 d n I) as (A & B & C'). split; [exact A|]. split; [|exact C'].
    apply allocated_present. apply (in_mem Sd g d n M I).
Qed.

Lemma outside : forall Sd g y, mok Sd g ->
  (forall b d t n, b < nB -> In (d, t, n) (arraysOf dims model batched (ns b) (arr b)) -> ~ occupies d y) -> g_mem g y = mi y.
Proof.
  intros Sd g y M H. apply (mo_frame _ _ M). intros b a Hb La Oa W.
  destruct (home_in _ _ _ _ _ (Hsh b Hb) noIn 0 a La Oa) as (d & t & n & E & _ & _ & W').
  apply (H b d t n Hb (nth_error_In _ _ E)). now apply W'.
Qed.

Lemma found_held : forall b p j f, b < nB -> j < ns b -> holdsR mi (lo b (N_q p j)) f ->
  exists f', found b (N_q p j) = Rl f' /\ forall i, i < nR dims -> f' i = f i.
Proof.
  intros b p j f Hb Hj H. cbn [found].
  assert (Q : forall i, i < nR dims -> mi (da_addr (lo b (N_q p j)) + Z.of_nat i)%Z = Val (f i)).
  { intros i Hi. apply H. pose proof (proj2 (ty_ b noIn 0 Hb (N_q p j) Hj I)) as Cp. fold (lo b (N_q p j)) in Cp. rewrite Cp. cbn [size]. lia. }
  replace (readable mi _ _) with true.
  - eexists. split; [reflexivity|]. intros i Hi. unfold get. now rewrite Q.
  - symmetry. apply forallb_forall. intros i Hi. apply in_seq in Hi. now rewrite Q by lia.
Qed.

(** A slice that is not computed keeps what it held *)
Lemma stale : forall st c g b p j f, mok (desc found st c) g -> b < nB -> j < ns b -> upto (b, p) <= j -> holdsR mi (lo b (N_q p j)) f ->
  holdsR (g_mem g) (lo b (N_q p j)) f.
Proof.
  intros st c g b p j f M Hb Hj Hu H. destruct (found_held b p j f Hb Hj H) as (f' & E & Q).
  assert (D : desc found st c b (N_q p j) = Rl f').
  { cbn [desc]. destruct (st (b, p)); [|exact E]. destruct (Nat.ltb_spec j (upto (b, p))); [lia|exact E]. }
  pose proof (finish_real _ _ b (N_q p j) f' Hb Hj I eq_refl M D) as F. intros i Hi. rewrite (F i Hi). f_equal. apply Q.
  pose proof (proj2 (ty_ b noIn 0 Hb (N_q p j) Hj I)) as Cp. fold (lo b (N_q p j)) in Cp. rewrite Cp in Hi. cbn [size] in Hi. lia.
Qed.

Lemma head_stale : forall has g b p he f, model = Bead -> b < nB -> mok (init has found) g -> holdsR mi (lo b (tailName (b, p))) f ->
  exists g', (g <- forG nB 0 (setupSolverG dev sched model dsTarget bs arr wD kSqD has) g ;;
              solveHeadG dev sched dims (arr b) model p (ns b) he false (wD (mon b)) g) = Ok g' /\
    holdsR (g_mem g') (lo b (tailName (b, p))) f.
Proof.
  intros has g b p he f Em Hb M H. destruct (setup_all has found g M) as (g1 & E1 & M1). rewrite E1. cbn [bind].
  pose proof (aok b [] Hb ltac:(intros x [])) as (H1 & H2 & H3 & H4). set (tf := fun _ : dart => zero_field).
  set (sl := bdSl dims (ns b) (expKsq kSq model (kuhn_ b) (ds_ b)) (expKsq2 kSq model (kuhn_ b) (ds_ b)) (expW model (ds_ b) (w (mon b))) he (w (mon b))).
  set (S0 := full (desc found noSt noC b) b [] tf).
  destruct (step (desc found noSt noC) b [] tf (solveHeadG dev sched dims (arr b) model p (ns b) he false (wD (mon b)))
    (known p sl (ns b - 2) S0) Hb (no_tails _ _ _)) with (g := g1) as (g2 & E2 & M2); [|exact M1|].
  - intros m0. unfold solveHeadG.
    apply (runs_bind dev nm _ _ own m0 _ _ (known p sl 0 S0)).
    + apply (run_set_head dev sched dims Hfair Hnx Hnk (arr b) (inpB b []) (nIn []) (ns b) model batched m0 H1 H2 H3 H4 S0 (Hns b Hb) p (N_in 0) (w (mon b)) sl).
      * apply (ok_in b [] 0 Hb); [intros x []|unfold nIn; lia].
      * reflexivity.
      * intros i Hi. reflexivity.
    + assert (IB : GpuBlockProofs.isBead model) by (rewrite Em; exact I).
      pose proof (run_steps_bead dev sched dims Hfair Hnx Hnk (arr b) (inpB b []) (nIn []) (ns b) model batched m0 H1 H2 H3 H4 S0
          _ _ _ eq_refl eq_refl eq_refl (Hns b Hb) true p (w (mon b)) he false IB) as R.
      assert (ES : stepsG dev sched dims (arr b) true model p (ns b) he false = stepsG dev sched dims (arr b) true Bead p (ns b) he false)
        by (now rewrite Em).
      rewrite ES. exact R.
  - exists g2. split; [exact E2|].
    destruct (found_held b p (ns b - 1) f Hb ltac:(pose proof (Hns b Hb); lia) H) as (f' & E & Q).
    assert (Lj : ns b - 1 < ns b) by (pose proof (Hns b Hb); lia).
    assert (D : set_b (desc found noSt noC) b (known p sl (ns b - 2) S0) b (N_q p (ns b - 1)) = Rl f').
    { unfold set_b. rewrite Nat.eqb_refl. cbn [known]. rewrite eqb_reflx. destruct (Nat.leb_spec (ns b - 1) (ns b - 2)); [pose proof (Hns b Hb); lia|].
      unfold S0. cbn [full desc noSt]. exact E. }
    pose proof (finish_real _ _ b (N_q p (ns b - 1)) f' Hb Lj I eq_refl M2 D) as F. unfold tailName. cbn [fst snd].
    intros i Hi. rewrite (F i Hi). f_equal. apply Q.
    pose proof (proj2 (ty_ b noIn 0 Hb (N_q p (ns b - 1)) Lj I)) as Cp. fold (lo b (N_q p (ns b - 1))) in Cp. rewrite Cp in Hi. cbn [size] in Hi. lia.
Qed.

End Poly.
