(** C44: the order of the generators of a mix-and-match environment.
    C60: parameters of an environment that a sweep changes take effect.
    C61: the stress stored by an environment. *)
From Coq Require Import Reals String ZArith List Bool Arith Lia Lra.
From Verif Require Import Base RSum UnitCell Symmetry Environment Film FilmSpec FilmProofs.
Import ListNotations.
Local Open Scope R_scope.

Section Order.
Context {S W G1 G2 : Type}.

(** Both generators can read their part of the parameter file when the second
    follows the first, or re-reads the part of the first if it depends on it. *)
Definition readable (k1 : generator S W G1) (k2 : generator S W G2) (w : W) (pos : S) : Prop :=
  gDep k1 = false /\
  exists g1 pos1 g2 pos2,
    gRead k1 w pos (gNew k1) = Ok (g1, pos1) /\
    gRead k2 w (if gDep k2 then pos else pos1) (gNew k2) = Ok (g2, pos2).

(** An environment with both generators in place and both roles assigned. *)
Definition complete (r : outcome (env G1 G2 * S)) : Prop :=
  exists e pos g1 g2, r = Ok (e, pos) /\ e1 e = Some g1 /\ e2 e = Some g2 /\
    eMask e = true /\ eExt e = true.

(** Full statement: for all k1, k2 with one type Mask and the other External,
    readable k1 k2 w pos -> complete (readParameters ...).  It holds if the mask
    generator is the first (here) and fails otherwise (C44_refuted and
    C44_external_first below). *)
Theorem C44_mask_first_partial : forall (k1 : generator S W G1) (k2 : generator S W G2) w pos,
  gType k1 = Mask -> gType k2 = External -> readable k1 k2 w pos ->
  complete (readParameters (Some k1) (Some k2) w pos newEnv).
Proof.
  intros k1 k2 w pos T1 T2 (D & g1 & p1 & g2 & p2 & R1 & R2).
  unfold complete, readParameters. rewrite D. cbn [negb check bind].
  rewrite R1. cbn [bind]. rewrite T1, T2. cbn [gtype_eqb check bind].
  rewrite R2. cbn [bind]. unfold setGenerateBools. cbn [newEnv put1 put2 eSet negb check bind].
  do 4 eexists. split; [reflexivity|]. cbn. auto.
Qed.

(** An environment whose first generator makes external fields cannot be read,
    whatever the second one is: neither with a mask generator after it nor alone. *)
Theorem C44_external_first : forall (k1 : generator S W G1) (c2 : option (generator S W G2)) w pos e r,
  gType k1 = External -> readParameters (Some k1) c2 w pos e <> Ok r.
Proof.
  intros k1 c2 w pos e r T. unfold readParameters.
  destruct (check (negb (gDep k1))); cbn [bind]; try discriminate.
  destruct (gRead k1 w pos (gNew k1)) as [[g p]| | |]; cbn [bind]; try discriminate.
  rewrite T. cbn. discriminate.
Qed.

(** What is accepted has its roles right: a mask (external fields) is announced
    exactly if one of the generators makes it, and two generators differ in type. *)
Theorem C44_roles : forall (k1 : generator S W G1) (c2 : option (generator S W G2)) w pos e pos',
  readParameters (Some k1) c2 w pos newEnv = Ok (e, pos') ->
  let types := gType k1 :: match c2 with Some k2 => [gType k2] | None => [] end in
  (eMask e = true <-> In Mask types) /\ (eExt e = true <-> In External types) /\
  NoDup types /\ ~ In NoType types /\ eNeeds e = true.
Proof.
  intros k1 c2 w pos e pos'. unfold readParameters.
  destruct (gDep k1); cbn [negb check bind]; [discriminate|].
  destruct (gRead k1 w pos (gNew k1)) as [[g p]| | |]; cbn [bind]; try discriminate.
  destruct (gType k1); cbn [gtype_eqb bind]; try discriminate.
  destruct c2 as [k2|].
  - destruct (gType k2); cbn [gtype_eqb check bind]; try discriminate.
    destruct (gRead k2 _ _ _) as [[g2 p2]| | |]; cbn [bind]; try discriminate.
    unfold setGenerateBools. cbn [newEnv put1 put2 eSet negb check bind].
    intro E. injection E as <- <-. cbn.
    repeat split; auto; try (intros [H|[H|[]]]; discriminate);
    repeat constructor; cbn; intuition discriminate.
  - unfold setGenerateBools. cbn [newEnv put1 put2 eSet negb check bind].
    intro E. injection E as <- <-. cbn.
    repeat split; auto; try discriminate; try (intros [H|[]]; discriminate).
    repeat constructor; cbn; intuition discriminate.
Qed.
End Order.

(** A mask generator and an external-field generator that read nothing. *)
Definition plain (t : gtype) : generator nat unit unit :=
  mkGenerator _ _ _ t false tt (fun _ s _ => Ok (tt, Datatypes.S s)) (fun _ _ => Ok false) (fun _ _ => Ok tt)
    (fun _ _ => Ok (tt, tt)) [] (fun _ _ _ _ => Ok None) (fun _ _ _ => Ok None)
    (fun _ _ _ => Ok 0) (fun _ _ _ s => Ok s).

Theorem C44_refuted : exists (k1 k2 : generator nat unit unit) w pos,
  gType k1 = External /\ gType k2 = Mask /\ readable k1 k2 w pos /\
  complete (readParameters (Some k2) (Some k1) w pos newEnv) /\
  readParameters (Some k1) (Some k2) w pos newEnv = Throw.
Proof.
  exists (plain External), (plain Mask), tt, 0%nat. repeat split; auto.
  - exists tt, 1%nat, tt, 2%nat. auto.
  - apply C44_mask_first_partial; auto. split; auto. exists tt, 1%nat, tt, 2%nat. auto.
Qed.

(** The film environment as FilmEnvironment.h 74-78 creates it: the second
    generator depends on the first, and re-reads its parameters. *)
Definition noStress {W G} : W -> G -> nat -> outcome R := fun _ _ _ => Ok 0.
Definition fm := filmMask noStress (fun _ => 0).
Definition fx := filmExt noStress.
Definition block : list entry :=
  [EInt "normalVecId" 0; EReal "interfaceThickness" (1/5); EReal "excludedThickness" (2/5);
   EArr "chiBottom" [0; 0]; EArr "chiTop" [0; 0]]%string.
Definition film0 : fsys :=
  mkFsys Lamellar (fun _ => 2) (fun _ => 4%nat) [] 2 false false false [false] None None.

Example film_reads : exists e, readParameters (Some fm) (Some fx) film0 block newEnv = Ok (e, []) /\
  e1 e = Some (mkMaskGen 0 (1/5) (2/5) None (fun _ => 0)) /\
  e2 e = Some (mkExtGen 0 (1/5) (2/5) [0; 0] [0; 0] None (fun _ => 0)) /\
  eMask e = true /\ eExt e = true.
Proof.
  unfold readParameters, block, fm, fx, filmMask, filmExt. cbn [gDep gRead gNew gType negb check bind].
  unfold maskRead, extRead, rdInt, rdReal, rdOptional, rdArr, checkFilm. cbn -[Rdiv].
  rewrite (gtb_false (1/5) (2/5)) by lra. rewrite (geb_false 0 (2/5)) by lra. rewrite (geb_false 0 (1/5)) by lra.
  cbn -[Rdiv]. eexists. split; [reflexivity|]. cbn. auto.
Qed.

Print Assumptions C44_mask_first_partial.
Print Assumptions C44_external_first.
Print Assumptions C44_roles.
Print Assumptions C44_refuted.

(* ---------- C60 ---------- *)
(** The external fields that the walls of a film call for: none if no monomer
    type interacts with a wall, else (1 - rho) chi at every grid point, with the
    lower or the upper wall according to the half of the cell. *)
Definition wallFields (w : fsys) (x : extGen) : Prop :=
  let n := Z.to_nat (xNv x) in
  let athermal := forall i, (i < fNMon w)%nat -> Rabs (nth i (xB x) 0) < / 10 ^ 7 /\ Rabs (nth i (xT x) 0) < / 10 ^ 7 in
  (athermal /\ fH w = None) \/
  (~ athermal /\ exists m hs, fMask w = Some m /\ fH w = Some hs /\ List.length hs = fNMon w /\
     forall i c rho, (i < fNMon w)%nat -> onGrid (dim3 w) c -> nth_error m (rank3 (dim3 w) c) = Some rho ->
       exists h, nth_error hs i = Some h /\
         nth_error h (rank3 (dim3 w) c) =
           Some ((1 - rho) * (if (c n <? dim3 w n / 2)%nat then nth i (xB x) 0 else nth i (xT x) 0))).

Lemma eps7_eq : eps7 = / 10 ^ 7.
Proof. unfold eps7. f_equal. ring. Qed.

Lemma athermal_spec : forall nm g b, isAthermal nm g = Ok b ->
  (b = true <-> forall i, (i < nm)%nat -> Rabs (nth i (xB g) 0) < / 10 ^ 7 /\ Rabs (nth i (xT g) 0) < / 10 ^ 7).
Proof.
  intros nm g b H. unfold isAthermal in H. destruct (wallChecks nm g); cbn [bind] in H; try discriminate.
  injection H as <-. rewrite forallb_forall. rewrite <- eps7_eq. split.
  - intros H i L. specialize (H i ltac:(apply in_seq; lia)). apply negb_true_iff in H. apply orb_false_iff in H.
    destruct H as [A B]. unfold geb in A, B.
    destruct (Rle_dec eps7 (Rabs (nth i (xB g) 0))); [discriminate|].
    destruct (Rle_dec eps7 (Rabs (nth i (xT g) 0))); [discriminate|]. lra.
  - intros H i I. apply in_seq in I. destruct (H i ltac:(lia)) as [A B].
    now rewrite (geb_false _ _ A), (geb_false _ _ B).
Qed.

Theorem C60_generated : forall w g g' w', extCompute w g = Ok (g', w') ->
  wallFields w' g' /\ xB g' = xB g /\ xT g' = xT g /\ extNeeds w' g' = Ok false.
Proof.
  intros w g g' w' H. assert (F := ext_fresh _ _ _ _ H).
  destruct (extCompute_ok _ _ _ _ H) as (n & Nv & Ln & K1 & K2 & K3 & G & C).
  subst g'. split; [|auto]. unfold wallFields. cbn [xNv xB xT].
  destruct C as [[A W]|[A (m & M & _ & W)]]; subst w'.
  - left. split; auto. now apply (proj1 (athermal_spec _ _ _ A)).
  - right. split. { intro Q. apply (proj2 (athermal_spec _ _ _ A)) in Q. discriminate. }
    eexists m, _. split; [exact M|]. split; [reflexivity|]. split; [now rewrite map_length, seq_length|].
    cbn [withH fNMon]. intros i c rho I Gc R. change (dim3 (withH _ w)) with (dim3 w) in *.
    eexists. split. { rewrite nth_error_map, nth_error_seq by auto. reflexivity. }
    rewrite nth_error_map, (nth_error_combine _ _ _ _ _ (points_nth _ _ Gc) R).
    cbn [option_map fst snd]. rewrite coord_of by (assert (T := dim_le3 (fLat w)); unfold fD in Ln; lia).
    rewrite Nv, Nat2Z.id. unfold hValue. destruct (c n <? dim3 w n / 2)%nat; reflexivity.
Qed.

(** A parameter that a sweep sets leaves the environment marked as up to date:
    the next calculation changes neither the environment nor the fields. *)
Theorem C60_sweep_ignored : forall S W G1 G2 (k1 : generator S W G1) (k2 : generator S W G2) p ids v e e' w,
  eNeeds e = false -> sweepSet k1 k2 p ids v e = Ok e' -> makeUpToDate k1 k2 w e' = Ok (e', w).
Proof.
  intros S W G1 G2 k1 k2 p ids v e e' w N H. unfold makeUpToDate.
  assert (N' : eNeeds e' = false).
  { destruct p as [[name n] []]; cbn [sweepSet] in H.
    - destruct (e1 e) as [g|]; [|discriminate].
      destruct (gSet k1 name ids v g) as [[g'|]| | |]; cbn [bind] in H; try discriminate. injection H as <-. exact N.
    - destruct (e2 e) as [g|]; [|discriminate].
      destruct (gSet k2 name ids v g) as [[g'|]| | |]; cbn [bind] in H; try discriminate. injection H as <-. exact N. }
  now rewrite N'.
Qed.

(** Full statement: if a film is up to date and a sweep sets one of the
    parameters that the environment offers, then after the next update the
    fields are those that the walls call for.  It fails: *)
Theorem C60_refuted : exists w e x p ids v e' x',
  (* the environment is up to date *)
  eNeeds e = false /\ e2 e = Some x /\ extNeeds w x = Ok false /\ wallFields w x /\
  (* the sweep changes a parameter *)
  In p (getParameterTypes fm fx e) /\ sweepSet fm fx p ids v e = Ok e' /\ e2 e' = Some x' /\
  (* and the fields are not regenerated *)
  makeUpToDate fm fx w e' = Ok (e', w) /\ ~ wallFields w x' /\ extNeeds w x' = Ok true.
Proof.
  pose (x := mkExtGen 0 (1/5) (2/5) [0; 0] [0; 0] (Some ([0; 0], [0; 0])) (fun _ => 2)).
  pose (e := mkEnv false true true true [] false 1 (Some (mkMaskGen 0 (1/5) (2/5) None (fun _ => 2))) (Some x)
             : env maskGen extGen).
  pose (x' := mkExtGen 0 (1/5) (2/5) [0; 0] [1; 0] (Some ([0; 0], [0; 0])) (fun _ => 2)).
  assert (R0 : Rabs 0 < / 10 ^ 7) by (rewrite Rabs_R0; apply Rinv_0_lt_compat, pow_lt; lra).
  exists film0, e, x, ("chi_top"%string, 1%nat, Gen2), [0%nat], 1, (put2 x' e), x'.
  split; [reflexivity|]. split; [reflexivity|]. split.
  { unfold x, extNeeds, isAthermal, wallChecks, sameArrays. cbn. rewrite !reqb_refl. cbn.
    assert (E : geb (Rabs 0) eps7 = false) by (apply geb_false; rewrite eps7_eq; exact R0).
    rewrite !E. reflexivity. }
  split. { left. split; [|reflexivity]. intros i I. cbn in I. destruct i as [|[|i]]; cbn; [auto|auto|lia]. }
  split. { cbn. auto. }
  split; [reflexivity|]. split; [reflexivity|]. split; [reflexivity|]. split.
  { intros [[A _]|[_ (m & hs & M & _)]]; [|discriminate].
    destruct (A 0%nat ltac:(cbn; lia)) as [_ B]. cbn in B. rewrite Rabs_R1 in B.
    assert (1 < 10 * (10 * (10 * (10 * (10 * (10 * (10 * 1))))))) by lra.
    apply Rinv_lt_contravar in H; [|lra]. lra. }
  unfold x', extNeeds, sameArrays. cbn. rewrite !reqb_refl.
  assert (E : reqb 1 0 = false) by (unfold reqb; destruct (Req_EM_T 1 0); [lra|reflexivity]). rewrite E. reflexivity.
Qed.

(** The setParameter of the environment itself does reset it: the next update
    makes the fields that the walls call for. *)
Lemma genGenerate_true : forall S W G (k : generator S W G) w g r, gNeeds k w g = Ok true ->
  genGenerate k w g = Ok r -> exists w1, gCheck k w g = Ok w1 /\ gCompute k w1 g = Ok r.
Proof.
  intros S W G k w g r N H. unfold genGenerate in H. rewrite N in H. cbn [bind] in H.
  destruct (gCheck k w g) as [w1| | |]; cbn [bind] in H; try discriminate. eauto.
Qed.

Theorem C60_partial : forall st1 st2 fs name ids v w e e' x e'' w',
  setParameter (filmMask st1 fs) (filmExt st2) name ids v e = Ok (e', true) ->
  e2 e' = Some x ->
  (* the value differs from the one used when the fields were made *)
  match xCur x with
  | None => True
  | Some (cb, ct) => exists i, (i < List.length (xB x))%nat /\ (nth i (xB x) 0 <> nth i cb 0 \/ nth i (xT x) 0 <> nth i ct 0)
  end ->
  makeUpToDate (filmMask st1 fs) (filmExt st2) w e' = Ok (e'', w') ->
  exists x', e2 e'' = Some x' /\ xB x' = xB x /\ xT x' = xT x /\ eNeeds e'' = false /\
    wallFields w' x' /\ extNeeds w' x' = Ok false.
Proof.
  intros st1 st2 fs name ids v w e e' x e'' w' HS X D HU.
  assert (N : eNeeds e' = true).
  { unfold setParameter in HS.
    match type of HS with bind ?A _ = _ => destruct A as [[ea sa]| | |]; cbn [bind] in HS; try discriminate end.
    match type of HS with bind ?A _ = _ => destruct A as [[eb sb]| | |]; cbn [bind] in HS; try discriminate end.
    injection HS as <- E. subst sb. reflexivity. }
  unfold makeUpToDate, generate in HU. rewrite N in HU. cbn [negb] in HU.
  assert (K : exists ea wa, e2 ea = Some x /\
    (r2 <- match e2 ea with
           | None => Ok (ea, wa)
           | Some g => r <- genGenerate (filmExt st2) wa g ;; Ok (put2 (fst r) ea, snd r)
           end ;; let '(e, w) := r2 in e <- setNeedsUpdateFalse e ;; Ok (e, w)) = Ok (e'', w')).
  { destruct (e1 e') as [g|].
    - destruct (genGenerate (filmMask st1 fs) w g) as [[g1 w1]| | |]; cbn [bind fst snd] in HU; try discriminate.
      exists (put1 g1 e'), w1. split; auto.
    - exists e', w. split; auto. }
  destruct K as (ea & wa & Xa & K). rewrite Xa in K.
  destruct (genGenerate (filmExt st2) wa x) as [[x' w1]| | |] eqn:GG; cbn [bind fst snd] in K; try discriminate.
  unfold setNeedsUpdateFalse in K. destruct (negb (eSet (put2 x' ea))); cbn [bind] in K; [discriminate|].
  injection K as <- <-.
  assert (NX : extNeeds wa x = Ok true \/ exists o, extNeeds wa x = o /\ forall b, o <> Ok b).
  { unfold extNeeds. destruct (0 <=? xNv x)%Z; cbn [check bind]; [left|right; eexists; split; eauto; discriminate].
    destruct (xCur x) as [[cb ct]|]; auto.
    destruct D as (i & I & D).
    assert (F : sameArrays (List.length (xB x)) (xB x) cb && sameArrays (List.length (xB x)) (xT x) ct = false).
    { apply andb_false_iff. unfold sameArrays.
      destruct D as [D|D]; [left|right];
      (apply not_true_iff_false; rewrite forallb_forall; intro Q;
       specialize (Q i ltac:(apply in_seq; lia)); unfold reqb in Q;
       match type of Q with (if ?c then _ else _) = _ => destruct c; [contradiction|discriminate] end). }
    now rewrite F. }
  destruct NX as [NX|(o & NX & Q)].
  - destruct (genGenerate_true _ _ _ (filmExt st2) wa x _ NX GG) as (wb & _ & C). cbn [filmExt gCompute] in C.
    destruct (C60_generated _ _ _ _ C) as (A1 & A2 & A3 & A4).
    exists x'. cbn [put2 e2 eNeeds]. auto 10.
  - exfalso. unfold genGenerate in GG. cbn [filmExt gNeeds] in GG. rewrite NX in GG.
    destruct o as [b| | |]; cbn [bind] in GG; try discriminate. now apply (Q b).
Qed.

Print Assumptions C60_generated.
Print Assumptions C60_sweep_ignored.
Print Assumptions C60_refuted.
Print Assumptions C60_partial.

(* ---------- C61 ---------- *)
Section Stress.
Context {S W G1 G2 : Type} (k1 : generator S W G1) (k2 : generator S W G2).

Lemma stressLoop_ok : forall f mix flex n b l, stressLoop f mix flex (seq b n) = Ok l ->
  (forall i, (b <= i < b + n)%nat -> nth_error flex i = Some true ->
     exists s, f i (mix i) = Ok s /\ find (fun p => Nat.eqb (fst p) i) l = Some (i, s)) /\
  (forall i, ~ ((b <= i < b + n)%nat /\ nth_error flex i = Some true) ->
     find (fun p => Nat.eqb (fst p) i) l = None).
Proof.
  intros f mix flex. induction n as [|n IH]; intros b l H; cbn [seq stressLoop] in H.
  - injection H as <-. split; [intros; lia|reflexivity].
  - destruct (nth_error flex b) as [[]|] eqn:E; [| |discriminate].
    + destruct (f b (mix b)) as [s| | |] eqn:F; cbn [bind] in H; try discriminate.
      destruct (stressLoop f mix flex (seq (Datatypes.S b) n)) as [l'| | |] eqn:L; cbn [bind] in H; try discriminate.
      injection H as <-. destruct (IH _ _ L) as [P Q]. split; intros i I; cbn [find fst].
      * intro T. destruct (Nat.eqb_spec b i) as [e|e]; [subst i; eauto|]. apply P; auto. lia.
      * destruct (Nat.eqb_spec b i) as [e|e].
        { subst i. exfalso. apply I. split; [lia|auto]. }
        apply Q. intros [I1 I2]. apply I. split; [lia|auto].
    + destruct (IH _ _ H) as [P Q]. split; intros i I.
      * intro T. apply P; auto. assert (i <> b) by congruence. lia.
      * apply Q. intros [I1 I2]. apply I. split; [lia|auto].
Qed.

(** The stress that an environment hands out is the stress of the mixture as
    modified by the generators, for each flexible parameter and no other. *)
Theorem C61_stress : forall w mix flex e e',
  eHasStress e = false -> computeStress k1 k2 w (Some mix) flex e = Ok e' ->
  eNeeds e = false /\
  (forall i, (i < eNParam e)%nat -> nth_error flex i = Some true ->
     exists s, modifyStress k1 k2 w e i (mix i) = Ok s /\ stress e' i = Ok s) /\
  (forall i, ~ ((i < eNParam e)%nat /\ nth_error flex i = Some true) -> stress e' i = Throw) /\
  (forall i, stress (reset e') i = Throw).
Proof.
  intros w mix flex e e' H C. unfold computeStress in C. rewrite H in C.
  destruct (eNeeds e); cbn [negb check bind] in C; [discriminate|].
  destruct (Nat.eqb (eNParam e) 0); cbn [negb check bind] in C; [discriminate|].
  destruct (Nat.eqb (List.length (eStress e)) 0); cbn [check bind] in C; [|discriminate].
  destruct (stressLoop (modifyStress k1 k2 w e) mix flex (seq 0 (eNParam e))) as [l| | |] eqn:L; cbn [bind] in C; try discriminate.
  injection C as <-. destruct (stressLoop_ok _ _ _ _ _ _ L) as [P Q].
  split; auto. split; [|split].
  - intros i I T. destruct (P i ltac:(lia) T) as (s & F & D). exists s. split; auto.
    unfold stress. cbn [eHasStress check bind eStress]. now rewrite D.
  - intros i I. unfold stress. cbn [eHasStress check bind eStress]. rewrite Q; auto.
    intros [I1 I2]. apply I. split; [lia|auto].
  - intro i. reflexivity.
Qed.
End Stress.

(** The contributions of both generators are added before either modifies the sum. *)
Theorem C61_film : forall (sm : fsys -> maskGen -> nat -> outcome R) (sx : fsys -> extGen -> nat -> outcome R) fs w e g x i s a b id fb mk,
  eNeeds e = false -> e1 e = Some g -> e2 e = Some x ->
  sm w g i = Ok a -> sx w x i = Ok b -> fMask w = Some mk -> mFBulk g = Some fb ->
  fullToReduced (fLat w) (mNv g) = Ok id ->
  modifyStress (filmMask sm fs) (filmExt sx) w e i s =
    Ok (if (id =? Z.of_nat i)%Z then (s + a + b) * (fP w i - mET g) + (fs w - fb) else s + a + b).
Proof.
  intros sm sx fs w e g x i s a b id fb mk N E1 E2 A B M F I. unfold modifyStress. rewrite N, E1, E2.
  cbn [negb check bind filmMask filmExt gStress gModify]. rewrite A. cbn [bind]. rewrite B. cbn [bind].
  unfold maskModify. rewrite I, M, F. cbn [bind]. destruct (id =? Z.of_nat i)%Z; reflexivity.
Qed.

Example ex_stress : computeStress (plain Mask) (plain External) tt (Some (fun i => INR i)) [false; true] 
    (mkEnv false true true true [] false 2 (Some tt) (Some tt))
  = Ok (mkEnv false true true true [(1%nat, INR 1 + 0 + 0)] true 2 (Some tt) (Some tt)).
Proof. reflexivity. Qed.

(** The modified stress is the derivative of the excess free energy per area,
    (F - F_bulk) (L - T), if the unmodified one is the derivative of F. *)
From Coquelicot Require Import Coquelicot.
Theorem C61_excess : forall (F : R -> R) L dF T fb,
  is_derive F L dF -> is_derive (fun l => (F l - fb) * (l - T)) L (dF * (L - T) + (F L - fb)).
Proof.
  intros F L dF T fb H.
  assert (D1 : is_derive (fun l => F l - fb) L (dF - 0)) by (apply @is_derive_minus; [exact H|apply @is_derive_const]).
  assert (D2 : is_derive (fun l => l - T) L (1 - 0)) by (apply @is_derive_minus; [apply @is_derive_id|apply @is_derive_const]).
  replace (dF * (L - T) + (F L - fb)) with ((dF - 0) * (L - T) + (F L - fb) * (1 - 0)) by ring.
  exact (is_derive_mult (fun l => F l - fb) (fun l => l - T) L _ _ D1 D2 Rmult_comm).
Qed.

Print Assumptions C61_stress.
Print Assumptions C61_film.
Print Assumptions C61_excess.
