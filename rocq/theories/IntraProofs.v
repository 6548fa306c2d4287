(** Proofs for Intra.v: the path between two blocks of a tree *)
From Coq Require Import ZArith List Bool Arith Lia.
From Verif Require Import Base Polymer PolymerSpec PolymerProofs PolymerTree PolymerPaths PropsPolymer IntraSpec Intra.
Import ListNotations.

Lemma chained_inv : forall es x y l, chained es (x :: y :: l) -> feeds es x y /\ chained es (y :: l).
Proof. intros es x y l H. exact H. Qed.
Lemma chained_app : forall es l x y l', chained es (l ++ [x]) -> feeds es x y -> chained es (y :: l') ->
  chained es (l ++ x :: y :: l').
Proof.
  induction l as [|z l IH]; intros x y l' C F C'; [simpl; auto|].
  destruct l as [|w l]; [simpl in *; tauto|]. simpl in C |- *. split; [tauto|].
  apply (IH x y l'); auto. simpl. tauto.
Qed.
Lemma chained_l : forall es l l', chained es (l ++ l') -> chained es l.
Proof.
  induction l as [|z l IH]; intros l' C; [exact I|]. destruct l as [|w l]; [exact I|].
  simpl in C |- *. split; [tauto|]. apply (IH l'). simpl. tauto.
Qed.
Lemma chained_r : forall es l l', chained es (l ++ l') -> chained es l'.
Proof.
  induction l as [|z l IH]; intros l' C; [exact C|]. apply IH. simpl in C. destruct (l ++ l'); [exact I|tauto].
Qed.
Lemma chained_feeds : forall es l x y l', chained es (l ++ x :: y :: l') -> feeds es x y.
Proof. intros. apply chained_r in H. simpl in H. tauto. Qed.

Lemma feeds_flip : forall es x y, feeds es x y -> feeds es (flip y) (flip x).
Proof.
  intros es x y (P & Q & E & N). repeat split; auto. rewrite flip_end, flip_start. auto.
Qed.
Lemma chained_flip : forall es l, chained es l -> chained es (rev (map flip l)).
Proof.
  induction l as [|x l IH]; intros C; [exact I|]. simpl map. simpl rev.
  destruct l as [|y l]; [exact I|]. destruct C as [F C]. specialize (IH C). simpl in IH |- *.
  rewrite <- app_assoc. simpl. apply chained_app; auto. now apply feeds_flip. exact I.
Qed.

Section Tree.
Variables (es : list (nat * nat)) (fuel : nat) (p : polymer).
Hypothesis HT : tree es.
Hypothesis HF : 2 * length es <= fuel.
Hypothesis HR : readGraph fuel es = Ok p.

Lemma HW : well_formed es. Proof. apply HT. Qed.
Lemma HA : acyclic es. Proof. apply tree_acyclic, HT. Qed.
Lemma p_es : p_edges p = es.
Proof.
  destruct (readGraph_tree es fuel HT ltac:(lia)) as (p' & E & E1 & _). congruence.
Qed.
Lemma signpost : forall t w v, nbw es t w v -> pathAt (p_paths p) v t = snd (entryOf (t, w)).
Proof.
  destruct (readGraph_tree es fuel HT ltac:(lia)) as (p' & E & E1 & _ & _ & _ & P). assert (p' = p) by congruence. subst. auto.
Qed.

Lemma chained_nbw : forall l x y, chained es (x :: l) -> is_prop es x -> last (x :: l) x = y ->
  nbw es (s_start es x) (rev (x :: l)) (s_end es y).
Proof.
  intros l. induction l as [|z l IH] using rev_ind; intros x y C P L.
  - simpl in L. subst y. simpl. apply nbw_cons with (u := s_start es x); simpl; auto.
    constructor. apply start_le; auto. apply HW.
  - assert (y = z).
    { rewrite <- L. change (x :: l ++ [z]) with ((x :: l) ++ [z]). apply last_last. }
    clear L. subst y. change (x :: l ++ [z]) with ((x :: l) ++ [z]). rewrite rev_app_distr.
    change ((x :: l) ++ [z]) with (x :: l ++ [z]) in C.
    assert (C0 := C). change (x :: l ++ [z]) with ((x :: l) ++ [z]) in C0. apply chained_l in C0.
    assert (F : feeds es (last (x :: l) x) z).
    { destruct (exists_last (l := x :: l)) as (k & w & E); [discriminate|]. rewrite E, last_last.
      change (x :: l ++ [z]) with ((x :: l) ++ [z]) in C. rewrite E, <- app_assoc in C. simpl in C.
      apply chained_feeds in C. auto. }
    destruct F as (F1 & F2 & F3 & F4).
    specialize (IH x (last (x :: l) x) C0 P eq_refl).
    change (rev [z] ++ rev (x :: l)) with (z :: rev (x :: l)).
    apply nbw_cons with (u := s_end es (last (x :: l) x)); auto.
    destruct (exists_last (l := x :: l)) as (k & w & E); [discriminate|]. rewrite E in *. rewrite last_last in *.
    rewrite rev_app_distr. simpl. auto.
Qed.

(** Signpost at the start of a chain *)
Lemma signpost_chain : forall x l y, chained es (x :: l) -> is_prop es x -> last (x :: l) x = y ->
  pathAt (p_paths p) (s_start es x) (s_end es y) = Some x.
Proof.
  intros x l y C P L.
  assert (PY : is_prop es y).
  { destruct l as [|z l]; [simpl in L; congruence|]. subst y.
    destruct (exists_last (l := z :: l)) as (k & w & E); [discriminate|].
    rewrite E in *. change (x :: k ++ [w]) with ((x :: k) ++ [w]) in *. rewrite last_last.
    destruct (exists_last (l := x :: k)) as (k' & w' & E'); [discriminate|]. rewrite E' in C. rewrite <- app_assoc in C.
    simpl in C. apply chained_feeds in C. apply C. }
  assert (C' := chained_flip es _ C). 
  assert (N : nbw es (s_start es (flip y)) (rev (rev (map flip (x :: l)))) (s_end es (flip x))).
  { destruct (exists_last (l := x :: l)) as (k & w & E); [discriminate|]. rewrite E in *. rewrite last_last in L. subst w.
    rewrite map_app, rev_app_distr in *. simpl app in *. simpl map in *. simpl rev in *. simpl app in *.
    apply (chained_nbw (rev (map flip k)) (flip y)); auto.
    destruct k as [|x' k].
    - simpl in E. simpl. congruence.
    - simpl in E. assert (x' = x) by congruence. subst x'. simpl rev.
      change (flip y :: rev (map flip k) ++ [flip x]) with ((flip y :: rev (map flip k)) ++ [flip x]). apply last_last. }
  rewrite rev_involutive, flip_start, flip_end in N. rewrite (signpost _ _ _ N). simpl. now rewrite flip_flip.
Qed.
Lemma signpost_self : forall u, u <= length es -> pathAt (p_paths p) u u = None.
Proof. intros u L. rewrite (signpost u [] u); [reflexivity|constructor; auto]. Qed.

Lemma chain_open : forall x l y, chained es (x :: l) -> is_prop es x -> last (x :: l) x = y -> s_start es x <> s_end es y.
Proof.
  intros x l y C P L E. pose proof (signpost_chain x l y C P L) as S. rewrite <- E in S.
  rewrite signpost_self in S; [discriminate|]. apply start_le; auto. apply HW.
Qed.

(** ** Routes *)
Section Route.
Variables (A B : nat) (x : nat * bool) (l : list (nat * bool)) (y : nat * bool).
Hypothesis RT : route es A B x l y.

Lemma r_chain : chained es (x :: l ++ [y]). Proof. apply RT. Qed.
Lemma r_first : exists z l', l ++ [y] = z :: l' /\ feeds es x z /\ last (z :: l') z = y.
Proof.
  generalize r_chain. generalize l. intros [|z l'] C.
  - exists y, []. split; auto. simpl in C. split; [tauto|auto].
  - exists z, (l' ++ [y]). split; auto. simpl in C. split; [tauto|].
    change (z :: l' ++ [y]) with ((z :: l') ++ [y]). apply last_last.
Qed.
Lemma r_px : is_prop es x.
Proof. destruct r_first as (z & l' & _ & F & _). apply F. Qed.
Lemma r_last : exists k w, x :: l = k ++ [w] /\ feeds es w y /\ s_end es w = s_start es y.
Proof.
  destruct (exists_last (l := x :: l)) as (k & w & E); [discriminate|]. exists k, w. split; auto.
  pose proof r_chain as C. change (x :: l ++ [y]) with ((x :: l) ++ [y]) in C. rewrite E, <- app_assoc in C. simpl in C.
  apply chained_feeds in C. split; auto. apply C.
Qed.
Lemma r_py : is_prop es y.
Proof. destruct r_last as (k & w & _ & F & _). apply F. Qed.

Lemma last_xl : last (x :: l) x = last (x :: l) y.
Proof. destruct (exists_last (l := x :: l)) as (k & w & E); [discriminate|]. rewrite E, !last_last. auto. Qed.
(** Paths from the far end of A pass through x *)
Lemma far_far : pathAt (p_paths p) (s_start es x) (s_end es y) = Some x.
Proof.
  apply (signpost_chain x (l ++ [y])); [apply r_chain|apply r_px|].
  change (x :: l ++ [y]) with ((x :: l) ++ [y]). apply last_last.
Qed.
Lemma far_near : pathAt (p_paths p) (s_start es x) (s_start es y) = Some x.
Proof.
  destruct r_last as (k & w & E & F & EE). rewrite <- EE. apply (signpost_chain x l).
  - pose proof r_chain as C. change (x :: l ++ [y]) with ((x :: l) ++ [y]) in C. now apply chained_l in C.
  - apply r_px.
  - rewrite E. apply last_last.
Qed.
(** Paths from the near end of A do not pass through A *)
Lemma near_far : exists z, pathAt (p_paths p) (s_end es x) (s_end es y) = Some z /\ fst z <> fst x.
Proof.
  destruct r_first as (z & l' & E & F & L). exists z. destruct F as (F1 & F2 & F3 & F4). rewrite F3. split; auto.
  apply (signpost_chain z l'); auto. pose proof r_chain as C. rewrite E in C. simpl in C. tauto.
Qed.
Lemma near_near : forall z, pathAt (p_paths p) (s_end es x) (s_start es y) = Some z -> fst z <> fst x.
Proof.
  intros z H. generalize r_last r_chain. generalize l. intros [|w l'] RL C.
  - simpl in C. destruct C as [(F1 & F2 & F3 & F4) _]. rewrite F3, signpost_self in H; [discriminate|]. apply start_le; auto. apply HW.
  - destruct RL as (k & u & E' & F & EE).
    assert (C' : chained es (w :: l')).
    { cbn [app] in C. apply chained_inv in C. destruct C as [_ C]. change (w :: l' ++ [y]) with ((w :: l') ++ [y]) in C. now apply chained_l in C. }
    cbn [app] in C. apply chained_inv in C. destruct C as [(F1 & F2 & F3 & F4) _].
    rewrite F3, <- EE, (signpost_chain w l' u) in H; auto.
    + injection H as <-. auto.
    + destruct k as [|k0 k]; [simpl in E'; discriminate|]. simpl in E'. injection E' as _ E'. rewrite E'. apply last_last.
Qed.
End Route.

Lemma route_flip : forall A B x l y, route es A B x l y -> route es B A (flip y) (rev (map flip l)) (flip x).
Proof.
  intros A B x l y (E1 & E2 & C). split; [auto|split; [auto|]]. apply chained_flip in C.
  simpl map in C. rewrite map_app in C. simpl in C. rewrite rev_app_distr in C. simpl in C. exact C.
Qed.

Lemma edge_of : forall x : nat * bool, edgeAt (p_edges p) (fst x) = if snd x then (s_end es x, s_start es x) else (s_start es x, s_end es x).
Proof.
  intros [b d]. rewrite p_es. unfold edgeAt, s_start, s_end, s_edge. simpl. destruct (nth b es (0, 0)), d; auto.
Qed.

Lemma findEnd_route : forall A B x l y, route es A B x l y -> findEnd p A B = Ok (snd x).
Proof.
  intros A B x l y RT. destruct (RT) as (EA & EB & _). unfold findEnd. rewrite <- EA, <- EB, !edge_of.
  assert (FF := far_far A B x l y RT). assert (FN := far_near A B x l y RT). assert (NN := near_near A B x l y RT).
  destruct (near_far A B x l y RT) as ([z zd] & NF & NZ). simpl in NZ.
  assert (L1 : leaves p (s_start es x) (s_end es y) (fst x) = true).
  { unfold leaves, viaBlock. rewrite FF. destruct x. simpl. apply Nat.eqb_refl. }
  assert (L2 : leaves p (s_start es x) (s_start es y) (fst x) = true).
  { unfold leaves, viaBlock. rewrite FN. destruct x. simpl. apply Nat.eqb_refl. }
  assert (L3 : leaves p (s_end es x) (s_end es y) (fst x) = false).
  { unfold leaves, viaBlock. rewrite NF. destruct x. simpl in *. apply Nat.eqb_neq. auto. }
  assert (L4 : leaves p (s_end es x) (s_start es y) (fst x) = false).
  { unfold leaves, viaBlock. destruct (pathAt (p_paths p) (s_end es x) (s_start es y)) as [[w wd]|] eqn:E; auto.
    specialize (NN _ eq_refl). simpl in NN. destruct x. simpl in *. apply Nat.eqb_neq. auto. }
  destruct (snd x), (snd y); rewrite ?L1, ?L2, ?L3, ?L4; reflexivity.
Qed.

Lemma vertex_of : forall x : nat * bool, vertexId (edgeAt (p_edges p) (fst x)) (snd x) = s_start es x /\
  vertexId (edgeAt (p_edges p) (fst x)) (negb (snd x)) = s_end es x.
Proof. intros x. rewrite edge_of. destruct (snd x); auto. Qed.

Lemma begin_route : forall A B x l y, A <> B -> route es A B x l y ->
  begin p A B = Ok (Iter A (snd x) (s_end es x) (s_end es y)).
Proof.
  intros A B x l y NE RT. unfold begin. rewrite (findEnd_route A B x l y RT), (findEnd_route B A _ _ _ (route_flip _ _ _ _ _ RT)).
  destruct (Nat.eqb_spec A B); [congruence|]. cbn [negb check bind].
  destruct RT as (EA & EB & _). subst A B. rewrite (proj2 (vertex_of x)).
  change (snd (flip y)) with (negb (snd y)). rewrite (proj2 (vertex_of y)). reflexivity.
Qed.

Lemma edgesFrom_chain : forall l x y e d f, chained es (x :: l ++ [y]) -> is_prop es x -> length l < f ->
  edgesFrom f p (Iter e d (s_end es x) (s_end es y)) = Ok ((e, d) :: l).
Proof.
  induction l as [|z l IH]; intros x y e d f C P F; (destruct f as [|f]; [lia|]).
  - simpl in C. destruct C as [(F1 & F2 & F3 & F4) _]. cbn [edgesFrom].
    assert (N : notEnd (Iter e d (s_end es x) (s_end es y)) = true).
    { unfold notEnd; cbn [i_vertex i_target]. apply negb_true_iff, Nat.eqb_neq. rewrite F3.
      apply (start_ne_end es HW). auto. }
    rewrite N. unfold next. rewrite N. cbn [check bind i_vertex i_target]. rewrite F3.
    rewrite (signpost_chain y [] y) by (simpl; auto). destruct y as [b c].
    pose proof (vertex_of (b, c)) as [V1 V2]. cbn [fst snd] in V1, V2. rewrite V1, V2, Nat.eqb_refl.
    unfold is_prop in F2. cbn [fst] in F2. rewrite p_es. apply Nat.ltb_lt in F2. rewrite F2. cbn [check bind].
    destruct f; cbn [edgesFrom]; unfold notEnd; cbn [i_vertex i_target]; rewrite Nat.eqb_refl; reflexivity.
  - simpl app in C. apply chained_inv in C. destruct C as [(F1 & F2 & F3 & F4) C]. cbn [edgesFrom].
    assert (LL : last (z :: l ++ [y]) z = y) by (change (z :: l ++ [y]) with ((z :: l) ++ [y]); apply last_last).
    assert (N : notEnd (Iter e d (s_end es x) (s_end es y)) = true).
    { unfold notEnd; cbn [i_vertex i_target]. apply negb_true_iff, Nat.eqb_neq. rewrite F3.
      apply (chain_open z (l ++ [y])); auto. }
    rewrite N. unfold next. rewrite N. cbn [check bind i_vertex i_target]. rewrite F3.
    rewrite (signpost_chain z (l ++ [y]) y C F2 LL). destruct z as [b c].
    pose proof (vertex_of (b, c)) as [V1 V2]. cbn [fst snd] in V1, V2. rewrite V1, V2, Nat.eqb_refl.
    pose proof F2 as F2'. unfold is_prop in F2. cbn [fst] in F2. rewrite p_es. apply Nat.ltb_lt in F2. rewrite F2. cbn [check bind].
    cbn [length] in F. rewrite (IH (b, c) y b c f C F2') by lia. reflexivity.
Qed.

(** The blocks between A and B are visited once each, in order *)
Lemma edges_route : forall A B x l y f, A <> B -> route es A B x l y -> length l < f -> edges f p A B = Ok (x :: l).
Proof.
  intros A B x l y f NE RT F. unfold edges. rewrite (begin_route A B x l y NE RT). cbn [bind].
  rewrite (edgesFrom_chain l x y A (snd x) f); auto; [|apply RT|apply (r_px A B x l y RT)].
  destruct RT as (<- & _). destruct x; auto.
Qed.

Lemma chain_nodup : forall l, chained es l -> (forall x, In x l -> is_prop es x) -> NoDup (map fst l).
Proof.
  induction l as [|x l IH]; intros C P; simpl; constructor.
  - intros IN. apply in_map_iff in IN. destruct IN as (z & E & IN). apply in_split in IN. destruct IN as (l1 & l2 & ->).
    assert (C1 : chained es (x :: l1 ++ [z])).
    { apply (chained_l es _ l2). simpl. rewrite <- app_assoc. exact C. }
    assert (PX : is_prop es x) by (apply P; left; auto).
    destruct x as [b d], z as [b' d']. simpl in E. subst b'.
    destruct l1 as [|w l1]; [simpl in C1; destruct C1 as [(_ & _ & _ & N) _]; simpl in N; congruence|].
    assert (C2 : chained es ((b, d) :: w :: l1)).
    { apply (chained_l es _ [(b, d')]). exact C1. }
    destruct (exists_last (l := w :: l1)) as (k & u & EU); [discriminate|].
    assert (LU : last ((b, d) :: w :: l1) (b, d) = u).
    { rewrite EU. change ((b, d) :: k ++ [u]) with (((b, d) :: k) ++ [u]). apply last_last. }
    assert (FU : feeds es u (b, d')).
    { simpl app in C1. change (w :: l1 ++ [(b, d')]) with ((w :: l1) ++ [(b, d')]) in C1. rewrite EU in C1. rewrite <- app_assoc in C1.
      change ((b, d) :: k ++ [u] ++ [(b, d')]) with (((b, d) :: k) ++ u :: (b, d') :: []) in C1. now apply chained_feeds in C1. }
    destruct FU as (_ & _ & FU & _).
    destruct (Bool.eqb d d') eqn:ED.
    + apply eqb_prop in ED. subst d'. apply (chain_open (b, d) (w :: l1) u C2 PX LU). auto.
    + assert (d' = negb d) by (destruct d, d'; auto; discriminate). subst d'.
      assert (FW : feeds es (b, d) w) by (simpl in C2; tauto). destruct FW as (_ & PW & FW & _).
      assert (C3 : chained es (w :: l1)) by (simpl in C2; tauto).
      apply (chain_open w l1 u C3 PW).
      * rewrite EU. apply last_last.
      * rewrite FU, <- FW. destruct d; reflexivity.
  - apply IH; [|intros; apply P; right; auto]. destruct l; [exact I|]. simpl in C. tauto.
Qed.

Lemma route_blocks : forall A B x l y, route es A B x l y -> A <> B ->
  NoDup (A :: B :: map fst l) /\ forall z, In z l -> is_prop es z.
Proof.
  intros A B x l y RT NE. assert (P : forall z, In z (x :: l ++ [y]) -> is_prop es z).
  { destruct (RT) as (_ & _ & C). clear - C RT HT HF HR.
    assert (K : forall l, chained es l -> forall z, In z l -> is_prop es z \/ l = [z]).
    { clear. induction l as [|x l IH]; intros C z IN; [destruct IN|]. destruct l as [|y l].
      - destruct IN as [->|[]]. auto.
      - destruct IN as [->|IN]; [left; apply C|]. destruct C as [F C]. destruct (IH C z IN) as [H|H]; auto.
        injection H as <- <-. left. apply F. }
    intros z IN. destruct (K _ C z IN) as [H|H]; auto. destruct l; discriminate. }
  pose proof (chain_nodup _ (proj2 (proj2 RT)) P) as N. destruct RT as (EA & EB & _). simpl in N. rewrite map_app in N. simpl in N.
  rewrite EA, EB in N. split.
  - inversion N; subst. constructor.
    + intros [H|H]; [congruence|]. apply H1. apply in_or_app. auto.
    + apply (NoDup_Add (a := fst y) (l := map fst l)) in H2.
      * constructor; tauto.
      * rewrite <- (app_nil_r (map fst l)) at 1. apply Add_app.
  - intros z IN. apply P. right. apply in_or_app. auto.
Qed.

Lemma route_short : forall A B x l y, route es A B x l y -> A <> B -> length l + 2 <= length es.
Proof.
  intros A B x l y RT NE. destruct (route_blocks A B x l y RT NE) as [N P].
  assert (I : incl (A :: B :: map fst l) (seq 0 (length es))).
  { intros b [<-|[<-|IN]]; apply in_seq.
    - pose proof (r_px A B x l y RT) as H. destruct RT as (<- & _). unfold is_prop in H. lia.
    - pose proof (r_py A B x l y RT) as H. destruct RT as (_ & <- & _). unfold is_prop in H. lia.
    - apply in_map_iff in IN. destruct IN as (z & <- & IN). apply P in IN. unfold is_prop in IN. lia. }
  pose proof (NoDup_incl_length N I) as L. simpl in L. rewrite map_length, seq_length in L. lia.
Qed.

(** There is a route between any two blocks *)
Lemma nbw_chained : forall t w v, nbw es t w v -> chained es (rev w) /\ (forall z, In z w -> is_prop es z) /\
  match w with z :: _ => s_end es z = v | [] => t = v end /\ match rev w with z :: _ => s_start es z = t | [] => t = v end.
Proof.
  induction 1 as [L|w u x N IH PX SX HN]; [repeat split; simpl; tauto|]. destruct IH as (C & P & E & S).
  split; [|split; [|split; auto]].
  - simpl. destruct w as [|z w]; [exact I|]. simpl. rewrite <- app_assoc. simpl. apply chained_app; auto; [|exact I].
    simpl in HN. repeat split; auto. apply P. left; auto. congruence.
  - intros z [<-|IN]; auto.
  - simpl. destruct (rev w) as [|z r] eqn:ER.
    + simpl. assert (w = []) by (rewrite <- (rev_involutive w), ER; auto). subst w. congruence.
    + simpl. auto.
Qed.

Lemma route_exists : forall A B, A < length es -> B < length es -> A <> B -> exists x l y, route es A B x l y.
Proof.
  intros A B LA LB NE. pose proof HW as W. destruct (HT) as [_ HC].
  set (u := fst (s_edge es A)). set (v := fst (s_edge es B)).
  destruct (wf_edge es A W LA) as (U1 & _ & _). destruct (wf_edge es B W LB) as (V1 & _ & _).
  assert (PA : forall d, is_prop es (A, d)) by (intros; exact LA). assert (PB : forall d, is_prop es (B, d)) by (intros; exact LB).
  destruct (nbw_exists es W u v U1 (HC u v U1 V1)) as [w Hw].
  destruct (nbw_chained _ _ _ Hw) as (C & P & E & S). set (f := rev w) in *.
  (* prepend A *)
  assert (K1 : exists x f1, fst x = A /\ chained es (x :: f1) /\ (forall z, In z f1 -> is_prop es z) /\
     match rev f1 with z :: _ => s_end es z = v | [] => s_end es x = v end).
  { destruct f as [|z f'] eqn:EF.
    - exists (A, true), []. simpl. split; auto. split; auto. split; [tauto|]. unfold s_end. simpl. auto.
    - assert (IP : forall q, In q (z :: f') -> is_prop es q).
      { intros q IN. apply P. apply in_rev. fold f. rewrite EF. auto. }
      assert (EV : match rev (z :: f') with q :: _ => s_end es q = v | [] => False end).
      { rewrite <- EF. unfold f. rewrite rev_involutive. destruct w as [|q w']; auto. unfold f in EF. simpl in EF. discriminate. }
      destruct (Nat.eq_dec (fst z) A) as [Z|Z].
      + exists z, f'. split; auto. split; auto. split; [intros; apply IP; right; auto|].
        simpl in EV. destruct (rev f') as [|q r]; simpl in EV; auto.
      + exists (A, true), (z :: f'). split; auto. split.
        * split; auto. split; [apply PA|split; [apply IP; left; auto|split; [|simpl; auto]]]. unfold s_end. simpl. auto.
        * split; auto. destruct (rev (z :: f')); [contradiction|auto]. }
  destruct K1 as (x & f1 & EX & C1 & P1 & E1).
  destruct (exists_last (l := x :: f1)) as (k & q & EK); [discriminate|].
  assert (QV : s_end es q = v).
  { destruct f1 as [|z f1] using rev_ind.
    - simpl in E1. destruct k as [|k0 k]; simpl in EK; [congruence|]. injection EK as _ EK. destruct k; discriminate.
    - rewrite rev_app_distr in E1. simpl in E1. change (x :: f1 ++ [z]) with ((x :: f1) ++ [z]) in EK. apply app_inj_tail in EK.
      destruct EK as [_ ->]. auto. }
  assert (PX : is_prop es x) by (unfold is_prop; rewrite EX; auto).
  assert (PQ : is_prop es q).
  { assert (IN : In q (x :: f1)) by (rewrite EK; apply in_or_app; right; left; auto). destruct IN as [<-|IN]; auto. }
  destruct (Nat.eq_dec (fst q) B) as [Q|Q].
  - destruct k as [|k0 k].
    + simpl in EK. injection EK as -> ->. congruence.
    + simpl in EK. injection EK as -> ->. exists k0, k, q. split; [auto|split; auto].
  - exists x, f1, (B, false). split; [auto|split; auto].
    change (x :: f1 ++ [(B, false)]) with ((x :: f1) ++ [(B, false)]). rewrite EK, <- app_assoc. simpl.
    apply chained_app; [rewrite <- EK; auto| |exact I]. repeat split; auto.
Qed.

(** and only one *)
Lemma route_unique : forall A B x l y x' l' y', A <> B -> route es A B x l y -> route es A B x' l' y' ->
  x' = x /\ l' = l /\ y' = y.
Proof.
  intros A B x l y x' l' y' NE R R'.
  pose proof (edges_route A B x l y (length es) NE R) as E. pose proof (edges_route A B x' l' y' (length es) NE R') as E'.
  pose proof (route_short A B x l y R NE). pose proof (route_short A B x' l' y' R' NE).
  rewrite E in E' by lia. specialize (E' ltac:(lia)). injection E' as -> ->. split; auto. split; auto.
  destruct (r_last A B x' l' y R) as (k & w & K & F & EE). destruct (r_last A B x' l' y' R') as (k' & w' & K' & F' & EE').
  rewrite K in K'. apply app_inj_tail in K'. destruct K' as [_ ->].
  destruct R as (_ & B1 & _), R' as (_ & B2 & _). pose proof (start_ne_end es HW y ltac:(apply F)) as N.
  destruct y as [b d], y' as [b' d']. simpl in B1, B2. subst. f_equal.
  rewrite EE in EE'. unfold s_start in EE'. unfold s_start, s_end in N. simpl in *. destruct d, d'; auto; congruence.
Qed.
End Tree.
