(** C13: the tridiagonal solver solves the system it was given. *)
From Coq Require Import Reals Arith Lia Lra.
From Verif Require Import TridiagSpec Tridiag.
Local Open Scope R_scope.

Section P.
Variables (n : nat) (d u l : nat -> R).
Let t := computeLU n d u l.
Let p := pivot d u l.

Lemma multiply_row : (forall i, (i + 1 < n)%nat -> p i <> 0) ->
  forall b i, (i < n)%nat -> multiply t b i = tri_row n d u l b i.
Proof.
  intros HP b i Hi. unfold multiply, tri_row, mulU. destruct i as [|k].
  - cbn [t computeLU t_n t_d t_u]. simpl pivot.
    destruct (Nat.eqb_spec 1 n); destruct (Nat.ltb_spec 1 n); try lia; lra.
  - cbn [t computeLU t_n t_d t_u t_l].
    destruct (Nat.eqb_spec (S k) n); [lia|].
    assert (N : pivot d u l k <> 0) by (apply HP; lia). simpl pivot.
    destruct (Nat.eqb_spec (S (S k)) n); destruct (Nat.ltb_spec (S (S k)) n); try lia;
      field; auto.
Qed.

Lemma bsub_row : (forall i, (i < n)%nat -> p i <> 0) -> forall y i, (i < n)%nat ->
  mulU t (fun j => bsub t y (n - 1 - j)) i = y i.
Proof.
  intros HP y i Hi. unfold mulU. cbn [t computeLU t_n].
  destruct (Nat.eqb_spec (S i) n) as [E|E].
  - replace (n - 1 - i)%nat with O by lia. cbn [bsub t computeLU t_n t_d].
    replace (n - 1)%nat with i by lia. field. apply HP; auto.
  - replace (n - 1 - i)%nat with (S (n - 2 - i)) by lia. cbn [bsub t computeLU t_n t_d t_u].
    replace (n - 2 - (n - 2 - i))%nat with i by lia.
    replace (n - 1 - S i)%nat with (n - 2 - i)%nat by lia.
    field. apply HP; auto.
Qed.

Lemma solve_mul : (forall i, (i < n)%nat -> p i <> 0) -> forall b i, (i < n)%nat ->
  multiply t (solve t b) i = b i.
Proof.
  intros HP b i Hi. unfold multiply.
  change (solve t b) with (fun j => bsub t (fsub t b) (n - 1 - j)).
  destruct i as [|k].
  - rewrite bsub_row by auto. reflexivity.
  - rewrite !bsub_row by (auto; lia). cbn [fsub]. lra.
Qed.

Lemma mulU_inj : (forall i, (i < n)%nat -> p i <> 0) -> forall x y,
  (forall i, (i < n)%nat -> mulU t x i = mulU t y i) -> forall k, (k < n)%nat -> x (n - 1 - k)%nat = y (n - 1 - k)%nat.
Proof.
  intros HP x y H. induction k; intros Hk.
  - assert (E := H (n - 1)%nat ltac:(lia)). unfold mulU in E. cbn [t computeLU t_n t_d] in E.
    rewrite Nat.sub_0_r. destruct (Nat.eqb_spec (S (n - 1)) n); [|lia].
    apply Rmult_eq_reg_l in E; auto. apply HP; lia.
  - assert (E := H (n - 1 - S k)%nat ltac:(lia)). unfold mulU in E. cbn [t computeLU t_n t_d t_u] in E.
    destruct (Nat.eqb_spec (S (n - 1 - S k)) n); [lia|].
    replace (S (n - 1 - S k)) with (n - 1 - k)%nat in E by lia.
    rewrite (IHk ltac:(lia)) in E. apply Rplus_eq_reg_r in E.
    apply Rmult_eq_reg_l in E; auto. apply HP; lia.
Qed.

Lemma multiply_mulU : forall x y, (forall i, (i < n)%nat -> multiply t x i = multiply t y i) ->
  forall i, (i < n)%nat -> mulU t x i = mulU t y i.
Proof.
  intros x y H. induction i; intros Hi.
  - apply (H O Hi).
  - assert (E := H (S i) Hi). unfold multiply in E. rewrite IHi in E by lia. lra.
Qed.

Lemma pivot_dominant : diag_dominant n d u l -> forall i, (i < n)%nat ->
  (if (S i <? n)%nat then Rabs (u i) else 0) < Rabs (p i).
Proof.
  intros HD. induction i; intros Hi.
  - specialize (HD O Hi). simpl in HD. unfold p; simpl. lra.
  - assert (IH := IHi ltac:(lia)). assert (D := HD (S i) Hi). cbv beta iota in D.
    unfold p in *. simpl pivot.
    destruct (Nat.ltb_spec (S i) n); [|lia].
    assert (N : pivot d u l i <> 0).
    { intros Z. rewrite Z, Rabs_R0 in IH. assert (Q := Rabs_pos (u i)). lra. }
    assert (B : Rabs (l i / pivot d u l i * u i) <= Rabs (l i)).
    { unfold Rdiv. rewrite !Rabs_mult, Rabs_inv.
      assert (P0 : 0 < Rabs (pivot d u l i)) by (apply Rabs_pos_lt; auto).
      assert (Q := Rabs_pos (l i)). assert (Q2 := Rabs_pos (u i)).
      apply Rle_trans with (Rabs (l i) * / Rabs (pivot d u l i) * Rabs (pivot d u l i)).
      - apply Rmult_le_compat_l; [|lra]. apply Rmult_le_pos; auto. left. apply Rinv_0_lt_compat; auto.
      - rewrite Rmult_assoc, Rinv_l by lra. lra. }
    assert (T := Rabs_triang_inv (d (S i)) (l i / pivot d u l i * u i)). lra.
Qed.

End P.

(** solve(b) returns the solution of A x = b when no pivot vanishes. *)
Theorem tridiagonal_solve_correct : forall n d u l b,
  (forall i, (i < n)%nat -> t_d (computeLU n d u l) i <> 0) ->
  forall i, (i < n)%nat -> tri_row n d u l (solve (computeLU n d u l) b) i = b i.
Proof.
  intros n d u l b HP i Hi. rewrite <- multiply_row by (auto; intros; apply HP; lia).
  apply solve_mul; auto.
Qed.

(** multiply(b) returns A b (the last pivot may vanish). *)
Theorem tridiagonal_multiply_correct : forall n d u l b,
  (forall i, (i + 1 < n)%nat -> t_d (computeLU n d u l) i <> 0) ->
  forall i, (i < n)%nat -> multiply (computeLU n d u l) b i = tri_row n d u l b i.
Proof. intros. apply multiply_row; auto. Qed.

(** multiply and solve are inverse to each other, in both orders, and the
    solution of A x = b is unique. *)
Theorem tridiagonal_solve_multiply_inverse : forall n d u l b,
  (forall i, (i < n)%nat -> t_d (computeLU n d u l) i <> 0) ->
  let t := computeLU n d u l in
  (forall i, (i < n)%nat -> multiply t (solve t b) i = b i) /\
  (forall i, (i < n)%nat -> solve t (multiply t b) i = b i) /\
  (forall x, (forall i, (i < n)%nat -> tri_row n d u l x i = b i) ->
     forall i, (i < n)%nat -> x i = solve t b i).
Proof.
  intros n d u l b HP t.
  assert (U : forall x y, (forall i, (i < n)%nat -> multiply t x i = multiply t y i) ->
     forall i, (i < n)%nat -> x i = y i).
  { intros x y H i Hi. replace i with (n - 1 - (n - 1 - i))%nat by lia.
    apply (mulU_inj n d u l HP x y); [|lia]. apply multiply_mulU; auto. }
  split; [|split].
  - apply solve_mul; auto.
  - apply U. intros i Hi. apply solve_mul; auto.
  - intros x Hx. apply U. intros i Hi. unfold t.
    rewrite multiply_row by (auto; intros; apply HP; lia).
    rewrite Hx by auto. symmetry. apply solve_mul; auto.
Qed.

(** The symmetric overload treats u as both off-diagonals. *)
Theorem tridiagonal_symmetric_overload : forall n d u b,
  (forall i, (i < n)%nat -> t_d (computeLUsym n d u) i <> 0) ->
  forall i, (i < n)%nat -> tri_row n d u u (solve (computeLUsym n d u) b) i = b i.
Proof. intros. apply tridiagonal_solve_correct; auto. Qed.

(** The hypothesis holds for every strictly diagonally dominant matrix. *)
Theorem tridiagonal_dominant_pivots : forall n d u l, diag_dominant n d u l ->
  forall i, (i < n)%nat -> t_d (computeLU n d u l) i <> 0.
Proof.
  intros n d u l HD i Hi Z. assert (H := pivot_dominant n d u l HD i Hi).
  simpl in Z. rewrite Z, Rabs_R0 in H.
  destruct (S i <? n)%nat; [assert (Q := Rabs_pos (u i))|]; lra.
Qed.

(** Example: a 3x3 non-symmetric system. *)
Example tridiag_3 :
  let d i := match i with O => 2 | 1%nat => 3 | _ => 4 end in
  let u i := match i with O => 1 | _ => -1 end in
  let l i := match i with O => 4 | _ => 2 end in
  let b i := match i with O => 4 | 1%nat => 7 | _ => 16 end in
  let t := computeLU 3 d u l in
  (forall i, (i < 3)%nat -> t_d t i <> 0) /\
  solve t b 0 = 1 /\ solve t b 1 = 2 /\ solve t b 2 = 3.
Proof.
  cbv zeta. split; [|repeat split].
  - intros i Hi. destruct i as [|[|[|i]]]; try lia; simpl; lra.
  - unfold solve; simpl; field.
  - unfold solve; simpl; field.
  - unfold solve; simpl; field.
Qed.

Print Assumptions tridiagonal_solve_correct.
Print Assumptions tridiagonal_multiply_correct.
Print Assumptions tridiagonal_solve_multiply_inverse.
Print Assumptions tridiagonal_symmetric_overload.
Print Assumptions tridiagonal_dominant_pivots.
