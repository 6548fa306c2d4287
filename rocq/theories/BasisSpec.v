(** What a symmetry-adapted basis is, independent of how the code builds or uses it. *)
From Coq Require Import ZArith Reals List Bool.
From Coquelicot Require Import Complex.
From Verif Require Import Base MeshSpec Mesh FieldIo Basis.
From Coq Require Import List.
Import ListNotations.
Local Open Scope Z_scope.
Local Open Scope list_scope.

Definition wAt (b : basis) (i : Z) (w : wave) : Prop := 0 <= i /\ nth_error (bWaves b) (Z.to_nat i) = Some w.
Definition sAt (b : basis) (i : Z) (s : star) : Prop := 0 <= i /\ nth_error (bStars b) (Z.to_nat i) = Some s.

(** Stars from number [is] on: they occupy the waves from number [iw] on, without gaps;
    each is closed (flag 0) or the first of a pair of open ones (flags 1, -1) of which
    both or none are cancelled; the basis functions are numbered in the order of the
    stars from [ib] on, cancelled stars have number -1. *)
Inductive layout (nw nb : Z) : Z -> Z -> Z -> list star -> Prop :=
| lay_nil : forall is, layout nw nb is nw nb []
| lay_closed : forall is iw ib s r,
    sFlag s = 0 -> sStar s = is -> sBegin s = iw -> iw < sEnd s -> sEnd s <= nw -> sSize s = sEnd s - sBegin s ->
    sBasis s = (if sCancel s then -1 else ib) ->
    layout nw nb (is + 1) (sEnd s) (if sCancel s then ib else ib + 1) r ->
    layout nw nb is iw ib (s :: r)
| lay_pair : forall is iw ib s1 s2 r,
    sFlag s1 = 1 -> sFlag s2 = -1 -> sStar s1 = is -> sStar s2 = is + 1 -> sCancel s2 = sCancel s1 ->
    sBegin s1 = iw -> iw < sEnd s1 -> sBegin s2 = sEnd s1 -> sSize s1 = sEnd s1 - sBegin s1 ->
    sSize s2 = sEnd s2 - sBegin s2 -> sSize s2 = sSize s1 -> sEnd s2 <= nw ->
    sBasis s1 = (if sCancel s1 then -1 else ib) -> sBasis s2 = (if sCancel s1 then -1 else ib + 1) ->
    layout nw nb (is + 2) (sEnd s2) (if sCancel s1 then ib else ib + 2) r ->
    layout nw nb is iw ib (s1 :: s2 :: r).

Record goodBasis (b : basis) : Prop := mkGood {
  gb_init : bInit b = true;
  gb_ne : dimensions (bMesh b) <> [];
  gb_mesh : setDimensions (dimensions (bMesh b)) = Ok (bMesh b);
  gb_nstar : bNStar b = Z.of_nat (length (bStars b));
  gb_nwave : Z.of_nat (length (bWaves b)) = size (bMesh b);
  gb_layout : layout (size (bMesh b)) (bNBasis b) 0 0 0 (bStars b);
  (** every wave of the mesh exactly once *)
  gb_box : forall w, In w (bWaves b) -> in_box (dimensions (bMesh b)) (wDft w);
  gb_nodup : NoDup (map wDft (bWaves b));
  gb_star : forall is s iw, sAt b is s -> sBegin s <= iw < sEnd s -> exists w, wAt b iw w /\ wStar w = is;
  gb_wave : forall i w, wAt b i w -> exists s, sAt b (wStar w) s /\ sBegin s <= i < sEnd s;
  (** implicit: in the half of the mesh left out by the transform of a real field *)
  gb_implicit : forall w, In w (bWaves b) ->
    (wImplicit w = true <-> Z.quot (last (dimensions (bMesh b)) 0) 2 < last (wDft w) 0);
  (** the inverse wave; it is in the same star, for open stars in the partner *)
  gb_inv : forall i w, wAt b i w -> exists w', wAt b (wInv w) w' /\ wInv w' = i /\
    wDft w' = mShift (bMesh b) (vNeg (wDft w)) /\ (wImplicit w = false \/ wImplicit w' = false);
  gb_partner : forall is s i w w', sAt b is s -> wAt b i w -> wStar w = is -> wAt b (wInv w) w' ->
    wStar w' = is + sFlag s;
  (** coefficients of stars that are not cancelled are not too small *)
  gb_coeff : forall is s i w, sAt b is s -> wAt b i w -> wStar w = is -> sCancel s = false -> (1 / 10^8 < Cmod (wCoeff w))%R
}.

(** Fourier components of all stars for components [x] of the basis functions:
    the wave w of star s has the component times wCoeff w.  A closed star contributes
    x f; two open stars contribute ((x - iy) f + (x + iy) f* )/sqrt 2. *)
Definition component (x : list R) (s : star) : C :=
  if sCancel s then RtoC 0
  else if sFlag s =? 0 then (nth (Z.to_nat (sBasis s)) x 0%R, 0%R)
  else if sFlag s =? 1 then
    Cdiv (nth (Z.to_nat (sBasis s)) x 0%R, (- nth (Z.to_nat (sBasis s + 1)) x 0)%R) (RtoC (sqrt 2))
  else Cdiv (nth (Z.to_nat (sBasis s - 1)) x 0%R, nth (Z.to_nat (sBasis s)) x 0%R) (RtoC (sqrt 2)).

(** ** Names of stars in files *)
(** Stars can be found from the wave that is written for them. *)
Definition named (b : basis) (smin : list Z -> list Z) : Prop := forall is s, sAt b is s -> sCancel s = false ->
  length (sBz s) = length (dimensions (bMesh b)) /\ smin (sBz s) = sBz s /\
  exists i w, waveId b (mShift (bMesh b) (sBz s)) = Ok i /\ wAt b i w /\ wStar w = is.
(** waveIds_ finds waves *)
Definition indexed (b : basis) : Prop := forall u i w, length u = length (dimensions (bMesh b)) -> waveId b (mShift (bMesh b) u) = Ok i -> wAt b i w -> wDft w = mShift (bMesh b) u.
(** images are images *)
Definition images (b : basis) (smin : list Z -> list Z) : Prop := forall u, length u = length (dimensions (bMesh b)) ->
  length (smin u) = length (dimensions (bMesh b)) /\ mShift (bMesh b) (smin u) = mShift (bMesh b) u.
