(** Model of the discrete Fourier transforms of src/prdc/cpu/FFT.{h,tpp}.

    The FFTW library itself is not modelled; its r2c and c2r transforms are
    given by their mathematical definition (FFTW manual, "The 1d Real-data DFT"
    and "Multi-dimensional Transforms"): the r2c output holds the components
    with last index 0..n/2, and the c2r transform of such data is the sum over
    these components of the real part of X exp(+i theta), counted twice unless
    the last index is 0 or n/2.  Arithmetic is exact. *)
From Coq Require Import Reals ZArith List.
From Verif Require Import Base RSum Mesh.
Import ListNotations.
Local Open Scope R_scope.

(** FFT.tpp 262-275: dimensions of the k-grid. *)
Fixpoint computeKMesh (dims : list Z) : list Z :=
  match dims with
  | [] => []
  | [d] => [(Z.quot d 2 + 1)%Z]
  | d :: ds => d :: computeKMesh ds
  end.
(** FFT.tpp 98-108, 264-273: rSize_ and kSize_. *)
Fixpoint gridSize (dims : list Z) : Z :=
  match dims with [] => 1%Z | d :: ds => (d * gridSize ds)%Z end.

(** FFT.h 268-285. *)
Definition hasImplicitInverse (wavevector dims : list Z) : bool :=
  let i := last wavevector 0%Z in
  let d := last dims 0%Z in
  if (negb (i =? 0)%Z && (Z.quot d 2 + 1 <? d - i)%Z)%bool then true else false.

(** Angle 2 pi sum_d k_d r_d / n_d of the Fourier kernel. *)
Fixpoint phase (dims k r : list Z) : R :=
  match dims, k, r with
  | d :: ds, a :: k', b :: r' => 2 * PI * IZR (a * b) / IZR d + phase ds k' r'
  | _, _, _ => 0
  end.

(** Grid positions by rank (Mesh::position). *)
Definition gridPos (dims : list Z) (r : nat) : list Z :=
  position_loop (mk_offsets dims) (Z.of_nat r).

Section Grid.
Variable dims : list Z.
Definition nR : nat := Z.to_nat (gridSize dims).
Definition nK : nat := Z.to_nat (gridSize (computeKMesh dims)).
Definition theta (k r : nat) : R := phase dims (gridPos (computeKMesh dims) k) (gridPos dims r).

(** FFT.tpp 148-170: forwardTransform, including the factor 1/rSize_. *)
Definition fftForward (f : nat -> R) (k : nat) : R * R :=
  (rsum nR (fun r => f r * cos (theta k r)) * (1 / INR nR),
   - rsum nR (fun r => f r * sin (theta k r)) * (1 / INR nR)).

(** Multiplicity of a component of the k-grid in the c2r transform. *)
Definition c2rWeight (k : nat) : R :=
  let l := last (gridPos (computeKMesh dims) k) 0%Z in
  if ((l =? 0) || (2 * l =? last dims 0))%Z%bool then 1 else 2.

(** FFT.tpp 176-188: inverseTransformUnsafe. *)
Definition fftInverse (X : nat -> R * R) (r : nat) : R :=
  rsum nK (fun k => c2rWeight k * (fst (X k) * cos (theta k r) - snd (X k) * sin (theta k r))).

(** The loop qk[i][0] *= e[i]; qk[i][1] *= e[i]. *)
Definition mulK (e : nat -> R) (X : nat -> R * R) (k : nat) : R * R :=
  (fst (X k) * e k, snd (X k) * e k).
End Grid.
