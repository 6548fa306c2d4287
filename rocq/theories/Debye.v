(** Correlation functions of ideal chains: pscf/chem/Debye.cpp.
    Simplification: reals for doubles. *)
From Coq Require Import Reals.
Local Open Scope R_scope.

(** The threshold 1.0E-5 *)
Definition small : R := 1 / 100000.
Definition isSmall (x : R) : bool := if Rlt_dec x small then true else false.

(** Debye.cpp 17-28: intrablock correlation function of a thread block *)
Definition dt (ksq length kuhn : R) : R :=
  let x := length * ksq * kuhn * kuhn / 6 in
  let d := if isSmall x then 1 - (x * x) / 3 else 2 * (exp (- x) - 1 + x) / (x * x) in
  d * (length * length).

(** Debye.cpp 33-48: intrablock correlation function of a bead block *)
Definition db (ksq nBead kuhn : R) : R :=
  let y := ksq * kuhn * kuhn / 6 in
  let x := nBead * y in
  if isSmall x then (1 - (x * x) / 3) * (nBead * nBead)
  else
    let z := exp (- y) in
    let u := 1 - z in
    2 * z * (exp (- x) + nBead * u - 1) / (u * u) + nBead.

(** Debye.cpp 53-64: end factor of a thread block *)
Definition et (ksq length kuhn : R) : R :=
  let x := ksq * length * kuhn * kuhn / 6 in
  let e := if isSmall x then 1 - x / 2 + x * x / 6 else (1 - exp (- x)) / x in
  e * length.

(** Debye.cpp 69-82: end factor of a bead block *)
Definition eb (ksq nBead kuhn : R) : R :=
  let y := ksq * kuhn * kuhn / 6 in
  let x := nBead * y in
  if isSmall x then (1 - x / 2 + x * x / 6) * nBead
  else
    let z := exp (- y) in
    (1 - exp (- x)) / (1 - z).
