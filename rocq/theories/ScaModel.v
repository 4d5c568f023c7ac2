(** The distributed eigensolve of the minimal-norm stochastic reconfiguration. *)
From Coq Require Import List Arith Bool ZArith Reals.
From Verif Require Import Base Cplx MinsrModel.
Import ListNotations.
Local Open Scope nat_scope.

(** *** Library functions, as documented (ScaLAPACK TOOLS) *)
(** numroc_ with source process 0 (used by optimizer/minsr_scalapack.h:150-153 LocalBlockCyclicDim) *)
Definition numroc (n nb p P : nat) : nat :=
  let nblocks := n / nb in
  let base := nblocks / P * nb in
  let extra := nblocks mod P in
  if p <? extra then base + nb else if p =? extra then base + n mod nb else base.
(** indxl2g_ with source process 0, one-based (used by minsr_scalapack.h:167-172) *)
Definition indxl2g (l nb p P : nat) : nat := P * nb * ((l - 1) / nb) + (l - 1) mod nb + p * nb + 1.
(** *** The code *)
(** minsr_scalapack.h:167-172 BlockCyclicLocalToGlobal *)
Definition local_to_global (nb p P l : nat) : nat := indxl2g (l + 1) nb p P - 1.
(** std::numeric_limits<int>::max() (minsr_scalapack.h:197, 347) *)
Definition int_max : Z := 2147483647.
(** minsr_scalapack.h:208-217, 360-368 the local rows in column-major order: [rows] rows of [n] entries *)
Definition to_column_major (rows n : nat) (block : list C) : list C :=
  flat_map (fun j => map (fun i => nth (i * n + j) block (RtoC 0)) (seq 0 rows)) (seq 0 n).
(** the process grid (minsr_scalapack.h:109-122, row-major mapping): coordinates of a rank *)
Definition my_row (npcol r : nat) : nat := r / npcol.
(** the process grid (minsr_scalapack.h:109-122) *)
Definition my_col (npcol r : nat) : nat := r mod npcol.
(** leading dimension of the local part (minsr_scalapack.h:239, 389) *)
Definition lld (n nb nprow npcol r : nat) : nat := Nat.max 1 (numroc n nb (my_row npcol r) nprow).
(** x[k] += v (minsr_scalapack.h:299, 318) *)
Definition bump (x : nat -> C) (k : nat) (v : C) : nat -> C := fun i => if i =? k then (x i + v)%C else x i.
(** minsr_scalapack.h:293-301, 449-457: the part of Z^H rhs from one rank; [z]: its local data *)
Definition local_tmp (n nb nprow npcol r : nat) (z : list C) (rhs : nat -> C) : nat -> C :=
  fold_left (fun x lj =>
    let gj := local_to_global nb (my_col npcol r) npcol lj in
    fold_left (fun x li =>
      let gi := local_to_global nb (my_row npcol r) nprow li in
      bump x gj (Cconj (nth (li + lj * lld n nb nprow npcol r) z (RtoC 0)) * rhs gi)%C)
      (seq 0 (numroc n nb (my_row npcol r) nprow)) x)
    (seq 0 (numroc n nb (my_col npcol r) npcol)) (fun _ => RtoC 0).
(** minsr_scalapack.h:311-320, 467-476: the part of Z tmp from one rank *)
Definition local_result (n nb nprow npcol r : nat) (z : list C) (tmp : nat -> C) : nat -> C :=
  fold_left (fun x lj =>
    let gj := local_to_global nb (my_col npcol r) npcol lj in
    fold_left (fun x li =>
      let gi := local_to_global nb (my_row npcol r) nprow li in
      bump x gi (nth (li + lj * lld n nb nprow npcol r) z (RtoC 0) * tmp gj)%C)
      (seq 0 (numroc n nb (my_row npcol r) nprow)) x)
    (seq 0 (numroc n nb (my_col npcol r) npcol)) (fun _ => RtoC 0).
(** MPI_Allreduce with MPI_SUM (minsr_scalapack.h:303-304, 322-323, 459-460, 478-479) *)
Definition allreduce (parts : list (nat -> C)) : nat -> C := fun k => sumC (fun x => x k) parts.
(** the largest local position li + lj * lld, an int expression (minsr_scalapack.h:299, 318) *)
Definition last_position (n nb nprow npcol r : nat) : Z :=
  (Z.of_nat (numroc n nb (my_row npcol r) nprow) - 1 + (Z.of_nat (numroc n nb (my_col npcol r) npcol) - 1) * Z.of_nat (lld n nb nprow npcol r))%Z.
(** minsr_scalapack.h:192-326 and 342-482 on all ranks of a grid of nprow * npcol. [zs]: the local parts of the eigenvectors given by
    pdsyev_ / pzheev_ for each rank, [lam]: the eigenvalues. The real version is the one without conjugation; on real values they agree.
    The size of the workspace is assumed to be an int (simplification). *)
Definition scalapack_solve (n nb nprow npcol : nat) (r_pinv a_pinv : R) (soft : bool) (lam : list R) (zs : list (list C)) (rhs : nat -> C) : res (nat -> C) :=
  if (int_max <? Z.of_nat n)%Z then Fail Throw
  else if existsb (fun r => (int_max <? last_position n nb nprow npcol r)%Z) (seq 0 (nprow * npcol)) then Fail UB
  else
    let plus := pinv r_pinv a_pinv soft lam in
    let tmp := allreduce (map (fun r => local_tmp n nb nprow npcol r (nth r zs []) rhs) (seq 0 (nprow * npcol))) in
    let scaled := fun k => (tmp k * RtoC (nth k plus 0%R))%C in
    Ok (allreduce (map (fun r => local_result n nb nprow npcol r (nth r zs []) scaled) (seq 0 (nprow * npcol)))).
(** optimizer/optimizer_params.h:204-208 *)
Inductive solver_mode := Replicated | Distributed | Auto.
(** optimizer/minsr_eigensolve.h:278-305; [available]: built with ScaLAPACK *)
Definition use_scalapack (available : bool) (mode : solver_mode) (n : nat) : res bool :=
  match mode with
  | Replicated => Ok false
  | Distributed => if available then Ok true else Fail Throw
  | Auto => Ok (available && (5000 <? Z.of_nat n)%Z)
  end.
(** minsr_eigensolve.h:277-320 MinSREigenSolveDispatch; [z], [mu]: the eigenvectors and eigenvalues given by LAPACK, [zs], [lam]: those given by
    ScaLAPACK *)
Definition minsr_solve (available : bool) (mode : solver_mode) (n nb nprow npcol : nat) (r_pinv a_pinv : R) (soft : bool)
    (z : nat -> nat -> C) (mu : list R) (zs : list (list C)) (lam : list R) (rhs : nat -> C) : res (nat -> C) :=
  b <- use_scalapack available mode n;;
  if b : bool then scalapack_solve n nb nprow npcol r_pinv a_pinv soft lam zs rhs else Ok (apply_pinv n z (pinv r_pinv a_pinv soft mu) rhs).
