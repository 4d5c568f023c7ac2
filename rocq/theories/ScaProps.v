(** C91 *)
From Coq Require Import List Arith Bool ZArith Reals Lia.
From Verif Require Import Base Cplx MinsrModel MinsrSpec ScaModel ScaSpec ScaMain.
Import ListNotations.
Local Open Scope nat_scope.

(** C91: for every process grid and block size, if each rank holds fewer than 2^31 entries, the result is Z diag(lambda+) Z^H rhs, Z the
    distributed eigenvectors. *)
Theorem c91_solve n nb nprow npcol z zs r a soft lam rhs : 0 < nb -> 0 < nprow -> 0 < npcol -> distributed n nb nb nprow npcol z zs ->
  (Z.of_nat n <= 2147483647)%Z -> (forall p q, p < nprow -> q < npcol -> (Z.of_nat (owned nb nprow p n) * Z.of_nat (owned nb npcol q n) <= 2147483647)%Z) ->
  exists y, scalapack_solve n nb nprow npcol r a soft lam zs rhs = Ok y /\
    forall i, i < n -> y i = sumC (fun k => z i k * (RtoC (nth k (pinv r a soft lam) 0%R) * sumC (fun j => Cconj (z j k) * rhs j) (seq 0 n)))%C (seq 0 n).
Proof. exact (solve_ok n nb nprow npcol z zs r a soft lam rhs). Qed.
Print Assumptions c91_solve.

(** C91: the result does not depend on which eigenvectors of the matrix are returned. *)
Theorem c91_independent n T z w lam mu r a soft rhs : eigensystem n T z lam -> eigensystem n T w mu -> (0 <= r)%R -> (0 <= a)%R ->
  forall i, i < n -> apply_pinv n z (pinv r a soft lam) rhs i = apply_pinv n w (pinv r a soft mu) rhs i.
Proof. exact (independent n T z w lam mu r a soft rhs). Qed.
Print Assumptions c91_independent.

(** C91: whichever solver is chosen, a result is that of the replicated one. *)
Theorem c91_any_mode available mode n nb nprow npcol T z mu w lam zs r a soft rhs y : 0 < nb -> 0 < nprow -> 0 < npcol -> distributed n nb nb nprow npcol w zs ->
  eigensystem n T z mu -> eigensystem n T w lam -> (0 <= r)%R -> (0 <= a)%R -> minsr_solve available mode n nb nprow npcol r a soft z mu zs lam rhs = Ok y ->
  forall i, i < n -> y i = apply_pinv n z (pinv r a soft mu) rhs i.
Proof. exact (any_mode available mode n nb nprow npcol T z mu w lam zs r a soft rhs y). Qed.
Print Assumptions c91_any_mode.

(** C91: which solver is chosen; a distributed solver that is not there is an error. *)
Theorem c91_choice available mode n nb nprow npcol z mu zs lam r a soft rhs : let y := minsr_solve available mode n nb nprow npcol r a soft z mu zs lam rhs in
  let replicated := Ok (apply_pinv n z (pinv r a soft mu) rhs) in let distributed := scalapack_solve n nb nprow npcol r a soft lam zs rhs in
  (mode = Replicated -> y = replicated) /\ (mode = Distributed -> y = if available then distributed else Fail Throw) /\
  (mode = Auto -> (available = true /\ (5000 < Z.of_nat n)%Z -> y = distributed) /\ (available = false \/ (Z.of_nat n <= 5000)%Z -> y = replicated)).
Proof. exact (choice available mode n nb nprow npcol z mu zs lam r a soft rhs). Qed.
Print Assumptions c91_choice.

(** C91: what is handed to the redistribution is the matrix: with [s] rows on each of [P] ranks, the converted blocks hold it in blocks of [s]
    rows on a column of [P] processes. *)
Theorem c91_source P s T blocks : 0 < s -> length blocks = P -> row_blocks (P * s) s T blocks -> distributed (P * s) s (P * s) P 1 T (map (to_column_major s (P * s)) blocks).
Proof. exact (source P s T blocks). Qed.
Print Assumptions c91_source.

(** C91: matrices that do not fit an int are refused. *)
Theorem c91_too_large n nb nprow npcol zs r a soft lam rhs : (2147483647 < Z.of_nat n)%Z -> scalapack_solve n nb nprow npcol r a soft lam zs rhs = Fail Throw.
Proof. exact (too_large n nb nprow npcol zs r a soft lam rhs). Qed.
Print Assumptions c91_too_large.

(** C91 is false if only the size of the matrix is to fit an int: the position in the local data overflows. *)
Theorem c91_overflow_refuted n nb zs r a soft lam rhs : 0 < nb -> (46341 <= Z.of_nat n <= 2147483647)%Z -> scalapack_solve n nb 1 1 r a soft lam zs rhs = Fail UB.
Proof. exact (overflow n nb zs r a soft lam rhs). Qed.
Print Assumptions c91_overflow_refuted.

(** non-vacuity: three rows and columns in blocks of one on a grid of two rows and one column *)
Example c91_three (z : nat -> nat -> C) : distributed 3 1 1 2 1 z [[z 0 0; z 2 0; z 0 1; z 2 1; z 0 2; z 2 2]; [z 1 0; z 1 1; z 1 2]].
Proof. intros i j I J. destruct i as [|[|[|i]]]; [| | |lia]; (destruct j as [|[|[|j]]]; [| | |lia]); reflexivity. Qed.
Example c91_blocks (T : nat -> nat -> C) : row_blocks 2 1 T [[T 0 0; T 0 1]; [T 1 0; T 1 1]].
Proof. intros r i j R I J. destruct r as [|[|r]]; [| |cbn in R; lia]; (destruct i as [|i]; [|lia]); (destruct j as [|[|j]]; [| |lia]); reflexivity. Qed.
(** two eigensystems of the unit matrix *)
Example c91_unit : let T := (fun i j => if i =? j then RtoC 1 else RtoC 0) in eigensystem 2 T T [1%R; 1%R] /\ eigensystem 2 T (fun i j => T i (1 - j)) [1%R; 1%R].
Proof.
  cbv zeta. split; (split; [reflexivity|split]); intros k l K L; (destruct k as [|[|k]]; [| |lia]); (destruct l as [|[|l]]; [| |lia]); cbn [seq Nat.eqb Nat.sub nth]; rewrite !sumC_cons, !sumC_nil;
    apply C_ext; unfold Cadd, Cmul, Cconj, RtoC; simpl; ring.
Qed.
