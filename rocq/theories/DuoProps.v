(** Lattice containers: value semantics and memory (C29), iteration (C30). *)
From Coq Require Import List Arith Lia.
From Verif Require Import Base DuoModel DuoSpec DuoProofs DuoMain.
Import ListNotations.

(** C29: any history without self-assignment behaves as if every variable held its own value; it fails
    exactly when the value history is undefined, in particular no cell is used after or freed twice,
    and the cells alive are exactly the elements held. *)
Theorem c29_containers_are_values : forall (V : Type) (fresh : V) n (ops : list (op V)), Forall no_self ops ->
  match v_run fresh (repeat None n) ops with
  | Ok a => exists s, run fresh (start n) ops = Ok s /\ (forall x r c, read s x r c = v_read a x r c) /\ alive s = held a
  | Fail e => run fresh (start n) ops = Fail e
  end.
Proof. intros V. exact value_semantics. Qed.
Print Assumptions c29_containers_are_values.
(** Assigning a variable to itself (possible when assertions are off) destroys its elements. *)
Theorem c29_self_assignment_destroys : forall (V : Type) (fresh : V) n ops s a x,
  Forall no_self ops -> run fresh (start n) ops = Ok s -> v_run fresh (repeat None n) ops = Ok a ->
  (exists w, v_obj a x = Ok w) -> exists s', step fresh s (Assign x x) = Ok s' /\ forall r c, read s' x r c = Fail UB.
Proof. intros V. exact self_assignment. Qed.
Print Assumptions c29_self_assignment_destroys.
(** Comparison: same shape, every element set on both sides, and equal elements. *)
Theorem c29_comparison : forall (V : Type) (fresh : V) (eqv : V -> V -> bool) n ops s a x y w w',
  Forall no_self ops -> run fresh (start n) ops = Ok s -> v_run fresh (repeat None n) ops = Ok a ->
  v_obj a x = Ok w -> v_obj a y = Ok w' ->
  exists b, equal eqv s x y = Ok b /\
    (b = true <-> map (@length _) w = map (@length _) w' /\
      forall r c, inside w r c = true -> exists v v', v_read a x r c = Ok v /\ v_read a y r c = Ok v' /\ eqv v v' = true).
Proof. intros V. exact equal_history. Qed.
Print Assumptions c29_comparison.
(** Copy, write to the copy, move, overwrite by assignment, destroy: the original keeps its element. *)
Example c29_case : exists s,
  run 0 (start 3) [Construct 0 2 2; Write 0 1 0 7; Copy 1 0; Write 1 1 0 8; Move 2 1; Assign 1 2; Destroy 2] = Ok s /\
  read s 0 1 0 = Ok 7 /\ read s 1 1 0 = Ok 8 /\ alive s = 2.
Proof. eexists. split; [reflexivity|]. repeat split. Qed.
Example c29_self_case : exists s, run 0 (start 1) [Construct 0 1 1; Write 0 0 0 7; Assign 0 0] = Ok s /\ read s 0 0 0 = Fail UB.
Proof. eexists. split; reflexivity. Qed.

(** C30 *)
Theorem c30_row_major_once : forall rows cols fuel, 0 < rows -> 0 < cols -> rows * cols < fuel ->
  iterate fuel rows cols (0, 0) [] = Some (Ok (list_prod (seq 0 rows) (seq 0 cols))).
Proof. exact iterate_row_major. Qed.
Print Assumptions c30_row_major_once.
Theorem c30_default_matrix_is_empty : forall fuel, iterate (S fuel) 0 0 (0, 0) [] = Some (Ok []).
Proof. exact iterate_empty. Qed.
Print Assumptions c30_default_matrix_is_empty.
(** A matrix with rows but no columns cannot be iterated. *)
Theorem c30_no_columns_undefined : forall rows fuel, 0 < rows -> iterate (S fuel) rows 0 (0, 0) [] = Some (Fail UB).
Proof. exact iterate_no_columns. Qed.
Print Assumptions c30_no_columns_undefined.
Example c30_case : iterate 5 2 2 (0, 0) [] = Some (Ok [(0, 0); (0, 1); (1, 0); (1, 1)]). Proof. reflexivity. Qed.
