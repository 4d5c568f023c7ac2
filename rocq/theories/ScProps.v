(** C85: numbering of the singlet pair correlations. *)
From Coq Require Import List Arith String Permutation.
From Verif Require Import Base ScModel ScSpec ScProofs.
Import ListNotations.
Local Open Scope nat_scope.

(** C85a: the coordinate table lists exactly the pairs of a selected horizontal bond and a horizontal bond in a row below it. *)
Theorem c85_table_complete : forall Ly Lx refs e, In e (index_mapping Ly Lx refs) <-> pair_row Ly Lx refs e.
Proof. exact mapping_rows. Qed.
Print Assumptions c85_table_complete.
(** C85b: each pair once, if no bond is selected twice. *)
Theorem c85_table_once : forall Ly Lx refs, NoDup refs -> NoDup (index_mapping Ly Lx refs).
Proof. exact mapping_once. Qed.
Print Assumptions c85_table_once.
(** The table does not depend on the order of the selection. *)
Theorem c85_any_order : forall Ly Lx refs refs', Permutation refs refs' -> index_mapping Ly Lx refs = index_mapping Ly Lx refs'.
Proof. exact any_order. Qed.
Print Assumptions c85_any_order.
(** C85c: the announced number of values is the number of rows of the table, for every selection. *)
Theorem c85_number_announced : forall Ly Lx refs, List.length (index_mapping Ly Lx refs) = snd (described Ly Lx refs).
Proof. exact mapping_number. Qed.
Print Assumptions c85_number_announced.
Theorem c85_number_of_lines : forall Ly Lx refs, List.length (coord_lines Ly Lx refs) = snd (described Ly Lx refs).
Proof. exact lines_number. Qed.
Print Assumptions c85_number_of_lines.
(** C85d: without a selection it is (Lx - 1)^2 Ly (Ly - 1) / 2. *)
Theorem c85_number_without_selection : forall Ly Lx, 1 <= Ly -> 1 <= Lx -> 2 * num_pairs Ly Lx [] = (Lx - 1) * (Lx - 1) * (Ly * (Ly - 1)).
Proof. exact full_number. Qed.
Print Assumptions c85_number_without_selection.
(** C85e: line i of the file is number i with row i of the table. *)
Theorem c85_file_lines : forall Ly Lx refs i, i < num_pairs Ly Lx refs -> nth_error (coord_lines Ly Lx refs) i = option_map (cons i) (nth_error (index_mapping Ly Lx refs) i).
Proof. exact lines_match. Qed.
Print Assumptions c85_file_lines.
(** C85f: the loops that store the values visit the pairs in the order of the table, if no bond is selected twice. *)
Theorem c85_order_of_values : forall Ly Lx refs, NoDup refs -> measured_order Ly Lx refs = index_mapping Ly Lx refs.
Proof. exact order_matches. Qed.
Print Assumptions c85_order_of_values.
(** C85g: with a bond selected twice, more values are announced than stored. *)
Theorem c85_duplicates_refuted : exists Ly Lx refs, List.length (measured_order Ly Lx refs) < num_pairs Ly Lx refs /\ ~ NoDup (index_mapping Ly Lx refs).
Proof. exact duplicates_differ. Qed.
Print Assumptions c85_duplicates_refuted.
(** C85h: the announced observable is never delivered: enabled, no sample has observables; disabled, they lack it. *)
Theorem c85_delivery_refuted : forall V enabled grow (out : res (list (string * V))), (forall o, out = Ok o -> ~ In (fst (described 2 2 [])) (map fst o)) ->
  (enabled = true -> forall o, evaluate_observables enabled grow out <> Ok o) /\
  (forall o, evaluate_observables enabled grow out = Ok o -> enabled = false /\ out = Ok o /\ ~ In (fst (described 2 2 [])) (map fst o)).
Proof. exact @never_measured. Qed.
Print Assumptions c85_delivery_refuted.

(** a selection in the wrong order, with a bond outside of the lattice *)
Example c85_example_selection : index_mapping 3 3 [(1, 1); (0, 1); (7, 0)] =
  [[0;1;0;1;0;0]; [0;1;0;1;1;0]; [0;1;0;2;0;0]; [0;1;0;2;1;0]; [1;1;0;2;0;0]; [1;1;0;2;1;0]] /\ measured_order 3 3 [(1, 1); (0, 1); (7, 0)] = index_mapping 3 3 [(1, 1); (0, 1); (7, 0)].
Proof. split; vm_compute; reflexivity. Qed.
Example c85_example_delivery : evaluate_observables false (Ok tt) (Ok [("energy"%string, 1)]) = Ok [("energy"%string, 1)] /\ evaluate_observables true (Ok tt) (Ok [("energy"%string, 1)]) = Fail Throw.
Proof. split; reflexivity. Qed.
