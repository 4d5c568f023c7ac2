(** Configurations: files (C26), random generation (C27), messages (C28). *)
From Coq Require Import String Ascii List Arith NArith Lia Permutation.
From Verif Require Import Base ConfModel ConfSpec ConfProofs ConfRandom.
Import ListNotations.

(** C26: dumping and loading into a configuration of the same shape, whatever was on disk before. *)
Theorem c26_roundtrip : forall d dir label k k', 0 < c_cols k -> small k -> filled limit k -> same_shape k k' ->
  exists es k'', dump k dir label = Ok es /\ load (apply_events d es) dir label k' = (true, k'') /\ same_config k'' k.
Proof. exact roundtrip. Qed.
Print Assumptions c26_roundtrip.
(** Dumping, completely or up to a crash, does not change what another label or directory loads. *)
Theorem c26_other_labels_untouched : forall d dir label dir' label' k es j k', dump k dir label = Ok es -> (dir, label) <> (dir', label') ->
  load (apply_events d (firstn j es)) dir' label' k' = load d dir' label' k'.
Proof. exact other_files. Qed.
Print Assumptions c26_other_labels_untouched.
(** A shape file naming another shape: refused, and the configuration is unchanged. *)
Theorem c26_shape_mismatch : forall d dir label k r c, (r < limit)%N -> (c < limit)%N ->
  d (shape_path dir label) = Some (render r ++ str " " ++ render c ++ [ascii_of_N 10]) ->
  (r, c) <> (N.of_nat (c_rows k), N.of_nat (c_cols k)) -> load d dir label k = (false, k).
Proof. exact mismatch. Qed.
Print Assumptions c26_shape_mismatch.
(** Too few numbers followed by the end of the file or by something that is not a number: refused. *)
Theorem c26_damaged_file : forall d dir label k ns junk, d (data_path dir label) = Some (flat_map (fun n => render n ++ str " ") ns ++ junk) ->
  List.length ns < c_rows k * c_cols k -> (forall n, In n ns -> (n < limit)%N) -> not_a_number junk -> fst (load d dir label k) = false.
Proof. exact damaged. Qed.
Print Assumptions c26_damaged_file.
(** A crash at any point of a dump of states below ten: a load that succeeds gives the dumped state. *)
Theorem c26_crash_never_wrong : forall d dir label k k' es j, 0 < c_cols k -> filled 10 k -> same_shape k k' -> dump k dir label = Ok es -> 0 < j ->
  forall k'', load (apply_events d (firstn j es)) dir label k' = (true, k'') -> same_config k'' k.
Proof. exact crash. Qed.
Print Assumptions c26_crash_never_wrong.
(** With larger states a cut in the middle of the last number goes unnoticed. *)
Theorem c26_crash_large_states_refuted : exists d dir label k k' es j k'',
  0 < c_cols k /\ small k /\ filled limit k /\ same_shape k k' /\ dump k dir label = Ok es /\ 0 < j /\
  load (apply_events d (firstn j es)) dir label k' = (true, k'') /\ ~ same_config k'' k.
Proof. exact crash_large_states. Qed.
Print Assumptions c26_crash_large_states_refuted.
(** A failed load may have overwritten sites. *)
Theorem c26_failed_load_keeps_configuration_refuted : exists d dir label k k' r c,
  load d dir label k = (false, k') /\ c_cell k r c = Some 0%N /\ c_cell k' r c = Some 5%N.
Proof. exact failed_load_overwrites. Qed.
Print Assumptions c26_failed_load_keeps_configuration_refuted.
Example c26_case : exists es k'', let k := mkCfg 2 2 (fun r c => Some (N.of_nat (11 * r + c))) in
  dump k (str "d") 3 = Ok es /\ load (apply_events (fun _ => None) es) (str "d") 3 (mkCfg 2 2 (fun _ _ => None)) = (true, k'') /\
  c_cell k'' 1 1 = Some 12%N /\ apply_events (fun _ => None) es (str "d/configuration3") = Some (str "0 1
11 12
").
Proof. eexists. eexists. cbv zeta. split; [reflexivity|]. split; [reflexivity|]. split; reflexivity. Qed.
Example c26_mismatch_case : load (fun p => if text_eqb p (shape_path [] 0) then Some (str "3 2
") else None) [] 0 (mkCfg 2 2 (fun _ _ => Some 1%N)) = (false, mkCfg 2 2 (fun _ _ => Some 1%N)).
Proof. reflexivity. Qed.
Example c26_damaged_case : fst (load (fun p => if text_eqb p (data_path [] 0) then Some (str "1 0 x 1") else None) [] 0 (mkCfg 2 2 (fun _ _ => None))) = false.
Proof. reflexivity. Qed.

(** C27: whatever the shuffle does. *)
Theorem c27_random_occupancy : forall rows cols shuffle occ, (forall l, Permutation l (shuffle l)) ->
  (list_sum occ <> rows * cols -> random_occupancy rows cols shuffle occ = Fail Throw) /\
  (list_sum occ = rows * cols -> exists k, random_occupancy rows cols shuffle occ = Ok k /\
     List.length k = rows /\ (forall row, In row k -> List.length row = cols) /\
     forall s, count_occ Nat.eq_dec (concat k) s = nth s occ 0).
Proof. exact random_vector. Qed.
Print Assumptions c27_random_occupancy.
(** The version taking a map from states to numbers. *)
Theorem c27_random_map : forall rows cols shuffle occ, (forall l, Permutation l (shuffle l)) -> NoDup (map fst occ) ->
  (fold_left (fun s so => s + snd so) occ 0 <> rows * cols -> random_config rows cols shuffle occ = Fail Throw) /\
  (fold_left (fun s so => s + snd so) occ 0 = rows * cols -> exists k, random_config rows cols shuffle occ = Ok k /\
     List.length k = rows /\ (forall row, In row k -> List.length row = cols) /\
     (forall s n, In (s, n) occ -> count_occ Nat.eq_dec (concat k) s = n) /\
     (forall s, ~ In s (map fst occ) -> count_occ Nat.eq_dec (concat k) s = 0)).
Proof. exact random_map. Qed.
Print Assumptions c27_random_map.
(** CountOccupancy counts, and has no trailing zero. *)
Theorem c27_count_occupancy : forall k, (forall s, nth s (count_occupancy k) 0 = count_occ Nat.eq_dec (concat k) s) /\
  (concat k <> [] -> last (count_occupancy k) 0 <> 0).
Proof. exact count_occupancy_spec. Qed.
Print Assumptions c27_count_occupancy.
Example c27_case : random_occupancy 2 3 (@rev nat) [1; 3; 2] = Ok [[2; 2; 1]; [1; 1; 0]] /\ count_occupancy [[2; 2; 1]; [1; 1; 0]] = [1; 3; 2] /\
  random_occupancy 2 3 (@rev nat) [1; 3; 3] = Fail Throw.
Proof. repeat split. Qed.

(** C28, configurations: packed into one buffer and unpacked on the other side. *)
Theorem c28_configuration_transfer : forall k k', same_shape k k' -> (forall r c, r < c_rows k -> c < c_cols k -> exists n, c_cell k r c = Some n) ->
  exists buf k'', pack k = Ok buf /\ unpack buf k' = Ok k'' /\ same_config k'' k /\ List.length buf = c_rows k * c_cols k.
Proof. exact transfer. Qed.
Print Assumptions c28_configuration_transfer.
Example c28_configuration_case : pack (mkCfg 2 2 (fun r c => Some (N.of_nat (2 * r + c)))) = Ok [0; 1; 2; 3]%N.
Proof. reflexivity. Qed.
