(** Simple update and loop update: the Hamiltonian pieces in the gates of one sweep
    (square_lattice_nn_simple_update.h, square_lattice_nnn_simple_update.h,
    triangle_nn_on_sqr_peps_simple_update.h), the passes of the loop update (loop_update_impl.h) and the
    stopping rule of both (simple_update_impl.h, loop_update_impl.h). Projections, SVDs and the Taylor
    series of the gates are not modelled; energies and lambdas are real numbers. *)
From Coq Require Import List Arith Bool Reals.
From Verif Require Import Base Rsum OptModel LbModel.
Import ListNotations.
Local Open Scope nat_scope.

(** A piece of a gate Hamiltonian: the two-site term on sites [s t] in this order, the diagonal term, or the
    on-site term given for site [owner] acting on site [acts]. (square_lattice_nn_simple_update.h:165-283, square_lattice_nnn_simple_update.h:150-306) *)
Inductive term := TNN (s t : site) | TDiag (s t : site) | TOn (acts owner : site).
(** square_lattice_nn_simple_update.h:165-283 *)
Definition gate := list (term * R).

Section L.
Variables (rows cols : nat) (pbc : bool).
(** square_lattice_nn_simple_update.h:188-189: [size_t] arithmetic; sizes are at least one *)
Definition hor_limit : nat := if pbc then cols else cols - 1.
(** square_lattice_nn_simple_update.h:186-190 *)
Definition ver_limit : nat := if pbc then rows else rows - 1.
(** a condition counted as 0 or 1 *)
Definition b2n (b : bool) : nat := if b then 1 else 0.
(** 1/n for a count n *)
Definition inv (n : nat) : R := (/ INR n)%R.

(** SetEvolveGate_, 223-239 (217-218 for the two coordination numbers) *)
Definition hor_gate (row col : nat) : gate :=
  let edge := b2n (negb pbc && ((row =? 0) || (row =? rows - 1))) in
  let n1 := 4 - edge - b2n (negb pbc && (col =? 0)) in
  let n2 := 4 - edge - b2n (negb pbc && (col =? cols - 2)) in
  let s := (row, col) in let t := (row, (col + 1) mod cols) in
  [(TNN s t, 1%R); (TOn s s, inv n1); (TOn t t, inv n2)].
(** 247-277 *)
Definition ver_gate (row col : nat) : gate :=
  let edge := b2n (negb pbc && ((col =? 0) || (col =? cols - 1))) in
  let n1 := 4 - edge - b2n (negb pbc && (row =? 0)) in
  let n2 := 4 - edge - b2n (negb pbc && (row =? rows - 2)) in
  let s := (row, col) in let t := ((row + 1) mod rows, col) in
  [(TNN s t, 1%R); (TOn s s, inv n1); (TOn t t, inv n2)].
(** SimpleUpdateSweep_, the order in which the gates are applied; (square_lattice_nn_simple_update.h:285-335) *)
Definition nn_sweep : list gate :=
  flat_map (fun col => map (fun row => ver_gate row col) (seq 0 ver_limit)) (seq 0 cols) ++
  flat_map (fun col => map (fun row => hor_gate row col) (seq 0 rows)) (seq 0 hor_limit).

(** square_lattice_nnn_simple_update.h. [lambda_vert.rows()], [lambda_horiz.cols()]: one more than the
    lattice for open boundaries (square_lattice_peps_basic_impl.h); (square_lattice_nnn_simple_update.h:120-306) *)
Inductive tri := UpperRight | UpperLeft | LowerRight | LowerLeft.
(** square_lattice_peps_basic_impl.h:72-97 *)
Definition lv_rows : nat := if pbc then rows else rows + 1.
(** square_lattice_peps_basic_impl.h:72-97 *)
Definition lh_cols : nat := if pbc then cols else cols + 1.
(** the sites the projection acts on, in the order of the gate legs
    (square_lattice_peps_projection_impl.h:284-, 391-, 498-, 601-); [r c]: upper left corner of the plaquette *)
Definition acted (p : tri) (r c : nat) : site * site * site :=
  let r' := (r + 1) mod lv_rows in let c' := (c + 1) mod lh_cols in
  match p with
  | UpperLeft => ((r, c'), (r, c), (r', c))
  | UpperRight => ((r, c), (r, c'), (r', c'))
  | LowerLeft => ((r, c), (r', c), (r', c'))
  | LowerRight => ((r, c'), (r', c'), (r', c))
  end.
(** ConstructTriHamiltonian 135-157: the sites the code believes the gate acts on; LowerLeft has the row of
    its third site wrong *)
Definition tri_sites (p : tri) (b : site) : site * site * site :=
  let down := (fst b + 1) mod lv_rows in let up := (fst b + lv_rows - 1) mod lv_rows in
  let right := (snd b + 1) mod lh_cols in let left := (snd b + lh_cols - 1) mod lh_cols in
  match p with
  | UpperLeft => ((fst b, right), b, (down, snd b))
  | UpperRight => ((fst b, left), b, (down, snd b))
  | LowerLeft => ((up, snd b), b, (up, right))
  | LowerRight => ((up, snd b), b, (fst b, left))
  end.
(** 186-226 *)
Definition hor_num (p : tri) (b : site) : nat :=
  match p with
  | UpperLeft | UpperRight => if negb pbc && (fst b =? 0) then 2 else 4
  | LowerLeft | LowerRight => if negb pbc && (fst b =? rows - 1) then 2 else 4
  end.
(** square_lattice_nnn_simple_update.h:180-240 *)
Definition ver_num (p : tri) (b : site) : nat :=
  match p with
  | UpperLeft | LowerLeft => if negb pbc && (snd b =? 0) then 2 else 4
  | UpperRight | LowerRight => if negb pbc && (snd b =? cols - 1) then 2 else 4
  end.
(** 237-254 *)
Definition site_num (s : site) : nat :=
  let '(r, c) := s in
  if pbc then 12
  else if (r =? 0) && (0 <? c) && (c <? cols - 1) then 6
  else if (r =? rows - 1) && (0 <? c) && (c <? cols - 1) then 6
  else if (c =? 0) && (0 <? r) && (r <? rows - 1) then 6
  else if (c =? cols - 1) && (0 <? r) && (r <? rows - 1) then 6
  else if (r =? 0) && ((c =? 0) || (c =? cols - 1)) then 3
  else if (r =? rows - 1) && ((c =? 0) || (c =? cols - 1)) then 3
  else 12.
(** the corner B of the triangle of plaquette [r c], SetEvolveGate_ 312-325 *)
Definition corner (p : tri) (r c : nat) : site :=
  let r' := (r + 1) mod lv_rows in let c' := (c + 1) mod lh_cols in
  match p with UpperLeft => (r, c) | UpperRight => (r, c') | LowerLeft => (r', c) | LowerRight => (r', c') end.
(** 121-280; the first and second two-site terms are horizontal and vertical for the upper triangles, vertical
    and horizontal for the lower ones *)
Definition tri_gate (onsite : bool) (p : tri) (r c : nat) : gate :=
  let b := corner p r c in
  let '(sa, sb, sc) := acted p r c in
  let '(oa, ob, oc) := tri_sites p b in
  let h := inv (hor_num p b) in let v := inv (ver_num p b) in
  let '(ab, bc) := match p with UpperLeft | UpperRight => (h, v) | LowerLeft | LowerRight => (v, h) end in
  [(TDiag sa sc, (1 / 2)%R); (TNN sa sb, ab); (TNN sb sc, bc)] ++
  (if onsite then [(TOn sa oa, inv (site_num oa)); (TOn sb ob, inv (site_num ob)); (TOn sc oc, inv (site_num oc))] else []).
(** SimpleUpdateSweep_ 330-400 *)
Definition nnn_sweep (onsite : bool) : list gate :=
  flat_map (fun p => flat_map (fun col => map (fun row => tri_gate onsite p row col) (seq 0 ver_limit)) (seq 0 hor_limit))
    [UpperRight; LowerRight; LowerLeft; UpperLeft].

(** triangle_nn_on_sqr_peps_simple_update.h:52-82, open boundaries. [ham_tri] is taken as the sum of the terms
    on the three bonds of the triangle, [ham_nn] as the term of one bond. *)
Definition edge_gate (s t : site) : gate := [(TNN s t, 1%R)].
(** triangle_nn_on_sqr_peps_simple_update.h:53-85 *)
Definition triangle_gate (s t u : site) : gate := [(TNN s t, 1%R); (TNN t u, 1%R); (TDiag s u, 1%R)].
(** triangle_nn_on_sqr_peps_simple_update.h:53-70 *)
Definition triangle_first : list gate :=
  map (fun row => edge_gate (row, 0) (row + 1, 0)) (seq 0 (rows - 1)) ++
  flat_map (fun col => edge_gate (0, col - 1) (0, col) ::
    map (fun row => triangle_gate (row, col) (row + 1, col) (row + 1, col - 1)) (seq 0 (rows - 1))) (seq 1 (cols - 1)).
(** triangle_nn_on_sqr_peps_simple_update.h:72-85 *)
Definition triangle_second : list gate :=
  flat_map (fun col => map (fun row => triangle_gate (row, col + 1) (row, col) (row + 1, col)) (seq 0 (rows - 1)) ++
    [edge_gate (rows - 1, col) (rows - 1, col + 1)]) (seq 0 (cols - 1)) ++
  map (fun row => edge_gate (row, cols - 1) (row + 1, cols - 1)) (seq 0 (rows - 1)).

(** loop_update_impl.h:344-363: the plaquettes of the four passes *)
Definition evens (start limit : nat) : list nat := map (fun k => start + 2 * k) (seq 0 ((limit + 1 - start) / 2)).
(** loop_update_impl.h:330-389 *)
Definition loop_pass (start_col start_row : nat) : list site :=
  flat_map (fun col => map (fun row => (row, col)) (evens start_row ver_limit)) (evens start_col hor_limit).
(** loop_update_impl.h:330-389 *)
Definition loop_passes : list (list site) := [loop_pass 0 0; loop_pass 0 1; loop_pass 1 0; loop_pass 1 1].
(** the constructor, 150-176; [grows gcols]: shape of the given gates *)
Definition loop_construct (grows gcols : nat) : res unit :=
  if pbc && (negb (cols mod 2 =? 0) || negb (rows mod 2 =? 0)) then Fail Throw
  else er <- (if pbc then Ok rows else usub rows 1);; ec <- (if pbc then Ok cols else usub cols 1);;
  if (grows =? er) && (gcols =? ec) then Ok tt else Fail Throw.
(** LocalSquareLoopProject: the four sites of a plaquette; (square_lattice_peps_projection4_impl.h:319-345) *)
Definition loop_sites (p : site) : list site :=
  let r' := (fst p + 1) mod lv_rows in let c' := (snd p + 1) mod lh_cols in
  [p; (fst p, c'); (r', snd p); (r', c')].
End L.

(** *** simple_update_impl.h:25-86 and 262-387; loop_update_impl.h:28-91 and 213-327 has the same text *)
Local Open Scope R_scope.
(** simple_update.h:35-52 *)
Record stop_config := mkStop { abs_tol : R; rel_tol : R; lambda_tol : R; patience : nat; min_steps : nat }.
(** 25-41 *)
Definition valid_config (c : stop_config) : bool :=
  negb (rlt (abs_tol c) 0) && negb (rlt (rel_tol c) 0) && negb (rlt (lambda_tol c) 0) && negb (patience c =? 0)%nat && negb (min_steps c =? 0)%nat.
(** what a sweep leaves behind; (simple_update.h:112-120) *)
Record outcome := mkOut { o_energy : R; o_lambdas : list (list R); o_dmin : nat; o_dmax : nat }.
(** 43-50 *)
Definition energy_tolerance (c : stop_config) (prev curr : R) : R :=
  Rmax (abs_tol c) (rel_tol c * Rmax (Rmax 1 (Rabs prev)) (Rabs curr)).
(** 53-64 *)
Definition dims_stable (prev curr : list (list R)) : bool :=
  (length prev =? length curr)%nat && forallb (fun '(a, b) => (length a =? length b)%nat) (combine prev curr).
(** 71-85; called only when the dimensions agree *)
Definition norm2 (l : list R) : R := rsum (fun x => x * x) l.
(** simple_update_impl.h:64-88 *)
Definition drift (prev curr : list R) : R :=
  sqrt (norm2 (map (fun '(a, b) => b - a) (combine prev curr))) / Rmax (sqrt (norm2 prev)) dbl_eps.
(** simple_update_impl.h:66-88 *)
Definition max_drift (prev curr : list (list R)) : R :=
  fold_left (fun m '(a, b) => Rmax m (drift a b)) (combine prev curr) 0.
(** 350-368; [executed]: sweeps made so far, this one included *)
Definition gate_passed (c : stop_config) (executed : nat) (prev : option outcome) (curr : outcome) : bool :=
  match prev with
  | None => false
  | Some p =>
      dims_stable (o_lambdas p) (o_lambdas curr) &&
      ((min_steps c <=? executed)%nat && rle (Rabs (o_energy curr - o_energy p)) (energy_tolerance c (o_energy p) (o_energy curr)) &&
       rle (max_drift (o_lambdas p) (o_lambdas curr)) (lambda_tol c))
  end.
(** one entry of GetStepMetrics: step index, energy, whether the bond dimension changed; (simple_update.h:23-32) *)
Definition metric : Type := nat * R * bool.
(** simple_update_impl.h:53-64, 290-330 *)
Definition dim_changed (prev : option outcome) (curr : outcome) : bool :=
  match prev with None => false | Some p => negb (o_dmin curr =? o_dmin p)%nat || negb (o_dmax curr =? o_dmax p)%nat end.
(** simple_update.h:102-110 *)
Record summary := mkSum { s_executed : nat; s_converged : bool; s_metrics : list metric; s_final : option R }.
(** 277-384; [left]: sweeps still allowed; [sweep k]: outcome of the k-th sweep. A sweep that throws is not
    modelled. *)
Fixpoint run_from (cfg : option stop_config) (sweep : nat -> outcome) (left step streak : nat) (prev : option outcome) (acc : summary) : summary :=
  match left with
  | O => acc
  | S left' =>
      let o := sweep step in
      let acc' := mkSum (s_executed acc + 1) (s_converged acc) (s_metrics acc ++ [(step, o_energy o, dim_changed prev o)]) (Some (o_energy o)) in
      match cfg with
      | None => run_from cfg sweep left' (step + 1) streak (Some o) acc'
      | Some c =>
          let streak' := if gate_passed c (s_executed acc') prev o then (streak + 1)%nat else 0%nat in
          if (patience c <=? streak')%nat then mkSum (s_executed acc') true (s_metrics acc') (s_final acc')
          else run_from cfg sweep left' (step + 1) streak' (Some o) acc'
      end
  end.
(** simple_update_impl.h:262-360, loop_update_impl.h:200-320 *)
Definition update_run (cfg : option stop_config) (steps : nat) (sweep : nat -> outcome) : res summary :=
  if match cfg with Some c => negb (valid_config c) | None => false end then Fail Throw
  else Ok (run_from cfg sweep steps 0 0 None (mkSum 0 false [] None)).
