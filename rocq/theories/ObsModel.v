(** Measurement of one sample by the spin-1/2 solvers: bond traversal with the row hook that measures
    the off-diagonal correlations in the middle row. *)
From Coq Require Import List Arith Lia Bool Reals.
From Verif Require Import Base ContractorModel SweepModel Cplx EnergyModel TriModel.
Import ListNotations.
Local Open Scope nat_scope.

(** Calls a measurement makes besides those of [cmd]. (square_spin_onehalf_xxz_obc.h:256-294, base/bond_traversal_mixin.h:40-140) *)
Inductive mstep :=
| Do (x : cmd)
| Put (s : site) (flip erase : bool)  (* tn(s) = sitps(s)[1 - config(s)] or sitps(s)[config(s)]; then EraseEnvsAfterUpdate(s) *)
| GrowStep (p : pos)                  (* GrowBTenStep *)
| Corr (s1 s2 : site).                (* one entry of diag_corr: ReplaceOneSiteTrace at s2 if the two states differ *)

Section Measure.
Context (o : ops).

(** What the steps record: the events of the traversal, and the entries of diag_corr before they
    are divided by the amplitude ([None]: the states agree and the entry is 0). (square_spin_onehalf_xxz_obc.h:256-294) *)
Definition mlog : Type := list (event o) * list (option (Amp o)).

(** Put: tensor_network_2d.h UpdateSiteTensor and bmps_contractor_trace.h:539-589; the code of the
    triangular J1-J2 solver (132, 148) assigns without erasing. [1 - config] is unsigned.
    Corr: square_spin_onehalf_xxz_obc.h:45-53. *)
Definition mexec {Rng} (tps : sitps o) (ker : kernel o Rng) (x : mstep) (w : wst o Rng) : res (wst o Rng * mlog) :=
  let c := ctr w in
  match x with
  | Do x => r <- exec o tps ker x w ;; Ok (fst r, (snd r, []))
  | Put s flip erase =>
      if in_lattice (rows_ c) (cols_ c) s then
        n <- (if flip then usub 1 (cfg w (fst s) (snd s)) else Ok (cfg w (fst s) (snd s))) ;;
        Ok (mkW (cfg w) (amp w) (upd2 (tn w) s (tps (fst s) (snd s) n))
                (if erase then erase_envs_after_update o s c else c) (rng w), ([], []))
      else Fail UB
  | GrowStep p => c' <- grow_bten_step o (tn w) p c ;; Ok (set_con o w c', ([], []))
  | Corr s1 s2 =>
      if in_lattice (rows_ c) (cols_ c) s2 then
        if cfg w (fst s2) (snd s2) =? cfg w (fst s1) (snd s1) then Ok (w, ([], [None]))
        else
          n <- usub 1 (cfg w (fst s2) (snd s2)) ;;
          a <- replace_trace1 o c HORIZONTAL s2 [tps (fst s2) (snd s2) n] ;;
          Ok (w, ([], [Some a]))
      else Fail UB
  end.
(** the calls one after the other *)
Fixpoint mrun {Rng} (tps : sitps o) (ker : kernel o Rng) (l : list mstep) (w : wst o Rng) : res (wst o Rng * mlog) :=
  match l with
  | [] => Ok (w, ([], []))
  | x :: l' =>
      r1 <- mexec tps ker x w ;;
      r2 <- mrun tps ker l' (fst r1) ;;
      Ok (fst r2, (fst (snd r1) ++ fst (snd r2), snd (snd r1) ++ snd (snd r2)))
  end.
End Measure.

(** square_spin_onehalf_xxz_obc.h:22-58 MeasureSpinOneHalfOffDiagOrderInRow (CheckInvalidateEnvs only
    asserts and is left out) *)
Definition off_diag_row (cols row : nat) : list mstep :=
  [Put (row, cols / 4) true true; GrowStep LEFT; Do (GrowE RIGHT row (cols / 4 + 2) false)] ++
  for_ 1 (cols / 2 + 1) (fun i => [Corr (row, cols / 4) (row, cols / 4 + i); Do (ShiftE RIGHT)]) ++
  [Put (row, cols / 4) false true].

(** bond_traversal_mixin.h:57-104 TraverseHorizontalBonds with the hook
    (square_spin_onehalf_xxz_obc.h:254-287, square_spin_onehalf_j1j2_xxz_obc.h:51-84,
    spin_onehalf_triangle_heisenberg_sqrpeps.h:189-225: only row [ly / 2]), then 112-142
    TraverseVerticalBonds. *)
Definition measure_steps (nnn : bool) (rows cols : nat) : list mstep :=
  [Do (Generate UP)] ++
  for_ 0 rows (fun row =>
    map Do ([InitE LEFT row; GrowE RIGHT row 1 true; Query (Q1 HORIZONTAL (row, 0) 2)] ++
      for_ 0 (cols - 1) (fun col => [Visit (VBond HORIZONTAL (row, col)); ShiftE RIGHT]) ++
      when (nnn && (row <? rows - 1))
        ([InitE2 LEFT row; GrowE2 RIGHT row 2 true] ++
         for_ 0 (cols - 1) (fun col =>
           [Visit (VDiag LEFTUP_TO_RIGHTDOWN (row, col)); Visit (VDiag LEFTDOWN_TO_RIGHTUP (row, col));
            ShiftE2 RIGHT row]))) ++
    when (row =? rows / 2) (off_diag_row cols row) ++
    map Do (when (row <? rows - 1) [ShiftB DOWN])) ++
  map Do (traverse_vertical rows cols).

(** the calls of the bond callback, base/bond_traversal_mixin.h:40-140 *)
Definition visited {o} (lg : list (event o)) : list visit :=
  flat_map (fun e => match e with Visited v => [v] | _ => [] end) lg.

(** What one sample returns: "energy"; the bond energies, each filed under the visit it belongs to
    (the matrices bond_energy_h, _v, _dr, _ur are indexed by the site of the visit); psi_list;
    "SmSp_row", "SpSm_row"; "spin_z"; "SzSz_all2all". (square_spin_onehalf_xxz_obc.h:216-294) *)
Record observables := mkObs {
  o_energy : C; o_bonds : list (visit * C); o_psis : list C;
  o_smsp : list C; o_spsm : list C; o_sz : list R; o_szsz : list R }.

(** square_spin_onehalf_xxz_obc.h:48, 52 *)
Definition corr_value {o} (val : Amp o -> C) (inv_psi : C) (x : option (Amp o)) : C :=
  match x with None => RtoC 0 | Some a => Cconj (val a * inv_psi)%C end.
(** square_spin_onehalf_xxz_obc.h:278-286 *)
Definition channels (c1 : nat) (corr : list C) : list C * list C :=
  if c1 =? 0 then (map (fun _ => RtoC 0) corr, corr) else (corr, map (fun _ => RtoC 0) corr).
(** square_spin_onehalf_xxz_obc.h:224-236: the configuration in iteration order (row by row). *)
Definition sz_values (rows cols : nat) (c : nat -> nat -> nat) : list R :=
  map (fun s => spin_z (c (fst s) (snd s))) (list_prod (seq 0 rows) (seq 0 cols)).
(** square_spin_onehalf_xxz_obc.h:30-60 *)
Definition packed_upper (l : list R) : list R :=
  flat_map (fun i => map (fun j => (nth i l 0 * nth j l 0)%R) (seq i (length l - i))) (seq 0 (length l)).

(** square_nnn_model_measurement_solver.h:31-213 EvaluateObservables with the spin-1/2 mix-ins above.
    As for the energies, the steps run first and the callbacks are applied to what they read;
    [psi_list] holds the amplitude of row [rows / 2] at that index. *)
Definition measure {o} (val : Amp o -> C) (M : model) (nnn : bool) {Rng} (tps : sitps o) (ker : kernel o Rng)
    (rows cols : nat) (w : wst o Rng) : res (wst o Rng * observables) :=
  r <- mrun o tps ker (measure_steps nnn rows cols) w ;;
  a <- evaluate o val M true tps rows cols (cfg w) (fst (snd r)) (mkAcc None [] [] []) ;;
  psi <- idx (a_psis a) (rows / 2) ;;
  s <- m_onsite M rows cols (cfg w) ;;
  let corr := map (corr_value val (Cinv psi)) (snd (snd r)) in
  let (smsp, spsm) := channels (cfg w (rows / 2) (cols / 4)) corr in
  Ok (fst r, mkObs (sumC (fun e => e) (a_energies a) + s)%C
                   (combine (visited (fst (snd r))) (a_energies a)) (a_psis a) smsp spsm
                   (sz_values rows cols (cfg w)) (packed_upper (sz_values rows cols (cfg w)))).

(** square_spin_onehalf_xxz_obc.h, square_spin_onehalf_j1j2_xxz_obc.h,
    spin_onehalf_triangle_heisenberg_sqrpeps.h (without the structure factor). (square_spin_onehalf_xxz_obc.h:216-240) *)
Definition measure_xxz {o} (val : Amp o -> C) (jz jxy p : R) {Rng} tps (ker : kernel o Rng) rows cols w :=
  measure val (xxz_model jz jxy 0 0 p) false tps ker rows cols w.
(** square_spin_onehalf_j1j2_xxz_obc.h:70-115 *)
Definition measure_j1j2 {o} (val : Amp o -> C) (jz jxy jz2 jxy2 p : R) {Rng} tps (ker : kernel o Rng) rows cols w :=
  measure val (xxz_model jz jxy jz2 jxy2 p) true tps ker rows cols w.
(** spin_onehalf_triangle_heisenberg_sqrpeps.h:109-130 *)
Definition measure_tri_nn {o} (val : Amp o -> C) {Rng} tps (ker : kernel o Rng) rows cols w :=
  measure val tri_nn_model true tps ker rows cols w.

(** spin_onehalf_triangle_heisenbergJ1J2_sqrpeps.h:68-265 EvaluateObservables of the triangular J1-J2
    solver: the calls it makes (the values it derives from them are left out). Note 160-161: the
    trace at the first bond of the row after the boundary tensors have been shifted to its end. *)
Definition tri_measure_steps (rows cols : nat) : list mstep :=
  [Do (Generate UP)] ++
  for_ 0 rows (fun row =>
    map Do ([InitE LEFT row; GrowE RIGHT row 1 true; Query (Q1 HORIZONTAL (row, 0) 2)] ++
      for_ 0 (cols - 1) (fun col => [Visit (VBond HORIZONTAL (row, col)); ShiftE RIGHT])) ++
    when (row =? rows / 2)
      ([Put (row, cols / 4) true false; Do (TruncE LEFT (cols / 4 + 1)); GrowStep LEFT;
        Do (GrowE RIGHT row (cols / 4 + 2) false)] ++
       for_ 1 (cols / 2 + 1) (fun i => [Corr (row, cols / 4) (row, cols / 4 + i); Do (ShiftE RIGHT)]) ++
       [Put (row, cols / 4) false false]) ++
    map Do (when (row <? rows - 1)
      ([InitE2 LEFT row; GrowE2 RIGHT row 2 true; Query (Q1 HORIZONTAL (row, 0) 2)] ++
       for_ 0 (cols - 1) (fun col =>
         [Visit (VDiag LEFTDOWN_TO_RIGHTUP (row, col))] ++ when (col + 2 <? cols) [ShiftE2 RIGHT row]) ++
       for_ 0 (cols - 1) (fun col => [Visit (VDiag LEFTUP_TO_RIGHTDOWN (row, col))]) ++
       [ShiftB DOWN]))) ++
  map Do ([Generate LEFT] ++
  for_ 0 cols (fun col =>
    [InitE UP col; GrowE DOWN col 2 true; Query (Q1 VERTICAL (0, col) 2)] ++
    for_ 0 (rows - 1) (fun row => [Visit (VBond VERTICAL (row, col))] ++ when (row + 2 <? rows) [ShiftE DOWN]) ++
    when (col <? cols - 1)
      ([InitE2 UP col; GrowE2 DOWN col 3 true] ++
       for_ 0 (rows - 2) (fun row =>
         [Visit (VFar VERTICAL LEFTDOWN_TO_RIGHTUP (row, col))] ++ when (row + 3 <? rows) [ShiftE2 DOWN col])) ++
    when (col <? cols - 1) [ShiftB RIGHT])).
