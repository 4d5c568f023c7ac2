(** Spin-1/2 J1-J2 Heisenberg model on the triangular lattice embedded in the square lattice:
    spin_onehalf_triangle_heisenbergJ1J2_sqrpeps.h. *)
From Coq Require Import List Arith Lia Bool Reals.
From Verif Require Import Base ContractorModel SweepModel Cplx EnergyModel.
Import ListNotations.
Local Open Scope nat_scope.

(** 325-443 CalEnergyAndHolesImpl with [calchols = holes]. Simplification: the amplitude traced at
    the start of each row and column is also stored in the component; here it is only returned (in
    [e_psis]). *)
Definition tri_horizontal (holes : bool) (rows cols : nat) : list cmd :=
  [Generate UP] ++
  for_ 0 rows (fun row =>
    [InitE LEFT row; GrowE RIGHT row 1 true; Query (Q1 HORIZONTAL (row, 0) 2)] ++
    for_ 0 cols (fun col =>
      when holes [Visit (VHole (row, col))] ++
      when (col <? cols - 1) [Visit (VBond HORIZONTAL (row, col)); ShiftE RIGHT]) ++
    when (row <? rows - 1)
      ([InitE2 LEFT row; GrowE2 RIGHT row 2 true] ++
       for_ 0 (cols - 1) (fun col =>
         [Visit (VDiag LEFTDOWN_TO_RIGHTUP (row, col)); Visit (VDiag LEFTUP_TO_RIGHTDOWN (row, col))] ++
         when (col <? cols - 2) [Visit (VFar HORIZONTAL LEFTDOWN_TO_RIGHTUP (row, col))] ++
         [ShiftE2 RIGHT row]) ++
       [ShiftB DOWN])).
(** spin_onehalf_triangle_heisenbergJ1J2_sqrpeps.h:400-450 *)
Definition tri_vertical (rows cols : nat) : list cmd :=
  [Generate LEFT] ++
  for_ 0 cols (fun col =>
    [InitE UP col; GrowE DOWN col 2 true; Query (Q1 VERTICAL (0, col) 2)] ++
    for_ 0 (rows - 1) (fun row =>
      [Visit (VBond VERTICAL (row, col))] ++ when (row <? rows - 2) [ShiftE DOWN]) ++
    when (col <? cols - 1)
      ([InitE2 UP col; GrowE2 DOWN col 3 true] ++
       for_ 0 (rows - 2) (fun row =>
         [Visit (VFar VERTICAL LEFTDOWN_TO_RIGHTUP (row, col))] ++
         when (row + 3 <? rows) [ShiftE2 DOWN col]) ++
       [ShiftB RIGHT])).
(** spin_onehalf_triangle_heisenbergJ1J2_sqrpeps.h:308-450 *)
Definition tri_energy_and_holes (holes : bool) (rows cols : nat) : list cmd :=
  tri_horizontal holes rows cols ++ tri_vertical rows cols.

(** 337-347, 353-365, 409-420 (J1: nearest neighbours and the left-down to right-up diagonals),
    366-394, 423-437 (J2: the other diagonals and the diagonals of the 2 x 3 and 3 x 2 rectangles).
    [e1 + j2_ * e2] (443): the factor is distributed over the terms of [e2]. *)
Definition tri_j1j2_model (j2 : R) : model := mkModel
  (fun v cs inv _ tr =>
     match v with
     | VBond _ _ | VDiag LEFTDOWN_TO_RIGHTUP _ => xxz_term 1 1 cs inv tr
     | VDiag LEFTUP_TO_RIGHTDOWN _ | VFar _ _ _ => xxz_term j2 j2 cs inv tr
     | VHole _ | VSite _ => Fail UB
     end)
  (fun _ _ _ => Ok (RtoC 0)).
(** 330-331, 400-401: [1.0 / amplitude] is not checked for zero. *)
Definition tri_j1j2 {o} (val : Amp o -> C) (j2 : R) (holes : bool) {Rng} tps (ker : kernel o Rng) rows cols w :=
  energy_of o val (tri_j1j2_model j2) false tps ker rows cols (tri_energy_and_holes holes rows cols) w.

(** Nearest-neighbour model, spin_onehalf_triangle_heisenberg_sqrpeps.h:59-107, on the generic
    evaluator (square_nnn_energy_solver.h). *)
Definition tri_nn_model : model := mkModel
  (fun v cs inv _ tr =>
     match v with
     | VBond _ _ | VDiag LEFTDOWN_TO_RIGHTUP _ => xxz_term 1 1 cs inv tr
     | VDiag LEFTUP_TO_RIGHTDOWN _ => Ok (RtoC 0)
     | VFar _ _ _ | VHole _ | VSite _ => Fail UB
     end)
  (fun _ _ _ => Ok (RtoC 0)).
(** spin_onehalf_triangle_heisenberg_sqrpeps.h:58-107, base/square_nnn_energy_solver.h:82-318 *)
Definition tri_nn {o} (val : Amp o -> C) (holes : bool) {Rng} tps (ker : kernel o Rng) rows cols w :=
  energy_of o val tri_nn_model true tps ker rows cols (cal_energy_and_holes holes true rows cols) w.
