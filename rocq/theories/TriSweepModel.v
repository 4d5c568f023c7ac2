(** Sweeps of the simple update with terms on triangles: SquareLatticeNNNSimpleUpdateExecutor
    (square_lattice_nnn_simple_update.h) and TriangleNNModelSquarePEPSSimpleUpdateExecutor
    (triangle_nn_on_sqr_peps_simple_update.h). The tensors of the terms are built leg by leg, as there. Tensors are bosonic, the
    numbers are real or complex without rounding; timers, printing, truncation errors and bond dimensions of the report are left
    out. *)
From Coq Require Import List Arith Bool Reals.
From Verif Require Import Base Cplx SumModel TrgTensor ProjModel ExpModel.
Import ListNotations.
Local Open Scope nat_scope.

(** the data members (square_lattice_nnn_simple_update.h:283-290): the terms on nearest and next-nearest neighbours, the on-site terms,
    if given, and tau of the parameters *)
Record nnn_executor := NExec { x_nn : tensor; x_nnn : tensor; x_onsite : option (nat -> nat -> tensor); x_tau : Rdefinitions.R }.
(** square_lattice_nnn_simple_update.h:100-105 TriProjPOSITION *)
Inductive corner_at := AtUpperRight | AtUpperLeft | AtLowerRight | AtLowerLeft.

Section Lattice.
Context (e : nnn_executor) (R K : nat) (per : bool).
(** lambda_vert.rows(): one more than the lattice has on an open one (square_lattice_peps_basic_impl.h:72-97) *)
Definition vert_rows : nat := if per then R else R + 1.
(** lambda_horiz.cols() (square_lattice_peps_basic_impl.h:72-97) *)
Definition horiz_cols : nat := if per then K else K + 1.
(** 140-164 tri_site of ConstructTriHamiltonian; site_b is the corner. The third site of the lower left triangle has the row of the
    first. *)
Definition first_site (p : corner_at) (b : nat * nat) : nat * nat :=
  match p with
  | AtUpperLeft => (fst b, (snd b + 1) mod horiz_cols)
  | AtUpperRight => (fst b, (snd b + horiz_cols - 1) mod horiz_cols)
  | AtLowerLeft | AtLowerRight => ((fst b + vert_rows - 1) mod vert_rows, snd b)
  end.
(** 140-164 *)
Definition third_site (p : corner_at) (b : nat * nat) : nat * nat :=
  match p with
  | AtUpperLeft | AtUpperRight => ((fst b + 1) mod vert_rows, snd b)
  | AtLowerLeft => ((fst b + vert_rows - 1) mod vert_rows, (snd b + 1) mod horiz_cols)
  | AtLowerRight => (fst b, (snd b + horiz_cols - 1) mod horiz_cols)
  end.
(** 197-234: the number of triangles at the horizontal bond *)
Definition hor_triangles (p : corner_at) (b : nat * nat) : nat :=
  match p with
  | AtUpperLeft | AtUpperRight => if negb per && (fst b =? 0) then 2 else 4
  | AtLowerLeft | AtLowerRight => if negb per && (fst b =? R - 1) then 2 else 4
  end.
(** 197-234: and at the vertical one *)
Definition ver_triangles (p : corner_at) (b : nat * nat) : nat :=
  match p with
  | AtUpperLeft | AtLowerLeft => if negb per && (snd b =? 0) then 2 else 4
  | AtUpperRight | AtLowerRight => if negb per && (snd b =? K - 1) then 2 else 4
  end.
(** 246-263 site_tri_num *)
Definition site_triangles (x : nat * nat) : nat :=
  let '(r, c) := x in
  if per then 12
  else if (r =? 0) && (0 <? c) && (c <? K - 1) then 6
  else if (r =? R - 1) && (0 <? c) && (c <? K - 1) then 6
  else if (c =? 0) && (0 <? r) && (r <? R - 1) then 6
  else if (c =? K - 1) && (0 <? r) && (r <? R - 1) then 6
  else if (r =? 0) && ((c =? 0) || (c =? K - 1)) then 3
  else if (r =? R - 1) && ((c =? 0) || (c =? K - 1)) then 3
  else 12.
(** 139-287 ConstructTriHamiltonian; the legs are those of A, B and C *)
Definition tri_ham (b : nat * nat) (p : corner_at) : tensor :=
  let id := eye (dimat (x_nn e) 0) in
  let tri_nnn := transpose [0; 1; 4; 5; 2; 3] (times (RtoC (1 / 2)) (contract (x_nnn e) [] id [])) in
  let nn_1 := contract id [] (x_nn e) [] in
  let nn_2 := contract (x_nn e) [] id [] in
  let h := RtoC (1 / INR (hor_triangles p b)) in
  let v := RtoC (1 / INR (ver_triangles p b)) in
  let hor := match p with AtUpperLeft | AtUpperRight => times h nn_2 | _ => times h nn_1 end in
  let ver := match p with AtUpperLeft | AtUpperRight => times v nn_1 | _ => times v nn_2 end in
  let base := tadd (tadd tri_nnn hor) ver in
  match x_onsite e with
  | None => base
  | Some on =>
      let site_a := first_site p b in
      let site_c := third_site p b in
      let n x := RtoC (1 / INR (site_triangles x)) in
      let on_a := times (n site_a) (contract (contract (on (fst site_a) (snd site_a)) [] id []) [] id []) in
      let on_b := times (n b) (contract (contract id [] (on (fst b) (snd b)) []) [] id []) in
      let on_c := times (n site_c) (contract (contract id [] id []) [] (on (fst site_c) (snd site_c)) []) in
      tadd (tadd (tadd base on_a) on_b) on_c
  end.
(** 310-334 SetEvolveGate_: the corner of the triangle that is stored at a plaquette *)
Definition corner_of (p : corner_at) (row col : nat) : nat * nat :=
  match p with
  | AtUpperLeft => (row, col)
  | AtUpperRight => (row, (col + 1) mod horiz_cols)
  | AtLowerLeft => ((row + 1) mod vert_rows, col)
  | AtLowerRight => ((row + 1) mod vert_rows, (col + 1) mod horiz_cols)
  end.
(** 336-392 SimpleUpdateSweep_: the projection that is called for it *)
Definition tri_call (p : corner_at) (row col : nat) : call :=
  match p with
  | AtUpperRight => UpperRight row ((col + 1) mod horiz_cols)
  | AtLowerRight => LowerRight row ((col + 1) mod horiz_cols)
  | AtLowerLeft => LowerLeft row col
  | AtUpperLeft => UpperLeft row col
  end.
(** 336-392 SimpleUpdateSweep_: the calls of a sweep, with the gates of SetEvolveGate_ (289-291, 310-334); [eps]: the tolerance of the
    exponential series *)
Definition nnn_calls (eps : Rdefinitions.R) : list (call * tensor * option tensor) :=
  let hor_limit := if per then K else K - 1 in
  let ver_limit := if per then R else R - 1 in
  flat_map (fun p => flat_map (fun col => map (fun row =>
    let ham := tri_ham (corner_of p row col) p in (tri_call p row col, taylor_exp eps (x_tau e) ham, Some ham)) (seq 0 ver_limit)) (seq 0 hor_limit))
    [AtUpperRight; AtLowerRight; AtLowerLeft; AtUpperLeft].
End Lattice.

(** triangle_nn_on_sqr_peps_simple_update.h:46-49: the term on two sites, the term on three, and tau *)
Record tri_executor := TExec { y_nn : tensor; y_tri : tensor; y_tau : Rdefinitions.R }.
(** 58-71: the calls that make norm_a, with the gates of SetEvolveGate_ (39-42) *)
Definition first_half (eps : Rdefinitions.R) (e : tri_executor) (R K : nat) : list (call * tensor * option tensor) :=
  let nn := taylor_exp eps (y_tau e) (y_nn e) in let tri := taylor_exp eps (y_tau e) (y_tri e) in
  map (fun row => (Col row 0, nn, None)) (seq 0 (R - 1)) ++
  flat_map (fun col => (Row 0 (col - 1), nn, None) :: map (fun row => (LowerRight row col, tri, None)) (seq 0 (R - 1))) (seq 1 (K - 1)).
(** 74-86: the calls that make norm_b *)
Definition second_half (eps : Rdefinitions.R) (e : tri_executor) (R K : nat) : list (call * tensor * option tensor) :=
  let nn := taylor_exp eps (y_tau e) (y_nn e) in let tri := taylor_exp eps (y_tau e) (y_tri e) in
  flat_map (fun col => map (fun row => (UpperLeft row col, tri, None)) (seq 0 (R - 1)) ++ [(Row (R - 1) col, nn, None)]) (seq 0 (K - 1)) ++
  map (fun row => (Col row (K - 1), nn, None)) (seq 0 (R - 1)).

Section Run.
Context (eps : R) (qr : tensor -> tensor * tensor) (svd : nat -> tensor -> tensor * list R * tensor) (inv_tol : R).
(** one sweep: the PEPS after it and estimated_en, 336-411 (norm: the product of the norms of the projections; std::log of a number that
    is not positive is not a number, here no value) *)
Definition energy_of (tau norm : R) : option R := if Rlt_dec 0 norm then Some (- ln norm / tau)%R else None.
(** square_lattice_nnn_simple_update.h:336-411 *)
Definition nnn_sweep (e : nnn_executor) (P : peps) : peps * R * option R :=
  let '(Q, norm) := project_all qr svd inv_tol P (nnn_calls e (p_rows P) (p_cols P) (p_per P) eps) in (Q, norm, energy_of (x_tau e) norm).
(** several sweeps, with the product of the norms (simple_update_impl.h:300-330: the loop of Execute, whatever stops it) *)
Fixpoint nnn_sweeps (e : nnn_executor) (n : nat) (P : peps) : peps * R :=
  match n with
  | 0 => (P, 1%R)
  | S n' => let '(Q, x, _) := nnn_sweep e P in let '(Q', y) := nnn_sweeps e n' Q in (Q', (x * y)%R)
  end.
(** triangle_nn_on_sqr_peps_simple_update.h:53-99: the PEPS after the sweep, norm_a, norm_b and estimated_e0 *)
Definition tri_sweep (e : tri_executor) (P : peps) : peps * R * R * option R :=
  let '(P1, norm_a) := project_all qr svd inv_tol P (first_half eps e (p_rows P) (p_cols P)) in
  let '(Q, norm_b) := project_all qr svd inv_tol P1 (second_half eps e (p_rows P) (p_cols P)) in
  (Q, norm_a, norm_b,
   match energy_of (y_tau e) norm_a, energy_of (y_tau e) norm_b with Some e_a, Some e_b => Some ((e_a + e_b) / 2)%R | _, _ => None end).
End Run.
