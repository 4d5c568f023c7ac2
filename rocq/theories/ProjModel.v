(** The projections of the simple update, element by element:
    include/qlpeps/two_dim_tn/peps/square_lattice_peps_projection_impl.h (NearestNeighborSiteProject and the four triangle
    projections) and square_lattice_peps_basic_impl.h (the bond weights eaten and split out, ToTPS).

    Dense tensors without quantum numbers and leg directions (the fermionic branches are not modelled); real and complex
    elements are complex numbers. QR and SVD of the tensor library are parameters. The bond weights are diagonal matrices,
    given by their diagonals, so that transposing them (e.g. projection_impl.h:331) changes nothing. *)
From Coq Require Import List Arith Bool Reals.
From Verif Require Import Base Cplx ContractorModel SumModel TrgTensor BmpsModel.
Import ListNotations.
Local Open Scope nat_scope.

(** the data members of SquareLatticePEPS (square_lattice_peps.h:112-165): Gamma has legs (west, south, east, north,
    physical); [lam_v r c] is the weight above site (r, c), [lam_h r c] the weight on its left *)
Record peps := Peps { p_rows : nat; p_cols : nat; p_per : bool; gamma : nat -> nat -> tensor; lam_v : nat -> nat -> list R; lam_h : nat -> nat -> list R }.
(** an entry of a TenMatrix is assigned (as in square_lattice_peps_projection_impl.h:109, 128) *)
Definition put {X} (m : nat -> nat -> X) (r c : nat) (x : X) : nat -> nat -> X :=
  fun r' c' => if (r' =? r) && (c' =? c) then x else m r' c'.
(** Gamma({r, c}) = T (square_lattice_peps.h:364) *)
Definition put_gamma (P : peps) (r c : nat) (T : tensor) : peps := Peps (p_rows P) (p_cols P) (p_per P) (put (gamma P) r c T) (lam_v P) (lam_h P).
(** lambda_vert({r, c}) = s (square_lattice_peps.h:365) *)
Definition put_v (P : peps) (r c : nat) (s : list R) : peps := Peps (p_rows P) (p_cols P) (p_per P) (gamma P) (put (lam_v P) r c s) (lam_h P).
(** lambda_horiz({r, c}) = s (square_lattice_peps.h:366) *)
Definition put_h (P : peps) (r c : nat) (s : list R) : peps := Peps (p_rows P) (p_cols P) (p_per P) (gamma P) (lam_v P) (put (lam_h P) r c s).

(** GetLambdaVertNorth (square_lattice_peps.h:225-230) *)
Definition north (P : peps) (r c : nat) : list R := lam_v P r c.
(** GetLambdaVertSouth (233-246) *)
Definition south (P : peps) (r c : nat) : list R := if p_per P then lam_v P ((r + 1) mod p_rows P) c else lam_v P (r + 1) c.
(** GetLambdaHorizWest (249-254) *)
Definition west (P : peps) (r c : nat) : list R := lam_h P r c.
(** GetLambdaHorizEast (257-270) *)
Definition east (P : peps) (r c : nat) : list R := if p_per P then lam_h P r ((c + 1) mod p_cols P) else lam_h P r (c + 1).
(** lambda_vert.rows() and lambda_horiz.cols() (square_lattice_peps_basic_impl.h:27-28) *)
Definition v_rows (P : peps) : nat := if p_per P then p_rows P else p_rows P + 1.
(** square_lattice_peps_basic_impl.h:28 *)
Definition h_cols (P : peps) : nat := if p_per P then p_cols P else p_cols P + 1.

(** square_lattice_peps_basic_impl.h:678-686 EatSurroundLambdas_: legs (physical, west, south, east, north) *)
Definition eat4 (P : peps) (r c : nat) : tensor :=
  let t0 := cyc (gamma P r c) 0 (diag (west P r c)) 1 1 in
  let t1 := cyc t0 0 (diag (south P r c)) 0 1 in
  let t2 := cyc t1 0 (diag (east P r c)) 0 1 in
  cyc t2 0 (diag (north P r c)) 1 1.
(** 688-750 Eat3SurroundLambdas_; [p]: the leg whose weight is left out, the last leg of the result *)
Definition eat3 (P : peps) (r c : nat) (p : pos) : tensor :=
  match p with
  | RIGHT =>
      let t0 := cyc (gamma P r c) 3 (diag (north P r c)) 1 1 in
      let t1 := cyc t0 1 (diag (west P r c)) 1 1 in
      transpose [1; 3; 4; 2; 0] (cyc t1 0 (diag (south P r c)) 0 1)
  | LEFT =>
      let t0 := cyc (gamma P r c) 3 (diag (north P r c)) 1 1 in
      let t1 := cyc t0 3 (diag (east P r c)) 0 1 in
      cyc (diag (south P r c)) 0 t1 3 1
  | DOWN =>
      let t0 := cyc (diag (west P r c)) 1 (gamma P r c) 0 1 in
      let t1 := cyc (diag (north P r c)) 1 t0 3 1 in
      transpose [0; 1; 3; 2; 4] (cyc (diag (east P r c)) 0 t1 4 1)
  | UP =>
      let t0 := cyc (diag (west P r c)) 1 (gamma P r c) 0 1 in
      let t1 := cyc (diag (south P r c)) 0 t0 1 1 in
      transpose [0; 4; 3; 2; 1] (cyc (diag (east P r c)) 0 t1 1 1)
  end.

Section Projections.
(** QR(&T, 3, div, &q, &r): legs 0, 1, 2 against legs 3, 4 (projection_impl.h:103-107) *)
Context (qr : tensor -> tensor * tensor).
(** SVD(&T, n, div, trunc_err, D_min, D_max, &u, &s, &vt): the first n legs against the others (projection_impl.h:120-123);
    its truncation is part of the parameter *)
Context (svd : nat -> tensor -> tensor * list R * tensor).
(** trunc_para.inv_tol (square_lattice_peps.h:36) *)
Context (inv_tol : R).
(** DiagMatInv(lambda, inv_tol): the inverse, elements below the tolerance become zero (basic_impl.h:770) *)
Definition diag_inv (s : list R) : tensor := diag (inv_elements inv_tol s).

(** basic_impl.h:752-853 QTenSplitOutLambdas_ *)
Definition split_out (P : peps) (q : tensor) (r c : nat) (p : pos) : tensor :=
  match p with
  | RIGHT =>
      let t0 := cyc q 0 (diag_inv (north P r c)) 1 1 in
      let t1 := cyc t0 0 (diag_inv (west P r c)) 1 1 in
      cyc t1 0 (diag_inv (south P r c)) 0 1
  | LEFT =>
      let t0 := cyc q 0 (diag_inv (south P r c)) 0 1 in
      let t1 := cyc t0 0 (diag_inv (east P r c)) 0 1 in
      cyc t1 0 (diag_inv (north P r c)) 1 1
  | DOWN =>
      let t0 := cyc (diag_inv (north P r c)) 1 q 1 1 in
      let t1 := cyc (diag_inv (west P r c)) 1 t0 1 1 in
      cyc (diag_inv (east P r c)) 0 t1 2 1
  | UP =>
      let t0 := cyc (diag_inv (east P r c)) 0 q 0 1 in
      let t1 := cyc (diag_inv (south P r c)) 0 t0 1 1 in
      cyc (diag_inv (west P r c)) 1 t1 1 1
  end.

(** QuasiNormalize: the 2-norm is returned and divided out (projection_impl.h:113) *)
Definition tnorm (T : tensor) : R := sqrt (fst (nsum (shape T) (fun ix => RtoC (Cnorm2 (entry T ix))))).
(** projection_impl.h:113 *)
Definition normalised (T : tensor) : tensor := Tn (shape T) (fun ix => (RtoC (/ tnorm T) * entry T ix)%C).
(** projection_impl.h:19-40 EvaluateTwoSiteEnergy, the bosonic branch *)
Definition energy2 (ham state : tensor) : C :=
  scalar (contract (dag (contract state [2; 3] ham [0; 2])) [0; 1; 2; 3] state [0; 1; 2; 3]).
(** 42-58 EvaluateThreeSiteEnergy, the bosonic branch *)
Definition energy3 (ham state : tensor) : C :=
  scalar (contract (dag (contract state [4; 5; 6] ham [0; 2; 4])) [0; 1; 2; 3; 4; 5; 6] state [0; 1; 2; 3; 4; 5; 6]).
(** ProjectionRes (square_lattice_peps.h:87-94) without the truncation error *)
Record result := Res { r_peps : peps; r_norm : R; r_energy : option C }.

(** 60-227 NearestNeighborSiteProject, HORIZONTAL; [ham]: none if the default tensor is given *)
Definition project_h (P : peps) (gate : tensor) (ham : option tensor) (r c : nat) : result :=
  let c' := (c + 1) mod h_cols P in
  let '(q0, r0) := qr (eat3 P r c RIGHT) in
  let '(q1, r1) := qr (eat3 P r c' LEFT) in
  let t2 := contract r0 [2] (diag (lam_h P r c')) [0] in
  let t3 := cyc t2 2 r1 2 1 in
  let t4 := contract t3 [1; 3] gate [0; 1] in
  let state := normalised t4 in
  let e := option_map (fun h => energy2 h state) ham in
  let '(u, s, vt) := svd 2 (transpose [0; 2; 1; 3] state) in
  let P1 := put_h P r c' s in
  let g0 := transpose [1; 2; 4; 0; 3] (cyc (split_out P1 q0 r c RIGHT) 0 u 0 1) in
  let P2 := put_gamma P1 r c g0 in
  let g1 := transpose [4; 0; 1; 2; 3] (cyc (split_out P2 q1 r c' LEFT) 0 vt 1 1) in
  Res (put_gamma P2 r c' g1) (tnorm t4) e.
(** NearestNeighborSiteProject, VERTICAL (138-212) *)
Definition project_v (P : peps) (gate : tensor) (ham : option tensor) (r c : nat) : result :=
  let r' := if p_per P then (r + 1) mod v_rows P else r + 1 in
  let '(q0, r0) := qr (eat3 P r c DOWN) in
  let '(q1, r1) := qr (eat3 P r' c UP) in
  let t2 := cyc r0 2 (diag (lam_v P r' c)) 0 1 in
  let t3 := cyc t2 2 r1 2 1 in
  let t4 := contract t3 [1; 3] gate [0; 1] in
  let state := normalised t4 in
  let e := option_map (fun h => energy2 h state) ham in
  let '(u, s, vt) := svd 2 (transpose [0; 2; 1; 3] state) in
  let P1 := put_v P r' c s in
  let g0 := transpose [2; 4; 0; 1; 3] (cyc (split_out P1 q0 r c DOWN) 3 u 0 1) in
  let P2 := put_gamma P1 r c g0 in
  let g1 := transpose [2; 1; 0; 4; 3] (cyc (split_out P2 q1 r' c UP) 1 vt 1 1) in
  Res (put_gamma P2 r' c g1) (tnorm t4) e.

(** 284-368 UpperRightTriangleProject: sites (r, c-1), (r, c), (r+1, c) *)
Definition project_ur (P : peps) (gate : tensor) (ham : option tensor) (r c : nat) : result :=
  let lc := (c + h_cols P - 1) mod h_cols P in
  let lr := (r + 1) mod v_rows P in
  let '(q0, r0) := qr (eat3 P lr c UP) in
  let '(q1, r1) := qr (eat3 P r lc RIGHT) in
  let t3 := cyc r1 2 (eat4 P r c) 1 1 in
  let t4 := cyc t3 2 r0 2 1 in
  let t5 := contract t4 [4; 2; 6] gate [0; 1; 2] in
  let state := normalised t5 in
  let e := option_map (fun h => energy3 h state) ham in
  let '(u1, s1, vt1) := svd 5 (transpose [6; 3; 0; 1; 5; 4; 2] state) in
  let P1 := put_h P r c s1 in
  let P2 := put_gamma P1 r lc (transpose [1; 2; 3; 0; 4] (cyc (split_out P1 q1 r lc RIGHT) 0 vt1 2 1)) in
  let '(u2, s2, vt2) := svd 2 (contract u1 [5] (diag s1) [0]) in
  let P3 := put_v P2 lr c s2 in
  let P4 := put_gamma P3 lr c (transpose [2; 1; 0; 3; 4] (cyc (split_out P3 q0 lr c UP) 1 u2 1 1)) in
  let t9 := contract vt2 [4] (diag_inv s1) [0] in
  let t10 := cyc t9 2 (diag_inv (north P4 r c)) 1 1 in
  let g := transpose [2; 3; 4; 0; 1] (cyc t10 3 (diag_inv (east P4 r c)) 0 1) in
  Res (put_gamma P4 r c g) (1 * tnorm t5) e.
(** 391-475 UpperLeftTriangleProject: sites (r, c+1), (r, c), (r+1, c) *)
Definition project_ul (P : peps) (gate : tensor) (ham : option tensor) (r c : nat) : result :=
  let rc := (c + 1) mod h_cols P in
  let lr := (r + 1) mod v_rows P in
  let '(q0, r0) := qr (eat3 P r rc LEFT) in
  let '(q1, r1) := qr (eat3 P lr c UP) in
  let t3 := cyc (eat4 P r c) 2 r1 2 1 in
  let t4 := cyc r0 2 t3 0 1 in
  let t5 := contract t4 [1; 3; 6] gate [0; 1; 2] in
  let state := normalised t5 in
  let e := option_map (fun h => energy3 h state) ham in
  let '(u1, s1, vt1) := svd 5 (transpose [0; 4; 5; 1; 2; 6; 3] state) in
  let P1 := put_v P lr c s1 in
  let P2 := put_gamma P1 lr c (transpose [4; 3; 2; 0; 1] (cyc vt1 2 (split_out P1 q1 lr c UP) 1 1)) in
  let '(u2, s2, vt2) := svd 2 (contract u1 [5] (diag s1) [0]) in
  let P3 := put_h P2 r rc s2 in
  let P4 := put_gamma P3 r rc (transpose [4; 0; 1; 2; 3] (cyc (split_out P3 q0 r rc LEFT) 0 u2 0 1)) in
  let t9 := contract vt2 [4] (diag_inv s1) [0] in
  let t10 := cyc t9 2 (diag_inv (north P4 r c)) 1 1 in
  let g := transpose [4; 0; 1; 3; 2] (cyc t10 0 (diag_inv (west P4 r c)) 1 1) in
  Res (put_gamma P4 r c g) (1 * tnorm t5) e.
(** 498-582 LowerRightTriangleProject: sites (r, c), (r+1, c), (r+1, c-1) *)
Definition project_lr (P : peps) (gate : tensor) (ham : option tensor) (r c : nat) : result :=
  let lr := (r + 1) mod v_rows P in
  let lc := (c + h_cols P - 1) mod h_cols P in
  let '(q0, r0) := qr (eat3 P lr lc RIGHT) in
  let '(q1, r1) := qr (eat3 P r c DOWN) in
  let t3 := cyc r1 2 (eat4 P lr c) 4 1 in
  let t4 := cyc t3 3 r0 2 1 in
  let t5 := contract t4 [3; 4; 6] gate [0; 1; 2] in
  let state := normalised t5 in
  let e := option_map (fun h => energy3 h state) ham in
  let '(u1, s1, vt1) := svd 5 (transpose [6; 3; 0; 1; 5; 4; 2] state) in
  let P1 := put_v P lr c s1 in
  let P2 := put_gamma P1 r c (transpose [2; 3; 0; 1; 4] (cyc (split_out P1 q1 r c DOWN) 3 vt1 2 1)) in
  let '(u2, s2, vt2) := svd 2 (contract u1 [5] (diag s1) [0]) in
  let P3 := put_h P2 lr c s2 in
  let P4 := put_gamma P3 lr lc (transpose [1; 2; 3; 0; 4] (cyc (split_out P3 q0 lr lc RIGHT) 0 u2 1 1)) in
  let t9 := contract vt2 [4] (diag_inv s1) [0] in
  let t10 := cyc t9 1 (diag_inv (south P4 lr c)) 0 1 in
  let g := transpose [2; 3; 4; 1; 0] (cyc t10 0 (diag_inv (east P4 lr c)) 0 1) in
  Res (put_gamma P4 lr c g) (1 * tnorm t5) e.
(** 601-715 LowerLeftTriangleProject: sites (r, c), (r+1, c), (r+1, c+1) *)
Definition project_ll (P : peps) (gate : tensor) (ham : option tensor) (r c : nat) : result :=
  let lr := (r + 1) mod v_rows P in
  let rc := (c + 1) mod h_cols P in
  let '(q0, r0) := qr (eat3 P r c DOWN) in
  let '(q1, r1) := qr (eat3 P lr rc LEFT) in
  let t3 := cyc r0 2 (eat4 P lr c) 4 1 in
  let t4 := cyc t3 5 r1 2 1 in
  let t5 := contract t4 [1; 2; 6] gate [0; 1; 2] in
  let state := normalised t5 in
  let e := option_map (fun h => energy3 h state) ham in
  let '(u1, s1, vt1) := svd 5 (transpose [0; 4; 5; 1; 2; 6; 3] state) in
  let P1 := put_h P lr rc s1 in
  let P2 := put_gamma P1 lr rc (transpose [0; 2; 3; 4; 1] (cyc vt1 2 (split_out P1 q1 lr rc LEFT) 0 1)) in
  let '(u2, s2, vt2) := svd 2 (contract u1 [5] (diag s1) [0]) in
  let P3 := put_v P2 lr c s2 in
  let P4 := put_gamma P3 r c (transpose [2; 4; 0; 1; 3] (cyc (split_out P3 q0 r c DOWN) 3 u2 0 1)) in
  let t9 := contract vt2 [4] (diag_inv s1) [0] in
  let t10 := cyc t9 3 (diag_inv (south P4 lr c)) 0 1 in
  let g := transpose [4; 0; 1; 2; 3] (cyc t10 3 (diag_inv (west P4 lr c)) 1 1) in
  Res (put_gamma P4 lr c g) (1 * tnorm t5) e.

(** the calls of a simple update on a square lattice (square_lattice_peps.h:291-333); the coordinates are those of the site each function is called with *)
Inductive call := Row (r c : nat) | Col (r c : nat) | UpperRight (r c : nat) | UpperLeft (r c : nat) | LowerRight (r c : nat) | LowerLeft (r c : nat).
(** the call is made (square_lattice_peps.h:291-333) *)
Definition project (P : peps) (o : call) (gate : tensor) (ham : option tensor) : result :=
  match o with
  | Row r c => project_h P gate ham r c | Col r c => project_v P gate ham r c
  | UpperRight r c => project_ur P gate ham r c | UpperLeft r c => project_ul P gate ham r c
  | LowerRight r c => project_lr P gate ham r c | LowerLeft r c => project_ll P gate ham r c
  end.
(** a sequence of calls: the PEPS at the end and the norms taken out on the way (simple_update.h:190-250, the sweeps call one
    after the other) *)
Fixpoint project_all (P : peps) (l : list (call * tensor * option tensor)) : peps * R :=
  match l with
  | [] => (P, 1%R)
  | (o, g, h) :: l' => let res := project P o g h in let '(Q, n) := project_all (r_peps res) l' in (Q, (r_norm res * n)%R)
  end.
End Projections.

(** basic_impl.h:625-655 ToTPS (bosonic): the square roots of the weights go into the tensors *)
Definition tps_tensor (P : peps) (r c : nat) : tensor :=
  let root (s : list R) := diag (map sqrt s) in
  let t0 := cyc (root (north P r c)) 1 (gamma P r c) 3 1 in
  let t1 := cyc (root (east P r c)) 0 t0 4 1 in
  let t2 := cyc (root (south P r c)) 0 t1 4 1 in
  cyc (root (west P r c)) 1 t2 4 1.
(** basic_impl.h:625-655; the elements of a site tensor in the form of tps.h *)
Definition to_tps (P : peps) : lat :=
  mkLat (p_rows P) (p_cols P) (p_per P)
    (fun r c => mkTen (firstn 4 (shape (tps_tensor P r c))) (fun legs p => entry (tps_tensor P r c) (legs ++ [p]))).
