(** The loop projection, element by element: include/qlpeps/two_dim_tn/peps/square_lattice_peps_projection4_impl.h
    (LocalSquareLoopProject with everything it calls). Line numbers are those of that file.

    Dense tensors without quantum numbers and leg directions (the fermionic branches are not modelled; MatSVD then is the SVD of
    a matrix whatever its directions); real and complex elements are complex numbers. QR, SVD and the decomposition of
    Hermitian matrices are parameters, and so are the dominant eigenvectors that ArnoldiSolver and PowerMethod find. Bond
    weights are diagonal matrices, given by their diagonals, so that transposing them (174-175, 480-484) changes nothing. The
    conjugate gradients are those of CgModel. *)
From Coq Require Import List Arith Bool Reals.
From Verif Require Import Base Cplx ContractorModel SumModel TrgTensor BmpsModel OptModel CgModel ProjModel.
Import ListNotations.
Local Open Scope nat_scope.

(** LoopUpdateTruncatePara and FullEnvironmentTruncateParams (square_lattice_peps.h:47-84), what is not in the parameters below *)
Record loop_params := mkLoop { l_inv_tol : R; l_env_tol : R; l_correct : R; l_warn : R; l_tol : R; l_max : nat; l_cg : cg_params }.
(** an element of a std::array is assigned (as in 1103-1108) *)
Definition set_nth {X} (f : nat -> X) (i : nat) (x : X) : nat -> X := fun k => if k =? i then x else f k.

(** 163-170 and 153-160: the rows and columns of the four sites, from the upper left one clockwise *)
Definition loop_site (P : peps) (r c i : nat) : nat * nat :=
  let r1 := (r + 1) mod p_rows P in let c1 := (c + 1) mod p_cols P in
  match i with 0 => (r, c) | 1 => (r, c1) | 2 => (r1, c1) | _ => (r1, c) end.
(** 147-161 GetLoopGammas_ *)
Definition loop_gammas (P : peps) (r c : nat) : nat -> tensor := fun i => let x := loop_site P r c i in gamma P (fst x) (snd x).
(** 163-179 GetLoopInternalLambdas_ *)
Definition loop_lambdas (P : peps) (r c : nat) : nat -> list R :=
  let r1 := (r + 1) mod p_rows P in let c1 := (c + 1) mod p_cols P in
  fun i => match i with 0 => lam_h P r c1 | 1 => lam_v P r1 c1 | 2 => lam_h P r1 c1 | _ => lam_v P r1 c end.
(** 181-206 GetLoopEnvLambdas_, the left ones *)
Definition env_left (P : peps) (r c : nat) : nat -> list R :=
  let r1 := (r + 1) mod p_rows P in let c1 := (c + 1) mod p_cols P in
  fun i => match i with 0 => west P r c | 1 => east P r c1 | 2 => south P r1 c1 | _ => west P r1 c end.
(** 181-206 GetLoopEnvLambdas_, the right ones *)
Definition env_right (P : peps) (r c : nat) : nat -> list R :=
  let r1 := (r + 1) mod p_rows P in let c1 := (c + 1) mod p_cols P in
  fun i => match i with 0 => north P r c | 1 => north P r c1 | 2 => east P r1 c1 | _ => south P r1 c end.
(** 91-97 TransposeGammaTensorIndicesIntoMPSOrder *)
Definition to_mps (i : nat) (T : tensor) : tensor :=
  transpose match i with 0 => [1; 4; 0; 3; 2] | 1 => [0; 4; 2; 3; 1] | 2 => [3; 4; 1; 2; 0] | _ => [2; 4; 0; 1; 3] end T.
(** 112-118 TransposeBackGammaTensorIndicesFromMPSOrder *)
Definition from_mps (i : nat) (T : tensor) : tensor :=
  transpose match i with 0 => [2; 0; 4; 3; 1] | 1 => [0; 4; 2; 3; 1] | 2 => [4; 2; 3; 0; 1] | _ => [2; 3; 0; 4; 1] end T.
(** 99-109 Eat2EnvLambdasInMPSOrderGamma *)
Definition eat2 (T : tensor) (l r : list R) : tensor :=
  transpose [0; 1; 3; 4; 2] (contract (contract T [2] (diag l) [1]) [2] (diag r) [1]).
(** 120-133 SplitOut2EnvLambdasInMPSOrderGammas *)
Definition split2 (tol : R) (T : tensor) (l r : list R) : tensor :=
  transpose [0; 1; 3; 4; 2] (contract (contract T [2] (diag (inv_elements tol l)) [1]) [2] (diag (inv_elements tol r)) [1]).

(** 208-219 LoopTrace *)
Definition loop_trace (U : tensor) (l : list R) : C :=
  scalar (contract (contract U [2; 0] (diag l) [0; 1]) [1; 0] (dag (diag l)) [0; 1]).
(** 229-249 CalTransferMatOfGamma, bosonic *)
Definition transfer (T T' : tensor) : tensor := transpose [0; 2; 1; 3] (contract T [1; 2; 3] (dag T') [1; 2; 3]).
(** 263-276: one more site is added *)
Definition upsilon_step (gs : nat -> tensor) (ls : nat -> list R) (i : nat) (T : tensor) (j : nat) : tensor :=
  let g := (i + j) mod 4 in let l := diag (ls ((i + j - 1) mod 4)) in
  contract (contract (contract T [2] l [0]) [2] (dag l) [0]) [2; 3] (transfer (gs g) (gs g)) [0; 1].
(** 251-280 ConstructUpsilons *)
Definition upsilon (gs : nat -> tensor) (ls : nat -> list R) (i : nat) : tensor :=
  fold_left (upsilon_step gs ls i) [1; 2; 3] (transfer (gs i) (gs i)).
(** 282-323 GammaLambdaMPSLoopOverlap, bosonic: <1|0> *)
Definition loop_overlap (gs0 : nat -> tensor) (ls0 : nat -> list R) (gs1 : nat -> tensor) (ls1 : nat -> list R) : C :=
  let m i := transfer (contract (gs0 i) [4] (diag (ls0 i)) [0]) (contract (gs1 i) [4] (diag (ls1 i)) [0]) in
  let t0 := contract (m 0) [2; 3] (m 1) [0; 1] in
  let t1 := contract t0 [2; 3] (m 2) [0; 1] in
  scalar (contract t1 [2; 3; 0; 1] (m 3) [0; 1; 2; 3]).

(** QuasiNormalize of a diagonal matrix (397, 761-762) *)
Definition norm_of (s : list R) : R := sqrt (fold_right (fun x a => x * x + a)%R 0%R s).
(** QuasiNormalize of a diagonal matrix, what it leaves (397, 761-762) *)
Definition unit_length (s : list R) : list R := map (fun x => / norm_of s * x)%R s.
(** 561-583 FixSignForDiagMat *)
Definition fix_sign (s : list R) : list R := if rlt (fold_right Rplus 0%R s) 0 then map Ropp s else s.
(** 538-558 QuasiSquareRootDiagMat *)
Definition roots (s : list R) : list R := map (fun x => if rle 0 x then sqrt x else 0%R) s.
(** 585-595 EvaluateHermiticity; none: 0/0, which compares false with everything *)
Definition asymmetry (T : tensor) (p : list nat) : option R :=
  let D := transpose p (dag T) in
  if Req_EM_T (tnorm T) 0 then None else Some (tnorm (Tn (shape D) (fun ix => entry D ix - entry T ix)%C) / tnorm T)%R.
(** a number is below a tolerance (802, 822) *)
Definition below_tol (d : option R) (t : R) : bool := match d with Some x => rlt x t | None => false end.
(** a number is above a tolerance (821) *)
Definition above_tol (d : option R) (t : R) : bool := match d with Some x => rlt t x | None => false end.
(** 611-619 SymmetrizeMat *)
Definition symmetrized (T : tensor) (p : list nat) : tensor :=
  let D := transpose p (dag T) in Tn (shape D) (fun ix => (entry D ix + entry T ix) * RtoC (1 / 2))%C.

(** PtenVec (873-936): a matrix as a vector *)
Definition flat (T : tensor) : vec := fun k => entry T [k / dimat T 1; k mod dimat T 1].
(** PtenVec (873-936): the vector as a matrix again *)
Definition unflat (a b : nat) (v : vec) : tensor := Tn [a; b] (fun ix => v (nth 0 ix 0 * b + nth 1 ix 0)).
(** ConjugateGradientSolver(BtenMat(B), PtenVec(P), PtenVec(X), cg_params) and what is done if it does not converge
    (938-948, 1017-1025, 1060-1068) *)
Definition solve (p : cg_params) (B P X : tensor) : res tensor :=
  let a := dimat X 0 in let b := dimat X 1 in
  let g := cg_serial (a * b) p (fun v => flat (contract (unflat a b v) [0; 1] B [0; 1])) (flat P) (flat X) in
  match g_reason g with Converged => Ok (unflat a b (g_x g)) | _ => Fail Throw end.
(** 950-968 diag_mat_diff; none: infinity *)
Definition weight_change (s1 s2 : list R) : option R :=
  if length s1 =? length s2 then
    let d := norm_of (map (fun i => nth i s1 0 - nth i s2 0)%R (seq 0 (length s1))) in
    Some (if rlt 0 (norm_of s1) then d / norm_of s1 else if rlt 0 (norm_of s2) then d / norm_of s2 else 0)%R
  else None.

Section Loop.
(** QR(&T, n, div, &q, &r): the first n legs against the others (492, 501, 513, 525) *)
Context (qr : nat -> tensor -> tensor * tensor).
(** SVD(&T, n, div, &u, &s, &vt) without truncation (67, 74, 494) *)
Context (svd : nat -> tensor -> tensor * list R * tensor).
(** SVD(&T, n, div, trunc_err, Dmin, Dmax, &u, &s, &vt, ...) with the parameters of the full-environment truncation (43, 48) *)
Context (svdt : nat -> tensor -> tensor * list R * tensor).
(** SymMatEVD(&T, &u, &d) (757-758) *)
Context (evd : tensor -> tensor * list R).
(** 710-751: the dominant left (true) and right eigenvectors of the weighted transfer matrix, by ArnoldiSolver, SymmetrizeMat and
    PowerMethod *)
Context (eigvec : bool -> tensor -> list R -> tensor).
Context (pr : loop_params).

(** 460-534 PatSquareLocalLoopProjector_ *)
Definition pat (gate : nat -> tensor) (P : peps) (r c : nat) : peps :=
  let r1 := (r + 1) mod p_rows P in let c1 := (c + 1) mod p_cols P in
  let t0 := transpose [1; 4; 0; 3; 5; 2; 6] (contract (gamma P r c) [4] (gate 0) [1]) in
  let '(q0, r0) := qr 5 t0 in
  let '(u0, s0, vt0) := svd 1 (contract r0 [1] (diag (lam_h P r c1)) [0]) in
  let t2 := contract q0 [5] u0 [0] in
  let P0 := put_h P r c1 s0 in
  let t3 := contract (gamma P0 r c1) [4] (gate 1) [1] in
  let t4 := transpose [0; 2; 3; 4; 1; 5] (contract vt0 [1; 2] t3 [4; 0]) in
  let '(q1, r1') := qr 4 t4 in
  let '(u1, s1, vt1) := svd 1 (contract r1' [1] (diag (lam_v P0 r1 c1)) [0]) in
  let P1 := put_v (put_gamma P0 r c1 (transpose [0; 4; 1; 2; 3] (contract q1 [4] u1 [0]))) r1 c1 s1 in
  let t6 := contract (gamma P1 r1 c1) [4] (gate 2) [1] in
  let t7 := transpose [0; 2; 3; 4; 1; 5] (contract vt1 [1; 2] t6 [4; 3]) in
  let '(q2, r2) := qr 4 t7 in
  let '(u2, s2, vt2) := svd 1 (contract r2 [1] (diag (lam_h P1 r1 c1)) [0]) in
  let P2 := put_h (put_gamma P1 r1 c1 (transpose [4; 1; 2; 0; 3] (contract q2 [4] u2 [0]))) r1 c1 s2 in
  let t9 := contract (gamma P2 r1 c) [4] (gate 3) [1] in
  let t10 := transpose [0; 1; 2; 4; 3; 5] (contract vt2 [1; 2] t9 [4; 2]) in
  let '(q3, r3) := qr 4 t10 in
  let '(u3, s3, vt3) := svd 1 (contract r3 [1] (diag (lam_v P2 r1 c)) [0]) in
  let P3 := put_v (put_gamma P2 r1 c (transpose [1; 2; 0; 4; 3] (contract q3 [4] u3 [0]))) r1 c s3 in
  put_gamma P3 r c (transpose [1; 0; 4; 2; 3] (contract vt3 [2; 1] t2 [0; 1])).

(** What WeightedTraceGaugeFixing gives: Upsilon, sigma, the gammas on both sides. [h_roots] is not in the code: the square
    roots that were inverted. (682-694) *)
Record gauged := Gauged { h_upsilon : tensor; h_sigma : list R; h_head : tensor; h_tail : tensor; h_roots : list R }.
(** 683-834 WeightedTraceGaugeFixing *)
Definition gauge (U : tensor) (sigma : list R) (head tail : tensor) : res gauged :=
  let '(ul, dl) := evd (eigvec true U sigma) in
  let '(ur, dr) := evd (eigvec false U sigma) in
  let rl := roots (unit_length (fix_sign dl)) in
  let rr := roots (unit_length (fix_sign dr)) in
  let inv s := diag (inv_elements (l_inv_tol pr) s) in
  let t0 := cyc (diag rl) 0 ul 1 1 in
  let t1 := contract t0 [1] (diag sigma) [0] in
  let t2 := contract t1 [1] ur [0] in
  let t3 := contract t2 [1] (diag rr) [0] in
  let '(vl, sigma', vr) := svd 1 t3 in
  let x := contract (cyc (dag ul) 1 (inv rl) 1 1) [1] vl [0] in
  let t5 := contract U [3] (dag x) [0] in
  let t6 := cyc t5 2 x 0 1 in
  if below_tol (asymmetry t6 [3; 2; 1; 0]) (l_correct pr) then
    let t6' := symmetrized t6 [3; 2; 1; 0] in
    let y := contract (contract vr [1] (inv rr) [0]) [1] (dag ur) [1] in
    let t8 := contract y [] (dag y) [] in
    let U' := transpose [0; 1; 3; 2] (contract t8 [1; 3] t6' [1; 2]) in
    let out U := Ok (Gauged U sigma' (contract y [1] head [0]) (contract tail [4] x [0]) (rl ++ rr)) in
    if above_tol (asymmetry U' [1; 0; 3; 2]) (l_warn pr) then
      if below_tol (asymmetry U' [1; 0; 3; 2]) (l_correct pr) then out (symmetrized U' [1; 0; 3; 2]) else Fail Throw
    else out U'
  else Fail Throw.
(** the arrays gammas, lambdas, Upsilons of LocalSquareLoopProject (360-361, 376); and all the square roots inverted so far *)
Record ring := Ring { k_gs : nat -> tensor; k_ls : nat -> list R; k_us : nat -> tensor; k_roots : list R }.
(** the body of the loop in 857-863 *)
Definition gauge_step (x : res ring) (i : nat) : res ring :=
  bind x (fun k =>
    let j := (i + 3) mod 4 in
    bind (gauge (k_us k i) (k_ls k j) (k_gs k i) (k_gs k j)) (fun h =>
      Ok (Ring (set_nth (set_nth (k_gs k) i (h_head h)) j (h_tail h)) (set_nth (k_ls k) j (h_sigma h)) (set_nth (k_us k) i (h_upsilon h)) (k_roots k ++ h_roots h)))).
(** 842-864 WeightedTraceGaugeFixingInSquareLocalLoop *)
Definition gauge_all (gs : nat -> tensor) (ls : nat -> list R) : res ring :=
  fold_left gauge_step [0; 1; 2; 3] (Ok (Ring gs ls (upsilon gs ls) [])).

(** the loop in 1005-1080: at most [n] more iterations *)
Fixpoint fet_loop (n : nat) (U SU u : tensor) (s : list R) (vd : tensor) (old : list R) : res (tensor * list R * tensor) :=
  match n with
  | 0 => Ok (u, s, vd)
  | S n' =>
      let ud := dag u in
      let P := contract ud [1] SU [0] in
      let X := transpose [1; 0] (contract vd [1] (diag s) [0]) in
      let B := transpose [0; 1; 3; 2] (contract (contract u [1] U [0]) [1] ud [1]) in
      bind (solve (l_cg pr) B P X) (fun Y =>
        let '(vd1, s1, u1) := svdt 1 (contract Y [0] u [0]) in
        let v := dag vd1 in
        let P' := contract SU [1] v [0] in
        let B' := transpose [0; 2; 1; 3] (contract (contract U [2] vd1 [0]) [2] v [0]) in
        let X' := transpose [1; 0] (contract (diag s1) [1] u1 [0]) in
        bind (solve (l_cg pr) B' P' X') (fun Y' =>
          let '(vd2, s2, u2) := svdt 1 (contract vd1 [1] Y' [1]) in
          if below_tol (weight_change s2 old) (l_tol pr) then Ok (u2, s2, vd2) else fet_loop n' U SU u2 s2 vd2 s2))
  end.
(** 969-1082 FullEnvironmentTruncate *)
Definition fet (U : tensor) (sigma : list R) : res (tensor * list R * tensor) :=
  let SU := contract U [0; 2] (diag sigma) [1; 0] in
  let '(vd, s, u) := svdt 1 (diag sigma) in
  fet_loop (l_max pr) U SU u s vd s.
(** the body of the loop in 1092-1103 *)
Definition fet_step (x : res ring) (i : nat) : res ring :=
  bind x (fun k =>
    let j := (i + 3) mod 4 in
    bind (fet (k_us k i) (k_ls k j)) (fun '(u, s, vd) =>
      let tail := contract (k_gs k j) [4] vd [0] in
      let head := contract u [1] (k_gs k i) [0] in
      Ok (Ring (set_nth (set_nth (k_gs k) j tail) i head) (set_nth (k_ls k) j s) (k_us k) (k_roots k)))).
(** 1084-1104 FullEnvironmentTruncateInSquareLocalLoop *)
Definition fet_all (k : ring) : res ring := fold_left fet_step [0; 1; 2; 3] (Ok k).

(** what LocalSquareLoopProject returns and leaves; [lr_roots] are the square roots that were inverted (326-431) *)
Record loop_result := LoopRes { lr_peps : peps; lr_norm : R; lr_ratio : R; lr_roots : list R }.
(** 400-413: the four tensors and weights are stored *)
Definition store (P : peps) (r c : nat) (gs : nat -> tensor) (ls : nat -> list R) : peps :=
  let r1 := (r + 1) mod p_rows P in let c1 := (c + 1) mod p_cols P in
  put_v (put_h (put_v (put_h
    (put_gamma (put_gamma (put_gamma (put_gamma P r c (gs 0)) r c1 (gs 1)) r1 c1 (gs 2)) r1 c (gs 3))
    r c1 (ls 0)) r1 c1 (ls 1)) r1 c1 (ls 2)) r1 c (ls 3).
(** 326-431 LocalSquareLoopProject *)
Definition loop_project (gate : nat -> tensor) (P : peps) (r c : nat) : res loop_result :=
  if negb (p_per P) && ((p_rows P <=? r + 1) || (p_cols P <=? c + 1)) then Fail Throw
  else
    let el := env_left P r c in let er := env_right P r c in
    let gs_o := fun i => eat2 (to_mps i (loop_gammas P r c i)) (el i) (er i) in
    let ls_o := loop_lambdas P r c in
    let wfn := loop_trace (upsilon gs_o ls_o 0) (ls_o 3) in
    let P1 := pat gate P r c in
    let gs := fun i => eat2 (to_mps i (loop_gammas P1 r c i)) (el i) (er i) in
    let ls := loop_lambdas P1 r c in
    let overlap := loop_overlap gs ls gs_o ls_o in
    bind (gauge_all gs ls) (fun k1 =>
    bind (fet_all k1) (fun k2 =>
      let gs2 := fun i => from_mps i (split2 (l_env_tol pr) (k_gs k2 i) (el i) (er i)) in
      let ls2 := k_ls k2 in
      let norm := fold_left (fun n i => n * tnorm (gs2 i))%R [0; 1; 2; 3] (fold_left (fun n i => n * norm_of (ls2 i))%R [0; 1; 2; 3] 1%R) in
      Ok (LoopRes (store P1 r c (fun i => normalised (gs2 i)) (fun i => unit_length (ls2 i))) norm (fst (Cdiv overlap wfn)) (k_roots k2)))).
End Loop.
