(** The contractions of the boundary MPS method, element by element: include/qlpeps/one_dim_tn/boundary_mps/bmps_impl.h
    (MultiplyMPO with SVD compression) and include/qlpeps/two_dim_tn/tensor_network_2d/bmps/impl/bmps_contractor_init.h,
    bmps_contractor_grow.h, bmps_contractor_helpers.h, bmps_contractor_trace.h (bosonic branches), as an instance of the
    operations [ContractorModel.ops] the contractor is made of.

    Dense tensors without quantum numbers and leg directions; real and complex elements are complex numbers; QR and SVD of
    the tensor library are parameters. All bonds between sites have dimension D (smaller ones are padded with zeros); legs
    of a site that point out of the lattice have dimension one, so only their index 0 is ever read. The exception "Empty
    tensor" (bmps_impl.h:839-843), which needs quantum numbers, and the variational compressions are not modelled. *)
From Coq Require Import List Arith Bool Reals.
From Verif Require Import Base Cplx ContractorModel TrgTensor.
Import ListNotations.
Local Open Scope nat_scope.

(** MPOIndex: the leg of a site tensor that points to a boundary (basic.h:59-75) *)
Definition leg_no (p : pos) : nat := match p with LEFT => 0 | DOWN => 1 | RIGHT => 2 | UP => 3 end.
(** one at index zero of every leg, zero elsewhere: the tensors made in bmps_impl.h:96-102, bmps_contractor_init.h:107-118
    and 174-184 *)
Definition unit_at_zero (s : list nat) : tensor := Tn s (fun ix => if forallb (Nat.eqb 0) ix then RtoC 1 else RtoC 0).
(** the axes of a tensor of rank r, cyclically from s (the Contract of consecutive axes, as in bmps_impl.h:802-803) *)
Definition rotation (r s : nat) : list nat := map (fun k => (s + k) mod r) (seq 0 r).
(** Contract<..>(A, B, sa, sb, n, out): n consecutive axes, cyclically, from sa and from sb; the free axes follow them
    cyclically (bmps_impl.h:802-803, bmps_contractor_grow.h:577-578) *)
Definition cyc (A : tensor) (sa : nat) (B : tensor) (sb n : nat) : tensor :=
  contract (transpose (rotation (rank A) (sa + n)) A) (seq (rank A - n) n) (transpose (rotation (rank B) sb) B) (seq 0 n).
(** IndexCombine(idx1, idx2, dir): legs of dimensions d1 and d2 and their product (bmps_impl.h:769-770, 833) *)
Definition index_combine (d1 d2 : nat) : tensor :=
  Tn [d1; d2; d1 * d2] (fun ix => let i := nth 0 ix 0 in let j := nth 1 ix 0 in
    if (i <? d1) && (j <? d2) && (nth 2 ix 0 =? i * d2 + j) then RtoC 1 else RtoC 0).

Section Bmps.
(** the dimension of the bonds *)
Context (D : nat).
(** QR(&T, 2, div, &q, &r): legs 0, 1 against legs 2, 3 (bmps_impl.h:821) *)
Context (qr : tensor -> tensor * tensor).
(** SVD(T, 1, div, trunc_err, Dmin, Dmax, &u, &s, &vt): leg 0 against legs 1, 2 (bmps_impl.h:235-238) *)
Context (svd : tensor -> tensor * list R * tensor).

(** a site tensor, given by its elements (tensor_network_2d.h) *)
Definition site_tensor (t : list nat -> C) : tensor := Tn [D; D; D; D] t.

(** bmps_impl.h:777-851, the loop over the sites of MultiplyMPOSVDCompress_: [r] has legs (result, MPO, MPS) *)
Fixpoint mpo_sweep (p : pos) (r : tensor) (ms : list tensor) (ts : list (list nat -> C)) : list tensor :=
  match ms, ts with
  | A :: ms', t :: ts' =>
      let tmp1 := cyc A 0 r 2 1 in
      let tmp2 := cyc tmp1 3 (site_tensor t) (leg_no (pre_of p)) 2 in
      match ms' with
      | [] => [contract tmp2 [0; 2] (index_combine (dimat A 2) 1) [0; 1]]
      | _ => let '(q, r') := qr (transpose [1; 3; 2; 0] tmp2) in q :: mpo_sweep p r' ms' ts'
      end
  | _, _ => []
  end.
(** bmps_impl.h:852-858 with RightCanonicalizeTruncate (226-262): the tensor [cur] of a site is decomposed, its left factor
    goes to the site before; [rest] are the sites before, nearest first *)
Fixpoint right_sweep (cur : tensor) (rest done : list tensor) : list tensor :=
  match rest with
  | [] => cur :: done
  | B :: rest' =>
      let '(u, s, vt) := svd cur in
      right_sweep (contract B [2] (contract u [1] (diag s) [0]) [0]) rest' (vt :: done)
  end.
(** bmps_impl.h:760-872 MultiplyMPOSVDCompress_ *)
Definition multiply_svd (p : pos) (ms : list tensor) (ts : list (list nat -> C)) : list tensor :=
  match ms with
  | [] => []
  | A :: _ =>
      let r := transpose [2; 0; 1] (index_combine 1 (dimat A 0)) in
      match rev (mpo_sweep p r ms ts) with
      | [] => []
      | cur :: rest => right_sweep cur rest []
      end
  end.
(** bmps_impl.h:405-419 MultiplyMPO with SVD_COMPRESS, and ReverseTransferMPOIfNeeded_ *)
Definition multiply_mpo (p : pos) (ts : list (list nat -> C)) (ms : list tensor) : list tensor :=
  multiply_svd p ms (match p with RIGHT | UP => rev ts | LEFT | DOWN => ts end).

(** bmps_contractor_init.h:72-120 InitBTen *)
Definition vacuum_env (m1 m2 : tensor) : tensor := unit_at_zero [dimat m1 2; 1; dimat m2 0].
(** bmps_contractor_init.h:130-186 InitBTen2 *)
Definition vacuum_env2 (m1 m2 : tensor) : tensor := unit_at_zero [dimat m1 2; 1; 1; dimat m2 0].
(** bmps_contractor_grow.h:577-579 *)
Definition grow (p : pos) (e m1 : tensor) (t : list nat -> C) (m2 : tensor) : tensor :=
  let tmp1 := cyc m1 2 e 0 1 in
  let tmp2 := cyc tmp1 1 (site_tensor t) (leg_no (pre_of p)) 2 in
  contract tmp2 [0; 2] m2 [0; 1].
(** bmps_contractor_helpers.h:174-178 with the transposition of 13-28 *)
Definition grow2 (p : pos) (e m1 : tensor) (t1 t2 : list nat -> C) (m2 : tensor) : tensor :=
  let q := leg_no p in
  let mpo1 := transpose [(q + 3) mod 4; q mod 4; (q + 2) mod 4; (q + 1) mod 4] (site_tensor t1) in
  let tmp1 := cyc m1 2 e 0 1 in
  let tmp2 := cyc tmp1 1 mpo1 0 2 in
  let tmp3 := cyc tmp2 4 (site_tensor t2) (leg_no (pre_of p)) 2 in
  contract tmp3 [0; 3] m2 [0; 1].
(** bmps_contractor_trace.h:82, 202, 405, 421 *)
Definition close (a b : tensor) : C := scalar (contract a [0; 1; 2] b [2; 1; 0]).
(** bmps_contractor_trace.h:278, 321, 534 *)
Definition close2 (a b : tensor) : C := scalar (contract a [0; 1; 2; 3] b [3; 2; 1; 0]).

(** growing over one site of a window from the left or from above (bmps_contractor_trace.h:123-126, 165-168, 387-403) *)
Definition near_step (d : orient) (e : tensor) (m : tensor * tensor) (t : list nat -> C) : tensor :=
  match d with HORIZONTAL => grow LEFT e (fst m) t (snd m) | VERTICAL => grow UP e (snd m) t (fst m) end.
(** from the right or from below (142-149, 181-189) *)
Definition far_step (d : orient) (e : tensor) (m : tensor * tensor) (t : list nat -> C) : tensor :=
  match d with HORIZONTAL => grow RIGHT e (snd m) t (fst m) | VERTICAL => grow DOWN e (fst m) t (snd m) end.
(** bmps_contractor_trace.h:387-403, 408-419: one site after the other *)
Fixpoint near_steps (d : orient) (e : tensor) (ms : list (tensor * tensor)) (ts : list (list nat -> C)) : tensor :=
  match ms, ts with m :: ms', t :: ts' => near_steps d (near_step d e m t) ms' ts' | _, _ => e end.
(** bmps_contractor_trace.h:31-84 ReplaceOneSiteTrace, 86-206 ReplaceNNSiteTrace, 327-424 ReplaceTNNSiteTrace. Longer
    windows do not exist in the code; they are contracted here like those of three sites. *)
Definition trace1 (d : orient) (ms : list (tensor * tensor)) (ts : list (list nat -> C)) (e1 e2 : tensor) : C :=
  match ms, ts with
  | [m], [t] =>
      match d with
      | HORIZONTAL => close (grow LEFT e1 (fst m) t (snd m)) e2
      | VERTICAL => close (grow LEFT (fst m) e1 t e2) (snd m)
      end
  | [ma; mb], [ta; tb] => close (near_step d e1 ma ta) (far_step d e2 mb tb)
  | _, _ => close (near_steps d e1 ms ts) e2
  end.
(** two layers, from the left or from above (bmps_contractor_trace.h:266-269, 313-316, 449-452) *)
Definition near2_step (d : orient) (e : tensor) (m : tensor * tensor) (t : (list nat -> C) * (list nat -> C)) : tensor :=
  match d with
  | HORIZONTAL => grow2 LEFT e (fst m) (fst t) (snd t) (snd m)
  | VERTICAL => grow2 UP e (snd m) (snd t) (fst t) (fst m)
  end.
(** from the right or from below (271-274, 308-311, 454-457) *)
Definition far2_step (d : orient) (e : tensor) (m : tensor * tensor) (t : (list nat -> C) * (list nat -> C)) : tensor :=
  match d with
  | HORIZONTAL => grow2 RIGHT e (snd m) (snd t) (fst t) (fst m)
  | VERTICAL => grow2 DOWN e (fst m) (fst t) (snd t) (snd m)
  end.
(** one position after the other (bmps_contractor_trace.h:449-462) *)
Fixpoint near2_steps (d : orient) (e : tensor) (ms : list (tensor * tensor)) (ts : list ((list nat -> C) * (list nat -> C))) : tensor :=
  match ms, ts with m :: ms', t :: ts' => near2_steps d (near2_step d e m t) ms' ts' | _, _ => e end.
(** bmps_contractor_trace.h:208-325 ReplaceNNNSiteTrace and 426-536 ReplaceSqrt5DistTwoSiteTrace. Windows of other
    lengths do not exist in the code; they are contracted here from one end. *)
Definition trace2 (d : orient) (ms : list (tensor * tensor)) (ts : list ((list nat -> C) * (list nat -> C))) (e1 e2 : tensor) : C :=
  match ms, ts with
  | [ma; mb], [ta; tb] =>
      match d with
      | HORIZONTAL => close2 (near2_step d e1 ma ta) (far2_step d e2 mb tb)
      | VERTICAL => close2 (far2_step d e2 mb tb) (near2_step d e1 ma ta)
      end
  | [ma; mb; mc], [ta; tb; tc] =>
      match d with
      | HORIZONTAL => close2 (near2_step d (near2_step d e1 ma ta) mb tb) (far2_step d e2 mc tc)
      | VERTICAL => close2 (far2_step d (far2_step d e2 mc tc) mb tb) (near2_step d e1 ma ta)
      end
  | _, _ => close2 (near2_steps d e1 ms ts) e2
  end.
(** bmps_contractor_grow.h:150-183 PunchHole *)
Definition punch (d : orient) (m1 m2 e1 e2 : tensor) : tensor :=
  let '(up_ten, down_ten, left_ten, right_ten) := match d with HORIZONTAL => (m1, m2, e1, e2) | VERTICAL => (e1, e2, m1, m2) end in
  let tmp1 := contract left_ten [2] down_ten [0] in
  let tmp2 := contract right_ten [2] up_ten [0] in
  contract tmp1 [0; 3] tmp2 [3; 0].

(** the contractor's operations; [rows] and [cols] are those of the network (bmps_contractor.h:880-925) *)
Definition bmps_ops (rows cols : nat) : ops := {|
  Ten := list nat -> C; Mps := list tensor; MTen := tensor; Env := tensor; Env2 := tensor; Amp := C; Hole := tensor;
  vac_mps := fun p => repeat (unit_at_zero [1; 1; 1]) (wid rows cols p);
  absorb := multiply_mpo;
  mps_at := fun ms i => nth i ms (unit_at_zero []);
  vac_env := fun _ => vacuum_env;
  env_step := grow;
  vac_env2 := fun _ => vacuum_env2;
  env2_step := grow2;
  tr1 := trace1;
  tr2 := trace2;
  hole_of := punch
|}.
End Bmps.
