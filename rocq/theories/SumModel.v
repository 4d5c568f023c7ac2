(** WaveFunctionSum of TPS (two_dim_tn/tps/tps_impl.h). *)
From Coq Require Import List Arith Bool Reals.
From Verif Require Import Base Cplx.
Import ListNotations.
Local Open Scope nat_scope.

(** A site tensor: dimensions of the legs west 0, south 1, east 2, north 3, and the element at a leg index
    [w; s; e; n] and a physical index. Symmetry sectors, index directions and fermion signs are not modelled. (tps.h, data members) *)
Record ten := mkTen { dims : list nat; ent : list nat -> nat -> C }.
(** GetShape() *)
Definition dim (t : ten) (l : nat) : nat := nth l (dims t) 0.
(** TenMatrix of the tensors: a function of row and column, only used inside the lattice. (tps.h, data members) *)
Record lat := mkLat { l_rows : nat; l_cols : nat; l_per : bool; l_ten : nat -> nat -> ten }.

(** QLTensor operator+ and scalar product: element-wise. (used in tps_impl.h:203-300) *)
Definition tadd (a b : ten) : ten := mkTen (dims a) (fun i p => Cadd (ent a i p) (ent b i p)).
(** used in tps_impl.h:248-300 *)
Definition tscale (c : C) (a : ten) : ten := mkTen (dims a) (fun i p => Cmul c (ent a i p)).
(** QLTensor Expand: direct sum on the legs in [x]; the first tensor has the low indices. (tps_impl.h:169-200) *)
Definition mem (l : nat) (x : list nat) : bool := existsb (Nat.eqb l) x.
(** tps_impl.h:225-240; QLTensor Expand *)
Definition expand (a b : ten) (x : list nat) : ten :=
  mkTen (map (fun l => if mem l x then dim a l + dim b l else dim a l) (seq 0 4))
    (fun i p =>
       if forallb (fun l => nth l i 0 <? dim a l) x then ent a i p
       else if forallb (fun l => dim a l <=? nth l i 0) x then ent b (map (fun l => if mem l x then nth l i 0 - dim a l else nth l i 0) (seq 0 4)) p
       else RtoC 0).

(** GetExpandIndices_, 169-199; [rows - 1] does not wrap on a non-empty lattice. *)
Definition expand_indices (row col rows cols : nat) (per : bool) : list nat :=
  if per then [0; 1; 2; 3]
  else (if 0 <? col then [0] else []) ++ (if row <? rows - 1 then [1] else []) ++ (if col <? cols - 1 then [2] else []) ++ (if 0 <? row then [3] else []).
(** WaveFunctionSum of two, 203-244. The asserts are preconditions. *)
Definition site_sum (row col rows cols : nat) (per : bool) (a b : ten) : ten :=
  match expand_indices row col rows cols per with
  | [] => tadd a b
  | x => expand a b x
  end.
(** tps_impl.h:203-243 *)
Definition wf_sum (a b : lat) : lat :=
  mkLat (l_rows a) (l_cols a) (l_per a) (fun r c => site_sum r c (l_rows a) (l_cols a) (l_per a) (l_ten a r c) (l_ten b r c)).
(** std::pow(x, 1.0 / n) for x >= 0; (tps_impl.h:269-276, 318) *)
Definition root (x : R) (n : nat) : R := if Req_EM_T x 0 then 0%R else Rpower x (1 / INR n).
(** The per-site factors, 266-277, for real and for complex elements. *)
Definition scale_real (alpha : R) (n : nat) : R :=
  let s := root (Rabs alpha) n in if Rlt_dec alpha 0 then if n mod 2 =? 1 then (- s)%R else s else s.
(** tps_impl.h:265-278 *)
Definition scale_complex (alpha : C) (n : nat) : R := root (sqrt (Cnorm2 alpha)) n.
(** WaveFunctionSum with coefficients, 246-298, after the factors are computed *)
Definition wf_sum_scaled (sa sb : R) (a b : lat) : lat :=
  mkLat (l_rows a) (l_cols a) (l_per a)
    (fun r c => site_sum r c (l_rows a) (l_cols a) (l_per a) (tscale (RtoC sa) (l_ten a r c)) (tscale (RtoC sb) (l_ten b r c))).
(** rows*cols, tps_impl.h:262, 312 *)
Definition sites_of (a : lat) : nat := l_rows a * l_cols a.
(** tps_impl.h:248-300 *)
Definition wf_sum_real (alpha : R) (a : lat) (beta : R) (b : lat) : lat :=
  wf_sum_scaled (scale_real alpha (sites_of a)) (scale_real beta (sites_of a)) a b.
(** tps_impl.h:248-300 *)
Definition wf_sum_complex (alpha : C) (a : lat) (beta : C) (b : lat) : lat :=
  wf_sum_scaled (scale_complex alpha (sites_of a)) (scale_complex beta (sites_of a)) a b.
(** WaveFunctionSum of a list, 300-344, for real elements: without coefficients, and with them (a list of pairs) *)
Definition scale_all (s : R) (a : lat) : lat := mkLat (l_rows a) (l_cols a) (l_per a) (fun r c => tscale (RtoC s) (l_ten a r c)).
(** tps_impl.h:303-348 *)
Definition wf_list (l : list lat) : res lat :=
  match l with
  | [] => Fail UB
  | [a] => Ok a
  | a :: b :: t => Ok (fold_left wf_sum t (wf_sum a b))
  end.
(** tps_impl.h:303-348 *)
Definition wf_list_real (l : list (R * lat)) : res lat :=
  match l with
  | [] => Fail UB
  | [(x, a)] => Ok (scale_all (root (Rabs x) (sites_of a)) a)
  | (x, a) :: (y, b) :: t => Ok (fold_left (fun acc p => wf_sum_real 1 acc (fst p) (snd p)) t (wf_sum_real x a y b))
  end.
