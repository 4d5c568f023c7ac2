(** Arithmetic of split-index TPS (two_dim_tn/tps/split_index_tps.h, split_index_tps_impl.h).
    A tensor is the list of its stored entries, [None] a default-constructed tensor. Two tensors of
    the library can be combined when they have the same indices and blocks; here: the same number of
    entries, anything else is undefined. *)
From Coq Require Import List Arith Bool Reals.
From Verif Require Import Base Cplx Rsum OptModel MsgModel.
Import ListNotations.
Local Open Scope nat_scope.

(** QLTensor, used in split_index_tps_impl.h:22-630 *)
Definition ten := option (list C).
(** split_index_tps.h *)
Definition state := sitps ten.

(** loop over sites, split_index_tps_impl.h:22-77 *)
Fixpoint map_res {X Y} (f : X -> res Y) (l : list X) : res (list Y) :=
  match l with [] => Ok [] | x :: t => y <- f x;; ys <- map_res f t;; Ok (y :: ys) end.
(** [v({row, col})] and [v({row, col})[i]]; the latter is vector operator[]. (ten_matrix.h, operator()) *)
Definition site_of {T} (v : sitps T) (r c : nat) : res (list T) :=
  if (r <? p_rows v) && (c <? p_cols v) then idx (p_sites v) (r * p_cols v + c) else Fail UB.
(** ten_matrix.h, operator() *)
Definition comp {T} (v : sitps T) (r c i : nat) : res T := s <- site_of v r c;; idx s i.
(** The row-column loops. (split_index_tps_impl.h:22-77) *)
Definition sites_of (rows cols : nat) : list (nat * nat) := list_prod (seq 0 rows) (seq 0 cols).
(** split_index_tps.h:121-126: default tensors everywhere *)
Definition blank (rows cols dim : nat) : state := mkS rows cols false (repeat (repeat None dim) (rows * cols)).

(** *** Tensor library; (element-wise tensor operations used in split_index_tps_impl.h:52-65) *)
Fixpoint zip_with {X Y Z} (f : X -> Y -> Z) (a : list X) (b : list Y) : list Z :=
  match a, b with x :: a', y :: b' => f x y :: zip_with f a' b' | _, _ => [] end.
(** element-wise tensor operations used in split_index_tps_impl.h:52-65 *)
Definition zip_ten (f : C -> C -> C) (a b : list C) : res (list C) :=
  if length a =? length b then Ok (zip_with f a b) else Fail UB.
(** qlten::QuasiInnerProduct: sum of conj(a) b over the stored entries; (as called in split_index_tps_impl.h:174) *)
Definition quasi_inner (a b : list C) : res C :=
  if length a =? length b then Ok (fold_left Cadd (zip_with (fun x y => Cconj x * y)%C a b) (RtoC 0)) else Fail UB.

(** *** split_index_tps_impl.h:50-64 ApplyBinaryOp_: the result is built with the two-argument
    constructor, whose boundary condition is Open (split_index_tps.h:108). *)
Definition apply_binary (f : ten -> ten -> res ten) (a b : state) : res state :=
  d <- phys_dim a;;
  ss <- map_res (fun rc => map_res (fun i => x <- comp a (fst rc) (snd rc) i;; y <- comp b (fst rc) (snd rc) i;; f x y) (seq 0 d))
          (sites_of (p_rows a) (p_cols a));;
  Ok (mkS (p_rows a) (p_cols a) false ss).
(** 66-76 CreateInitializedResult_ followed by 19-33 ForEachValidTensor_ *)
Definition apply_unary (f : list C -> list C) (a : state) : res state :=
  d <- phys_dim a;;
  ss <- map_res (fun rc => map_res (fun i => x <- comp a (fst rc) (snd rc) i;; Ok (option_map f x)) (seq 0 d))
          (sites_of (p_rows a) (p_cols a));;
  Ok (mkS (p_rows a) (p_cols a) false ss).
(** In place: only the first PhysicalDim() components of a site are visited. (split_index_tps_impl.h:37-50, split_index_tps.h:326-340) *)
Definition apply_inplace (f : nat -> nat -> nat -> ten -> res ten) (a : state) : res state :=
  d <- phys_dim a;;
  ss <- map_res (fun rc => s <- site_of a (fst rc) (snd rc);;
                           new <- map_res (fun i => x <- idx s i;; f (fst rc) (snd rc) i x) (seq 0 d);;
                           Ok (new ++ skipn d s))
          (sites_of (p_rows a) (p_cols a));;
  Ok (mkS (p_rows a) (p_cols a) (p_bc a) ss).

(** split_index_tps.h:315-324 operator+ *)
Definition plus_ten (x y : ten) : res ten :=
  match x, y with
  | Some a, Some b => r <- zip_ten Cadd a b;; Ok (Some r)
  | Some a, None => Ok (Some a)
  | None, Some b => Ok (Some b)
  | None, None => Ok None
  end.
(** split_index_tps.h:315-318 *)
Definition add (a b : state) : res state := apply_binary plus_ten a b.
(** 326-339 operator+= *)
Definition add_to (a b : state) : res state :=
  apply_inplace (fun r c i x => y <- comp b r c i;; plus_ten x y) a.
(** 282-288 operator*, 299-304 operator*= (scalar) *)
Definition scale (x : C) (a : state) : res state := apply_unary (map (fun e => e * x)%C) a.
(** split_index_tps.h:299-304 *)
Definition scale_by (x : C) (a : state) : res state := apply_inplace (fun _ _ _ t => Ok (option_map (map (fun e => e * x)%C) t)) a.
(** 387-393 operator-(), 395-397 operator-, split_index_tps_impl.h:445-448 operator-= *)
Definition neg (a : state) : res state := apply_unary (map Copp) a.
(** split_index_tps.h:395-397 *)
Definition sub (a b : state) : res state := n <- neg b;; add a n.
(** split_index_tps_impl.h:445-449 *)
Definition sub_from (a b : state) : res state := n <- neg b;; add a n.

(** ForEachValidTensor_ with an accumulator. (split_index_tps_impl.h:22-50) *)
Fixpoint fold_res {X Y} (f : Y -> X -> res Y) (l : list X) (y : Y) : res Y :=
  match l with [] => Ok y | x :: t => y' <- f y x;; fold_res f t y' end.
(** split_index_tps_impl.h:22-35 *)
Definition valid_fold {Y} (f : Y -> nat -> nat -> nat -> list C -> res Y) (a : state) (y : Y) : res Y :=
  d <- phys_dim a;;
  fold_res (fun y rc => fold_res (fun y i => x <- comp a (fst rc) (snd rc) i;;
                                             match x with Some t => f y (fst rc) (snd rc) i t | None => Ok y end) (seq 0 d) y)
    (sites_of (p_rows a) (p_cols a)) y.
(** 370-377 operator* of two states *)
Definition inner (a b : state) : res C :=
  valid_fold (fun acc r c i t => y <- comp b r c i;;
                                 match y with Some u => q <- quasi_inner t u;; Ok (acc + q)%C | None => Ok acc end) a (RtoC 0).
(** split_index_tps_impl.h:171-177 NormSquare *)
Definition norm_square (a : state) : res R :=
  valid_fold (fun acc _ _ _ t => q <- quasi_inner t t;; Ok (acc + fst q)%R) a 0%R.

(** *** Element-wise maps, 486-563 (new objects) and 565-609 (in place) *)
Definition sq_norm (e : C) : C := RtoC (Cnorm2 e).
(** principal square root; (std::sqrt, split_index_tps_impl.h:527-545) *)
Definition Csqrt (z : C) : C :=
  let m := sqrt (Cnorm2 z) in
  (sqrt ((m + fst z) / 2), if Rlt_dec (snd z) 0 then (- sqrt ((m - fst z) / 2))%R else sqrt ((m - fst z) / 2))%R.
(** split_index_tps_impl.h:507-525 *)
Definition elem_sq_norm (a : state) : res state := apply_unary (map sq_norm) a.
(** split_index_tps_impl.h:527-545 *)
Definition elem_sqrt (a : state) : res state := apply_unary (map Csqrt) a.
(** 547-563. [inv]: the library's element-wise safe inverse, which is not part of this repository. *)
Definition elem_inverse (inv : R -> C -> C) (eps : R) (a : state) : res state := apply_unary (map (inv eps)) a.
(** 565-570: polar(c, arg(g)) if |g| > c *)
Definition clip_elem (c : R) (e : C) : C := if Rlt_dec c (sqrt (Cnorm2 e)) then (e * RtoC (c / sqrt (Cnorm2 e)))%C else e.
(** split_index_tps_impl.h:566-571 *)
Definition clip_value (c : R) (a : state) : res state := apply_inplace (fun _ _ _ t => Ok (option_map (map (clip_elem c)) t)) a.
(** 572-580 *)
Definition clip_norm (c : R) (a : state) : res state :=
  n <- norm_square a;;
  if rlt 0 (sqrt n) && rlt c (sqrt n) then scale_by (RtoC (c / sqrt n)) a else Ok a.
