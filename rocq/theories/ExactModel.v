(** Exact summation: enumeration of configurations and the striped weighted sums. *)
From Coq Require Import List Arith Bool Reals.
From Verif Require Import Base ContractorModel SweepModel Cplx.
Import ListNotations.
Local Open Scope nat_scope.

(** [std::next_permutation] (ISO C++ [alg.permutation.generators]): the longest non-increasing
    suffix is found from the right; the element before it is exchanged with the last greater
    element of the suffix and the suffix is reversed. [None]: returned [false]. (called in exact_summation_energy_evaluator.h:92) *)
Fixpoint swap_last_greater (x : nat) (t : list nat) : option (nat * list nat) :=
  match t with
  | [] => None
  | y :: t' =>
      match swap_last_greater x t' with
      | Some (z, r) => Some (z, y :: r)
      | None => if x <? y then Some (y, x :: t') else None
      end
  end.
(** called in exact_summation_energy_evaluator.h:92 *)
Fixpoint next_permutation (l : list nat) : option (list nat) :=
  match l with
  | [] => None
  | x :: t =>
      match next_permutation t with
      | Some t' => Some (x :: t')
      | None => match swap_last_greater x t with
                | Some (y, r) => Some (y :: rev r)
                | None => None
                end
      end
  end.
(** exact_summation_energy_evaluator.h:47-58 Vec2Config. The row is [i / Lx], so [Lx = 0] divides by
    zero, and a row beyond the lattice is out of range; sites not written keep what the
    Configuration constructor left. *)
Definition vec2config (v : list nat) (lx ly : nat) : res (nat -> nat -> nat) :=
  fold_left (fun acc i => c <- acc;;
      (if lx =? 0 then Fail UB
       else if i / lx <? ly then Ok (upd2 c (i / lx, i mod lx) (nth i v 0)) else Fail UB))
    (seq 0 (length v)) (Ok (fun _ _ => 0)).
(** 82-87: the sorted base vector. *)
Definition base_vector (counts : list nat) : list nat :=
  flat_map (fun i => repeat i (nth i counts 0)) (seq 0 (length counts)).
(** 89-92: the do-while loop; [fuel] bounds the iterations ([None]: fuel exhausted). *)
Fixpoint permutation_loop (fuel : nat) (v : list nat) (lx ly : nat) : option (res (list (nat -> nat -> nat))) :=
  match fuel with
  | O => None
  | S f =>
      match next_permutation v with
      | None => Some (c <- vec2config v lx ly;; Ok [c])
      | Some v' =>
          match permutation_loop f v' lx ly with
          | None => None
          | Some r => Some (c <- vec2config v lx ly;; l <- r;; Ok (c :: l))
          end
      end
  end.
(** 74-95 GenerateAllPermutationConfigs *)
Definition all_permutation_configs (fuel : nat) (counts : list nat) (lx ly : nat) :=
  permutation_loop fuel (base_vector counts) lx ly.
(** exact_summation_measurer.h:40-59 GenerateAllBinaryConfigs; [size_t] has 64 bits, and a product
    that overflows is at least 64. *)
Fixpoint configs_of (vs : list (list nat)) (lx ly : nat) : res (list (nat -> nat -> nat)) :=
  match vs with
  | [] => Ok []
  | v :: vs' => c <- vec2config v lx ly;; l <- configs_of vs' lx ly;; Ok (c :: l)
  end.
(** exact_summation_measurer.h:40-60 *)
Definition all_binary_configs (lx ly : nat) : res (list (nat -> nat -> nat)) :=
  let n := lx * ly in
  if 64 <=? n then Fail Throw
  else configs_of (map (fun i => map (fun bit => (i / 2 ^ bit) mod 2) (seq 0 n)) (seq 0 (2 ^ n))) lx ly.

(** *** Striped sums *)
(** The loop [for (i = rank; i < n; i += mpi_size)]; [fuel] is enough when it is [n]. (exact_summation_energy_evaluator.h:201, exact_summation_measurer.h:122) *)
Fixpoint strided (fuel i step n : nat) : list nat :=
  match fuel with
  | O => []
  | S f => if i <? n then i :: strided f (i + step) step n else []
  end.
(** exact_summation_energy_evaluator.h:201, exact_summation_measurer.h:122 *)
Definition stripe (n size rank : nat) : list nat := strided n rank size n.
Section Sums.
Context {Conf Idx : Type}.
(** What one configuration contributes: amplitude (before the solver call), local energy and the
    increment [amplitude * hole_dag] (fermions: the contracted pre-parity sample). *)
Context (amp : Conf -> C) (eloc : Conf -> C) (incr : Conf -> Idx -> C) (configs : list Conf) (dflt : Conf).
(** all_configs[i], exact_summation_energy_evaluator.h:202 *)
Definition conf_at (i : nat) : Conf := nth i configs dflt.
(** 201-234: one pass of a rank; the accumulators start at zero. *)
Record rank_sums := mkSums { r_weight : R; r_energy : C; r_o : Idx -> C; r_eo : Idx -> C }.
(** exact_summation_energy_evaluator.h:198-245 *)
Definition rank_sum (size rank : nat) : rank_sums :=
  fold_left (fun s i =>
      let c := conf_at i in
      let w := Cnorm2 (amp c) in
      mkSums (r_weight s + w)%R
             (r_energy s + eloc c * RtoC w)%C
             (fun k => (r_o s k + incr c k)%C)
             (fun k => (r_eo s k + Cconj (eloc c) * incr c k)%C))
    (stripe (length configs) size rank)
    (mkSums 0%R (RtoC 0) (fun _ => RtoC 0) (fun _ => RtoC 0)).
(** 244-295: the master adds what the other ranks send; weights and energies are reduced. A zero
    total weight divides by zero (not a number): undefined here. *)
Definition exact_sum (size : nat) : res (C * (Idx -> C)) :=
  let total := fold_left (fun s r =>
      let s' := rank_sum size r in
      mkSums (r_weight s + r_weight s')%R (r_energy s + r_energy s')%C
             (fun k => (r_o s k + r_o s' k)%C) (fun k => (r_eo s k + r_eo s' k)%C))
    (seq 1 (size - 1)) (rank_sum size 0) in
  if Req_EM_T (r_weight total) 0 then Fail UB
  else
    let energy := (r_energy total * Cinv (RtoC (r_weight total)))%C in
    Ok (energy, fun k => ((r_eo total k - Cconj energy * r_o total k) * RtoC (1 / r_weight total))%C).
End Sums.

(** *** exact_summation_measurer.h *)
(** ObservableMap as an association list; keys are numbers here. (exact_summation_measurer.h:118-145; the order of an unordered_map is not modelled) *)
Definition amap := list (nat * list C).
(** exact_summation_measurer.h:135-143 *)
Fixpoint find_key (k : nat) (m : amap) : option (list C) :=
  match m with [] => None | (k', v) :: m' => if k =? k' then Some v else find_key k m' end.
(** exact_summation_measurer.h:135-143 *)
Fixpoint put_key (k : nat) (v : list C) (m : amap) : amap :=
  match m with [] => [(k, v)] | (k', v') :: m' => if k =? k' then (k, v) :: m' else (k', v') :: put_key k v m' end.
Section Measure.
Context {Conf : Type}.
Context (amp : Conf -> C) (obs : Conf -> amap) (configs : list Conf) (dflt : Conf).
(** exact_summation_measurer.h:210-240 *)
Definition get_key (k : nat) (m : amap) : list C := match find_key k m with Some v => v | None => [] end.
(** 134-142: [accum] is sized by the first values seen; later values beyond it are out of range. *)
Definition accumulate (w : R) (m : amap) (kv : nat * list C) : res amap :=
  let '(k, vs) := kv in
  let old := get_key k m in
  let a := match old with [] => map (fun _ => RtoC 0) vs | _ => old end in
  if length vs <=? length a
  then Ok (put_key k (map (fun j => (nth j a (RtoC 0) + if j <? length vs then RtoC w * nth j vs (RtoC 0) else RtoC 0)%C)
                          (seq 0 (length a))) m)
  else Fail UB.
(** exact_summation_measurer.h:135-143 *)
Fixpoint accumulate_all (w : R) (m : amap) (l : amap) : res amap :=
  match l with [] => Ok m | kv :: l' => m' <- accumulate w m kv;; accumulate_all w m' l' end.
(** 121-143 *)
Fixpoint rank_pass (is : list nat) (s : R * amap) : res (R * amap) :=
  match is with
  | [] => Ok s
  | i :: is' =>
      let c := nth i configs dflt in
      let w := Cnorm2 (amp c) in
      m <- accumulate_all w (snd s) (obs c);;
      rank_pass is' ((fst s + w)%R, m)
  end.
(** exact_summation_measurer.h:118-145 *)
Definition rank_obs (size rank : nat) : res (R * amap) := rank_pass (stripe (length configs) size rank) (0%R, []).
(** one pass per rank, exact_summation_measurer.h:118-145 *)
Fixpoint all_ranks (size : nat) (ranks : list nat) : res (list (R * amap)) :=
  match ranks with
  | [] => Ok []
  | r :: rs => s <- rank_obs size r;; l <- all_ranks size rs;; Ok (s :: l)
  end.
(** 218-238: reduction of one key of the master's list; a rank without the key sends zeros and a
    rank whose buffer is too short is read out of range. *)
Definition reduce_key (kv : nat * list C) (others : list (R * amap)) : res (nat * list C) :=
  let '(k, v) := kv in
  let n := length v in
  let buf := fun s : R * amap => match find_key k (snd s) with Some b => b | None => map (fun _ => RtoC 0) v end in
  if forallb (fun s => n <=? length (buf s)) others
  then Ok (k, map (fun j => (nth j v (RtoC 0) + sumC (fun s => nth j (buf s) (RtoC 0)) others)%C) (seq 0 n))
  else Fail UB.
(** exact_summation_measurer.h:210-240 *)
Fixpoint reduce_keys (m : amap) (others : list (R * amap)) : res amap :=
  match m with
  | [] => Ok []
  | kv :: m' => x <- reduce_key kv others;; r <- reduce_keys m' others;; Ok (x :: r)
  end.
(** 92-270: the value the master returns *)
Definition exact_measure (size : nat) : res amap :=
  match configs with
  | [] => Fail Throw
  | _ =>
      ss <- all_ranks size (seq 0 size);;
      match ss with
      | [] => Fail UB
      | s0 :: others =>
          sums <- (if 1 <? size then reduce_keys (snd s0) others else Ok (snd s0));;
          let weight := fold_left (fun a s => (a + fst s)%R) others (fst s0) in
          if Rlt_dec 0 weight
          then Ok (map (fun kv => (fst kv, map (fun x => (x * Cinv (RtoC weight))%C) (snd kv))) sums)
          else Fail Throw
      end
  end.
End Measure.
