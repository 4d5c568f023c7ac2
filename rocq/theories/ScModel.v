(** Singlet pair correlations: numbering of the pairs of bonds. *)
From Coq Require Import List Arith Bool String.
From Verif Require Import Base.
Import ListNotations.
Local Open Scope nat_scope.

(** a reference bond: row and column of its left site (singlet_pair_correlation_measurement_mixin.h:107-113) *)
Definition ref_bond : Type := nat * nat.
(** the test of lines 154, 204 and 330 *)
Definition usable (Ly Lx : nat) (b : ref_bond) : bool := (fst b <? Ly - 1) && (snd b <? Lx - 1).
(** 136-160 ComputeNumSCPairs; sums of size_t without overflow *)
Definition num_pairs (Ly Lx : nat) (refs : list ref_bond) : nat :=
  if (Ly <? 2) || (Lx <? 2) then 0 else
  match refs with
  | [] => fold_left (fun n y1 => fold_left (fun n _ => n + (Ly - 1 - y1) * (Lx - 1)) (seq 0 (Lx - 1)) n) (seq 0 (Ly - 1)) 0
  | _ => fold_left (fun n b => if usable Ly Lx b then n + (Ly - 1 - fst b) * (Lx - 1) else n) refs 0
  end.
(** 185-191 add_targets *)
Definition targets (Ly Lx : nat) (b : ref_bond) : list (list nat) :=
  flat_map (fun y2 => map (fun x2 => [fst b; snd b; 0; y2; x2; 0]) (seq 0 (Lx - 1))) (seq (fst b + 1) (Ly - (fst b + 1))).
(** operator< of std::pair, used by std::sort (208) *)
Definition before (a b : ref_bond) : bool := (fst a <? fst b) || ((fst a =? fst b) && (snd a <? snd b)).
(** std::sort (208): elements that are equal cannot be told apart, so any sorting algorithm gives the same result; here by insertion *)
Fixpoint insert (a : ref_bond) (l : list ref_bond) : list ref_bond := match l with [] => [a] | b :: t => if before b a then b :: insert a t else a :: l end.
(** 208 *)
Definition sorted (l : list ref_bond) : list ref_bond := fold_right insert [] l.
(** all horizontal bonds above the last row (195-196, 350-351) *)
Definition all_refs (Ly Lx : nat) : list ref_bond := list_prod (seq 0 (Ly - 1)) (seq 0 (Lx - 1)).
(** 176-215 GenerateSCPairCorrIndexMapping *)
Definition index_mapping (Ly Lx : nat) (refs : list ref_bond) : list (list nat) :=
  if (Ly <? 2) || (Lx <? 2) then [] else
  match refs with
  | [] => flat_map (targets Ly Lx) (all_refs Ly Lx)
  | _ => flat_map (targets Ly Lx) (sorted (filter (usable Ly Lx) refs))
  end.
(** 233-246 GenerateSCPairCorrCoordString: the numbers of each line after the heading *)
Definition coord_lines (Ly Lx : nat) (refs : list ref_bond) : list (list nat) :=
  let m := index_mapping Ly Lx refs in map (fun i => i :: nth i m []) (seq 0 (List.length m)).
(** the order in which MeasureSingletPairCorrelation would store its values (299-539, the code after the throw): the set of the selected bonds
    (324-336), the last row with one (325-333), the loops (350-355, 407, 464, 511); the values themselves are left out *)
Definition measured_order (Ly Lx : nat) (refs : list ref_bond) : list (list nat) :=
  if (Ly <? 2) || (Lx <? 2) then [] else
  let set := filter (usable Ly Lx) refs in
  let loops (rows : nat) (pick : ref_bond -> bool) := flat_map (fun b => if pick b then targets Ly Lx b else []) (list_prod (seq 0 rows) (seq 0 (Lx - 1))) in
  match refs with
  | [] => loops (Ly - 2 + 1) (fun _ => true)
  | _ => match set with
         | [] => []
         | _ => loops (fold_left Nat.max (map fst set) 0 + 1) (fun b => existsb (fun b' => (fst b =? fst b') && (snd b =? snd b')) set)
         end
  end.
(** 279-297 MeasureSingletPairCorrelation: it throws, whatever it is given *)
Definition measure_pairs {V : Type} (out : list (string * V)) : res (list (string * V)) := Fail Throw.
(** square_tJ_model.h:633-655, 708-728, 793-813 EvaluateObservables of the three t-J models; [out]: what the base class returns, [grow]: growing the
    boundary MPSs *)
Definition evaluate_observables {V : Type} (enabled : bool) (grow : res unit) (out : res (list (string * V))) : res (list (string * V)) :=
  o <- out ;; if enabled then _ <- grow ;; measure_pairs o else Ok o.
(** square_tJ_model.h:675-684, 755-764, 840-849 DescribeObservables: the key and the number of values that are added to the list, enabled or not *)
Definition described (Ly Lx : nat) (refs : list ref_bond) : string * nat := ("SC_singlet_pair_corr"%string, num_pairs Ly Lx refs).
