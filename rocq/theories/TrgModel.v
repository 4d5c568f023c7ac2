(** The tensor-renormalisation-group contractor of periodic networks:
    two_dim_tn/tensor_network_2d/trg/trg_contractor.h and trg_contractor_impl.h.
    Node numbers are unbounded (the code stores them in 32 bits). *)
From Coq Require Import List Arith Bool.
From Verif Require Import Base.
Import ListNotations.
Local Open Scope nat_scope.

(** std::vector with its size and operator[]. (trg_contractor.h:487-545) *)
Record arr (A : Type) := Arr { alen : nat; aval : nat -> A }.
Arguments Arr {A} alen aval.
Arguments alen {A} a.
Arguments aval {A} a i.
(** trg_contractor.h:487-545 *)
Definition anew {A} (n : nat) (x : A) : arr A := Arr n (fun _ => x).
(** trg_contractor.h:487-545 *)
Definition aget {A} (a : arr A) (i : nat) : res A := if i <? alen a then Ok (aval a i) else Fail UB.
(** trg_contractor.h:487-545 *)
Definition aset {A} (a : arr A) (i : nat) (x : A) : res (arr A) :=
  if i <? alen a then Ok (Arr (alen a) (fun j => if j =? i then x else aval a j)) else Fail UB.
(** a default tensor where one is needed: an exception (trg_contractor_impl.h:366-368) or a crash of the
    tensor library; both end the call *)
Definition need {A} (o : option A) : res A := match o with Some x => Ok x | None => Fail UB end.
(** range-for over a vector, trg_contractor_impl.h:486-514 *)
Fixpoint foreach {X A} (l : list X) (a : A) (f : A -> X -> res A) : res A :=
  match l with [] => Ok a | x :: t => a' <- f a x;; foreach t a' f end.

(** std::map with unsigned keys, in ascending order: assignment and find. (trg_contractor.h:351-360) *)
Fixpoint mset {A} (k : nat) (x : A) (m : list (nat * A)) : list (nat * A) :=
  match m with
  | [] => [(k, x)]
  | (k', x') :: t => if k <? k' then (k, x) :: m else if k =? k' then (k, x) :: t else (k', x') :: mset k x t
  end.
(** trg_contractor_impl.h:761-763 *)
Fixpoint mget {A} (m : list (nat * A)) (k : nat) : option A :=
  match m with [] => None | (k', x) :: t => if k' =? k then Some x else mget t k end.

(** trg_contractor.h:515-520 SplitType *)
Inductive stype := Type0 | Type1.
(** trg_contractor_impl.h:419-421 *)
Definition stype_eqb (a b : stype) : bool := match a, b with Type0, Type0 | Type1, Type1 => true | _, _ => false end.

(** The tensors and what the contractor does with them. [split_node] is SplitNode_ (355-424), [plaquette] and
    [diamond] the two contraction cores (442-466), [final*] the exact contractions of the last lattice (832-935),
    [hole2], [hole3] their holes (938-1054), [plaq_hole], [diam_hole] the hole of the piece of the k-th child of a
    coarse node (1110-1232) and [adjoint_*] the two halves of LinearSplitAdjointToHole_ (26-126). Their values are
    in TrgTensor.v. *)
Record trg_ops := mkTrgOps {
  Ten : Type; Piece : Type; Iso : Type; Num : Type; Prm : Type;
  split_node : Prm -> stype -> Ten -> Piece * Piece * Iso;
  plaquette : Piece -> Piece -> Piece -> Piece -> Ten;
  diamond : Piece -> Piece -> Piece -> Piece -> Ten;
  final1 : Ten -> Num;
  final2 : (nat -> Ten) -> Num;
  final3 : (nat -> Ten) -> Num;
  hole2 : (nat -> Ten) -> nat -> Ten;
  hole3 : (nat -> Ten) -> nat -> Ten;
  plaq_hole : nat -> Ten -> Piece -> Piece -> Piece -> Piece -> Piece;
  diam_hole : nat -> Ten -> Piece -> Piece -> Piece -> Piece -> Piece;
  adjoint_P : stype -> Iso -> Piece -> Ten;
  adjoint_Q : stype -> Iso -> Piece -> Ten;
  ten_add : Ten -> Ten -> Ten;
  ten_div : nat -> Ten -> Ten
}.

(** trg_contractor.h:476 IsPowerOfTwo_ *)
Definition is_power_of_two (n : nat) : bool := negb (n =? 0) && (Nat.land n (n - 1) =? 0).
(** trg_contractor_impl.h:150-160 *)
Definition size_ok (n : nat) : bool := is_power_of_two n || ((n mod 3 =? 0) && is_power_of_two (n / 3)).
(** trg_contractor.h:479-481 NodeId_ *)
Definition node_id (cols r c : nat) : nat := r * cols + c.
(** trg_contractor.h:482-484 Coord_ *)
Definition coord (cols node : nat) : nat * nat := (node / cols, node mod cols).

(** the two parents of a fine node; 0xFFFFFFFF is [None]. (trg_contractor.h:507-510) *)
Definition parents := (option nat * option nat)%type.
(** trg_contractor.h:507-510 *)
Definition children := (nat * nat * nat * nat)%type.
(** trg_contractor_impl.h:298-301 add_parent *)
Definition add_parent (a : arr parents) (f c : nat) : res (arr parents) :=
  p <- aget a f;;
  match fst p with None => aset a f (Some c, snd p) | Some _ => aset a f (fst p, Some c) end.
(** 294-306 and 335-344: one coarse node *)
Definition link (st : arr parents * arr children) (x : nat * children) : res (arr parents * arr children) :=
  let '(cid, (((k0, k1), k2), k3)) := x in
  c2f <- aset (snd st) cid (k0, k1, k2, k3);;
  f0 <- add_parent (fst st) k0 cid;; f1 <- add_parent f0 k1 cid;; f2 <- add_parent f1 k2 cid;; f3 <- add_parent f2 k3 cid;;
  Ok (f3, c2f).
(** nested loops over rows and columns. (trg_contractor_impl.h:283-284) *)
Definition all_sites (n : nat) : list (nat * nat) := list_prod (seq 0 n) (seq 0 n).
(** 270-308: the coarse nodes of an even layer of n x n nodes, children {TL, TR, BL, BR} *)
Definition even_links (n : nat) : list (nat * children) :=
  let up := fun x => (x + 1) mod n in
  let id := fun r c => r * n + c in
  map (fun rc => let '(r, c) := rc in
         (r * (n / 2) + c / 2, (id r c, id r (up c), id (up r) c, id (up r) (up c))))
      (filter (fun rc => Nat.even (fst rc + snd rc)) (all_sites n)).
(** 309-346: the coarse nodes of an odd layer embedded in n x n, children {N, E, S, W} *)
Definition odd_links (n : nat) : list (nat * children) :=
  let up := fun x => (x + 1) mod n in
  let down := fun x => (x + n - 1) mod n in
  let id := fun r c => r * (n / 2) + c / 2 in
  map (fun ij => let '(i, j) := ij in
         ((i / 2) * (n / 2) + (j - 1) / 2, (id (down i) j, id i (up j), id (up i) j, id i (down j))))
      (filter (fun ij => Nat.even (fst ij) && Nat.odd (snd ij)) (all_sites n)).

Section Contractor.
Context (o : trg_ops).
Notation Ten := (Ten o).
Notation Piece := (Piece o).
Notation Iso := (Iso o).
Notation Num := (Num o).
Notation Prm := (Prm o).

(** 359-373 and 520-545: what is kept of a split *)
Record sdata := mkSd { sd_type : stype; sd_P : Piece; sd_Q : Piece; sd_iso : Iso }.
(** 505-545 ScaleCache. The connectivity graph of scale 0 is never read apart from its sublattices. *)
Record scale := mkScale { tens : arr (option Ten); f2c : arr parents; c2f : arr children; splits : arr (option sdata) }.
(** 619-632 *)
Record trg := mkTrg { t_rows : nat; t_cols : nat; t_periodic : bool; t_ready : bool; t_sub : arr bool; t_scales : list scale; t_prm : option Prm }.
(** TensorNetwork2D: size, boundary condition, site tensors. (tensor_network_2d.h:40-120) *)
Record network := mkNet { n_rows : nat; n_cols : nat; n_periodic : bool; n_ten : nat -> nat -> Ten }.

(** 234-236 constructor with truncation parameters *)
Definition new_trg (rows cols : nat) (p : Prm) : trg := mkTrg rows cols false false (anew 0 true) [] (Some p).
(** 243 SetTruncateParams *)
Definition set_params (t : trg) (p : Prm) : trg := mkTrg (t_rows t) (t_cols t) (t_periodic t) (t_ready t) (t_sub t) (t_scales t) (Some p).
(** 134-138 ClearCache: the topology goes too *)
Definition clear_cache (t : trg) : trg := mkTrg (t_rows t) (t_cols t) (t_periodic t) false (anew 0 true) [] (t_prm t).

(** 209-243 BuildScale0GraphPBCSquare_: sublattice A is [true] *)
Definition build_scale0 (n : nat) : res (arr bool * scale) :=
  sub <- foreach (all_sites n) (anew (n * n) true) (fun a rc =>
           aset a (node_id n (fst rc) (snd rc)) (Nat.even (fst rc + snd rc)));;
  Ok (sub, mkScale (anew (n * n) None) (anew 0 (None, None)) (anew 0 (0, 0, 0, 0)) (anew 0 None)).
(** 245-353 BuildTopology_: the loop from a layer of size n (embedded size when it is odd) on; returns all layers *)
Fixpoint build_topology (fuel n s : nat) (fine : scale) : res (list scale) :=
  match fuel with
  | 0 => Fail UB
  | S fuel' =>
      if n <=? 3 then Ok [if s =? 0 then mkScale (tens fine) (anew (n * n) (None, None)) (c2f fine) (splits fine) else fine]
      else
        let f0 : arr parents := anew (alen (tens fine)) (None, None) in
        if Nat.even s then
          if Nat.odd n then Fail Throw
          else
            let count := n * n / 2 in
            st <- foreach (even_links n) (f0, anew count (0, 0, 0, 0)) link;;
            rest <- build_topology fuel' n (S s) (mkScale (anew count None) (anew 0 (None, None)) (snd st) (anew 0 None));;
            Ok (mkScale (tens fine) (fst st) (c2f fine) (splits fine) :: rest)
        else
          let count := (n / 2) * (n / 2) in
          st <- foreach (odd_links n) (f0, anew count (0, 0, 0, 0)) link;;
          rest <- build_topology fuel' (n / 2) (S s) (mkScale (anew count None) (anew 0 (None, None)) (snd st) (anew 0 None));;
          Ok (mkScale (tens fine) (fst st) (c2f fine) (splits fine) :: rest)
  end.
(** 426-440 ChildSplitType_ *)
Definition child_split_type (sub : arr bool) (s child role : nat) : res stype :=
  if s =? 0 then a <- aget sub child;; Ok (if a then Type0 else Type1)
  else if Nat.even s then Ok (if (role =? 0) || (role =? 3) then Type0 else Type1)
  else Ok (if (role =? 0) || (role =? 2) then Type1 else Type0).
(** 184-187: the last role in which a node appears *)
Definition last_role (k : children) (f : nat) : option nat :=
  let '(((k0, k1), k2), k3) := k in
  if k3 =? f then Some 3 else if k2 =? f then Some 2 else if k1 =? f then Some 1 else if k0 =? f then Some 0 else None.
(** 493-499: the first one *)
Definition first_role (k : children) (f : nat) : option nat :=
  let '(((k0, k1), k2), k3) := k in
  if k0 =? f then Some 0 else if k1 =? f then Some 1 else if k2 =? f then Some 2 else if k3 =? f then Some 3 else None.
(** 174-199: the check of one parent slot; the split type found so far is passed on *)
Definition check_slot (sub : arr bool) (s f : nat) (coarse : scale) (slot : option nat) (seen : option stype) : res (option stype) :=
  match slot with
  | None => Ok seen
  | Some pid =>
      if alen (c2f coarse) <=? pid then Fail Throw
      else k <- aget (c2f coarse) pid;;
           match last_role k f with
           | None => Fail Throw
           | Some role =>
               st <- child_split_type sub s f role;;
               match seen with None => Ok (Some st) | Some st0 => if stype_eqb st0 st then Ok seen else Fail Throw end
           end
  end.
(** 167-206 ValidateTopologyConsistency_, layers from s on *)
Fixpoint validate (sub : arr bool) (s : nat) (sc : list scale) : res unit :=
  match sc with
  | fine :: ((coarse :: _) as rest) =>
      foreach (seq 0 (alen (f2c fine))) tt (fun _ f =>
        p <- aget (f2c fine) f;;
        a <- check_slot sub s f coarse (fst p) None;;
        b <- check_slot sub s f coarse (snd p) a;;
        match b with None => Fail Throw | Some _ => Ok tt end) >>
      validate sub (S s) rest
  | _ => Ok tt
  end.
(** 140-165 Init. The object is taken to be gone when it throws (the code has stored the geometry by then). *)
Definition init (t : trg) (tn : network) : res trg :=
  if negb (n_periodic tn) then Fail Throw
  else if negb (n_rows tn =? n_cols tn) then Fail Throw
  else if negb (size_ok (n_rows tn)) then Fail Throw
  else
    let n := n_rows tn in
    s0 <- build_scale0 n;;
    sc <- build_topology (2 * n + 1) n 0 (snd s0);;
    let t1 := mkTrg n n true false (fst s0) sc (t_prm t) in
    validate (t_sub t1) 0 sc >> Ok t1.

(** 483-515: the body of EnsureSplitCacheForNodes_ for one node *)
Definition split_type_of (sub : arr bool) (s id : nat) (p : parents) (c2f : arr children) : res stype :=
  let look := fun slot => match slot with
    | None => Ok None
    | Some pid => k <- aget c2f pid;;
                  match first_role k id with None => Ok None | Some role => st <- child_split_type sub s id role;; Ok (Some st) end
    end in
  a <- look (fst p);;
  match a with
  | Some st => Ok st
  | None => b <- look (snd p);; match b with Some st => Ok st | None => Fail Throw end
  end.
(** 419-424 *)
Definition make_split (p : Prm) (st : stype) (x : Ten) : sdata :=
  let '(pp, qq, u) := split_node o p st x in mkSd st pp qq u.
(** 468-517 EnsureSplitCacheForNodes_ on a layer that has a coarser one; vectors of the wrong size are resized *)
Definition ensure_splits (sub : arr bool) (p : Prm) (s : nat) (fine coarse : scale) (nodes : list nat) : res scale :=
  let n := alen (tens fine) in
  let sp0 := if alen (splits fine) =? n then splits fine else anew n None in
  sp <- foreach nodes sp0 (fun sp id =>
          if n <=? id then Fail Throw
          else x <- aget (tens fine) id;;
               match x with
               | None => Fail Throw
               | Some T => par <- aget (f2c fine) id;;
                           st <- split_type_of sub s id par (c2f coarse);;
                           aset sp id (Some (make_split p st T))
               end);;
  Ok (mkScale (tens fine) (f2c fine) (c2f fine) sp).
(** 586-619: the contraction of one coarse node from the pieces of its children *)
Definition contract_node (s : nat) (piece : nat -> nat -> res (Piece * Piece)) (k : children) : res Ten :=
  let '(((k0, k1), k2), k3) := k in
  a <- piece k0 0;; b <- piece k1 1;; c <- piece k2 2;; d <- piece k3 3;;
  if Nat.even s then Ok (plaquette o (snd a) (snd b) (fst c) (fst d))
  else Ok (diamond o (fst a) (fst b) (snd c) (snd d)).
(** split_P and split_Q of a node. (trg_contractor_impl.h:596-616) *)
Definition pieces_of (sp : arr (option sdata)) (id : nat) : res (Piece * Piece) :=
  x <- aget sp id;; d <- need x;; Ok (sd_P d, sd_Q d).
(** 579-626: from the layer s with its splits up to the last layer *)
Fixpoint trace_up (sub : arr bool) (p : Prm) (s : nat) (fine : scale) (rest : list scale) : res (list scale) :=
  match rest with
  | [] => Ok [fine]
  | coarse :: rest' =>
      ts <- foreach (seq 0 (alen (tens coarse))) (tens coarse) (fun ts c =>
              k <- aget (c2f coarse) c;;
              x <- contract_node s (fun id _ => pieces_of (splits fine) id) k;;
              aset ts c (Some x));;
      let coarse1 := mkScale ts (f2c coarse) (c2f coarse) (splits coarse) in
      coarse2 <- match rest' with
                 | [] => Ok coarse1
                 | top :: _ => ensure_splits sub p (S s) coarse1 top (seq 0 (alen ts))
                 end;;
      up <- trace_up sub p (S s) coarse2 rest';;
      Ok (fine :: up)
  end.
(** 519-562 ComputeFinalAmplitude_; [u] are the tensors to use instead *)
Definition final_amplitude (sc : list scale) (u : list (nat * Ten)) : res Num :=
  match rev sc with
  | [] => Fail UB
  | top :: _ =>
      let n := alen (tens top) in
      if (n =? 1) || (n =? 4) || (n =? 9) then
        xs <- foreach (seq 0 n) [] (fun xs i =>
                match mget u i with
                | Some x => Ok (xs ++ [x])
                | None => y <- aget (tens top) i;; x <- need y;; Ok (xs ++ [x])
                end);;
        match xs with
        | [] => Fail UB
        | x0 :: _ =>
            let v := fun i => nth i xs x0 in
            Ok (if n =? 1 then final1 o x0 else if n =? 4 then final2 o v else final3 o v)
        end
      else Fail Throw
  end.
(** 564-632 Trace. With no layers the result is zero (522), which needs an element type: not reached, scales_[0]
    is written first. *)
Definition trace (t : trg) (tn : network) : res (trg * Num) :=
  if negb (t_periodic t) then Fail Throw
  else if negb (n_periodic tn) then Fail Throw
  else match t_prm t with
  | None => Fail Throw
  | Some p =>
      if t_ready t then z <- final_amplitude (t_scales t) [];; Ok (t, z)
      else match t_scales t with
      | [] => Fail UB
      | s0 :: rest =>
          ts <- foreach (seq 0 (t_rows t * t_cols t)) (tens s0) (fun ts i =>
                  let '(r, c) := coord (t_cols t) i in aset ts i (Some (n_ten tn r c)));;
          let s1 := mkScale ts (f2c s0) (c2f s0) (splits s0) in
          s2 <- match rest with
                | [] => Ok s1
                | c1 :: _ => ensure_splits (t_sub t) p 0 s1 c1 (seq 0 (t_rows t * t_cols t))
                end;;
          sc <- trace_up (t_sub t) p 0 s2 rest;;
          let t' := mkTrg (t_rows t) (t_cols t) (t_periodic t) true (t_sub t) sc (t_prm t) in
          z <- final_amplitude sc [];;
          Ok (t', z)
      end
  end.

(** 740-830 PropagateReplacements_, one layer: the tensors of the next layer that change and the splits made.
    The splits of a trial are kept in layer_splits[s], those of an evaluation in local_splits: the same map here. *)
Definition dirty_parents (fine : scale) (u : list (nat * Ten)) : res (list (nat * unit)) :=
  foreach u [] (fun d e =>
    p <- aget (f2c fine) (fst e);;
    let d1 := match fst p with Some q => mset q tt d | None => d end in
    Ok (match snd p with Some q => mset q tt d1 | None => d1 end)).
(** 775-806 get_split; the map of splits is threaded through *)
Definition get_split (sub : arr bool) (p : Prm) (s : nat) (fine : scale) (u : list (nat * Ten)) (sp : list (nat * sdata)) (id role : nat)
  : res (list (nat * sdata) * (Piece * Piece)) :=
  match mget u id with
  | None => x <- pieces_of (splits fine) id;; Ok (sp, x)
  | Some T =>
      st <- child_split_type sub s id role;;
      match mget sp id with
      | Some d => Ok (sp, (sd_P d, sd_Q d))
      | None => let d := make_split p st T in Ok (mset id d sp, (sd_P d, sd_Q d))
      end
  end.
(** 763-828: all coarse nodes with a changed child *)
Definition propagate_layer (sub : arr bool) (p : Prm) (s : nat) (fine coarse : scale) (u : list (nat * Ten))
  : res (list (nat * Ten) * list (nat * sdata)) :=
  d <- dirty_parents fine u;;
  foreach d ([], []) (fun st e =>
    let '(u', sp) := st in
    k <- aget (c2f coarse) (fst e);;
    let '(((k0, k1), k2), k3) := k in
    a <- get_split sub p s fine u sp k0 0;;
    b <- get_split sub p s fine u (fst a) k1 1;;
    c <- get_split sub p s fine u (fst b) k2 2;;
    e4 <- get_split sub p s fine u (fst c) k3 3;;
    let x := if Nat.even s then plaquette o (snd (snd a)) (snd (snd b)) (fst (snd c)) (fst (snd e4))
             else diamond o (fst (snd a)) (fst (snd b)) (snd (snd c)) (snd (snd e4)) in
    Ok (mset (fst e) x u', fst e4)).
(** 742-748: from layer s on; an empty layer ends the loop and leaves the rest empty *)
Fixpoint propagate (sub : arr bool) (p : Prm) (s : nat) (sc : list scale) (u : list (nat * Ten))
  : res (list (list (nat * Ten) * list (nat * sdata))) :=
  match sc with
  | [] => Fail UB
  | [_] => Ok [(u, [])]
  | fine :: ((coarse :: _) as rest) =>
      match u with
      | [] => Ok (map (fun _ => ([], [])) sc)
      | _ => x <- propagate_layer sub p s fine coarse u;;
             up <- propagate sub p (S s) rest (fst x);;
             Ok ((u, snd x) :: up)
      end
  end.
(** 351-360 Trial *)
Record trial := mkTrial { tr_amp : Num; tr_layers : list (list (nat * Ten) * list (nat * sdata)) }.
(** 645-646 *)
Definition scale0_updates (t : trg) (reps : list (nat * nat * Ten)) : list (nat * Ten) :=
  fold_left (fun u e => mset (node_id (t_cols t) (fst (fst e)) (snd (fst e))) (snd e) u) reps [].
(** the three checks of 637-639, 677-679 and 723-725 *)
Definition checked {A} (t : trg) (k : Prm -> res A) : res A :=
  if negb (t_periodic t) then Fail Throw
  else match t_prm t with None => Fail Throw | Some p => if t_ready t then k p else Fail Throw end.
(** 634-667 BeginTrialWithReplacement *)
Definition begin_trial (t : trg) (reps : list (nat * nat * Ten)) : res trial :=
  checked t (fun p =>
    match scale0_updates t reps with
    | [] => z <- final_amplitude (t_scales t) [];; Ok (mkTrial z (map (fun _ => ([], [])) (t_scales t)))
    | u => ls <- propagate (t_sub t) p 0 (t_scales t) u;;
           last <- back ls;;
           z <- final_amplitude (t_scales t) (fst last);;
           Ok (mkTrial z ls)
    end).
(** 718-738 EvaluateReplacement *)
Definition evaluate_replacement (t : trg) (reps : list (nat * nat * Ten)) : res Num :=
  checked t (fun p =>
    match reps with
    | [] => final_amplitude (t_scales t) []
    | _ => ls <- propagate (t_sub t) p 0 (t_scales t) (scale0_updates t reps);;
           last <- back ls;;
           final_amplitude (t_scales t) (fst last)
    end).
(** 682-715: one layer of CommitTrial *)
Definition commit_layer (sub : arr bool) (p : Prm) (s : nat) (fine : scale) (rest : list scale) (l : list (nat * Ten) * list (nat * sdata)) : res scale :=
  match fst l with
  | [] => Ok fine
  | u =>
      ts <- foreach u (tens fine) (fun ts e => aset ts (fst e) (Some (snd e)));;
      let fine1 := mkScale ts (f2c fine) (c2f fine) (splits fine) in
      let recompute := fun f nodes => match rest with [] => Ok f | coarse :: _ => ensure_splits sub p s f coarse nodes end in
      match snd l with
      | [] => recompute fine1 (map fst u)
      | sps =>
          x <- foreach u (splits fine1, []) (fun st e =>
                 match mget sps (fst e) with
                 | Some d => sp <- aset (fst st) (fst e) (Some d);; Ok (sp, snd st)
                 | None => Ok (fst st, snd st ++ [fst e])
                 end);;
          let fine2 := mkScale ts (f2c fine) (c2f fine) (fst x) in
          match snd x with [] => Ok fine2 | nodes => recompute fine2 nodes end
      end
  end.
(** 681-716 *)
Fixpoint commit_layers (sub : arr bool) (p : Prm) (s : nat) (sc : list scale) (ls : list (list (nat * Ten) * list (nat * sdata))) : res (list scale) :=
  match sc, ls with
  | [], [] => Ok []
  | fine :: rest, l :: ls' =>
      fine' <- commit_layer sub p s fine rest l;;
      rest' <- commit_layers sub p (S s) rest ls';;
      Ok (fine' :: rest')
  | _, _ => Fail UB
  end.
(** 674-716 CommitTrial *)
Definition commit_trial (t : trg) (tr : trial) : res trg :=
  checked t (fun p =>
    if negb (length (tr_layers tr) =? length (t_scales t)) then Fail Throw
    else sc <- commit_layers (t_sub t) p 0 (t_scales t) (tr_layers tr);;
         Ok (mkTrg (t_rows t) (t_cols t) (t_periodic t) (t_ready t) (t_sub t) sc (t_prm t))).

(** 1110-1232: add the contribution of one parent to one child. The piece held by the child in that parent is
    its Q for the first two roles of a plaquette and the last two of a diamond, its P otherwise. *)
Definition contribute (s role id : nat) (H : Ten) (fine : scale) (k : children) (acc : arr (option Ten * nat)) : res (arr (option Ten * nat)) :=
  let '(((k0, k1), k2), k3) := k in
  a <- pieces_of (splits fine) k0;; b <- pieces_of (splits fine) k1;; c <- pieces_of (splits fine) k2;; d <- pieces_of (splits fine) k3;;
  x <- aget (splits fine) id;; e <- need x;;
  let uses_Q := if Nat.even s then role <? 2 else 2 <=? role in
  let h := if Nat.even s then plaq_hole o role H (snd a) (snd b) (fst c) (fst d) else diam_hole o role H (fst a) (fst b) (snd c) (snd d) in
  let contrib := if uses_Q then adjoint_Q o (sd_type e) (sd_iso e) h else adjoint_P o (sd_type e) (sd_iso e) h in
  old <- aget acc id;;
  aset acc id (match fst old with None => Some contrib | Some y => Some (ten_add o y contrib) end, S (snd old)).
(** 1093-1245: the holes of layer s from those of layer s+1 *)
Definition holes_down (s : nat) (fine coarse : scale) (H : arr Ten) : res (arr Ten) :=
  let n := alen (tens fine) in
  acc <- foreach (seq 0 (alen (tens coarse))) (anew n (None, 0)) (fun acc pid =>
           k <- aget (c2f coarse) pid;;
           h <- aget H pid;;
           let '(((k0, k1), k2), k3) := k in
           a <- contribute s 0 k0 h fine k acc;; b <- contribute s 1 k1 h fine k a;;
           c <- contribute s 2 k2 h fine k b;; contribute s 3 k3 h fine k c);;
  xs <- foreach (seq 0 n) [] (fun xs id =>
          x <- aget acc id;;
          match x with
          | (Some y, 1) => Ok (xs ++ [y])
          | (Some y, S (S k)) => Ok (xs ++ [ten_div o (S (S k)) y])
          | _ => Fail Throw
          end);;
  match xs with [] => Fail UB | x0 :: _ => Ok (Arr n (fun i => nth i xs x0)) end.
(** 1058-1090: the holes of the last layer *)
Definition holes_top (top : scale) : res (arr Ten) :=
  let n := alen (tens top) in
  if (n =? 9) || (n =? 4) then
    xs <- foreach (seq 0 n) [] (fun xs i => y <- aget (tens top) i;; x <- need y;; Ok (xs ++ [x]));;
    match xs with
    | [] => Fail UB
    | x0 :: _ => let v := fun i => nth i xs x0 in Ok (Arr n (if n =? 9 then hole3 o v else hole2 o v))
    end
  else Fail Throw.
(** 1056-1262 PunchAllHolesImpl_, layers from s on *)
Fixpoint holes_from (s : nat) (sc : list scale) : res (arr Ten) :=
  match sc with
  | [] => Fail UB
  | [top] => holes_top top
  | fine :: ((coarse :: _) as rest) => H <- holes_from (S s) rest;; holes_down s fine coarse H
  end.
(** 1264-1311 PunchAllHoles: the hole of every site by node number *)
Definition punch_all_holes (t : trg) (tn : network) : res (arr Ten) :=
  if negb (t_periodic t) then Fail Throw
  else if negb (n_periodic tn) then Fail Throw
  else if (t_rows t =? 2) && (t_cols t =? 2) then Ok (Arr 4 (hole2 o (fun i => n_ten tn (i / 2) (i mod 2))))
  else if (t_rows t =? 3) && (t_cols t =? 3) then Ok (Arr 9 (hole3 o (fun i => n_ten tn (i / 3) (i mod 3))))
  else if negb (t_ready t) then Fail Throw
  else if (t_rows t =? t_cols t) && size_ok (t_rows t) then holes_from 0 (t_scales t)
  else Fail Throw.
End Contractor.
Arguments mkSd {o}. Arguments sd_type {o}. Arguments sd_P {o}. Arguments sd_Q {o}. Arguments sd_iso {o}.
Arguments mkScale {o}. Arguments tens {o}. Arguments f2c {o}. Arguments c2f {o}. Arguments splits {o}.
Arguments mkTrg {o}. Arguments t_rows {o}. Arguments t_cols {o}. Arguments t_periodic {o}. Arguments t_ready {o}. Arguments t_sub {o}. Arguments t_scales {o}. Arguments t_prm {o}.
Arguments mkNet {o}. Arguments n_rows {o}. Arguments n_cols {o}. Arguments n_periodic {o}. Arguments n_ten {o}.
Arguments mkTrial {o}. Arguments tr_amp {o}. Arguments tr_layers {o}.
