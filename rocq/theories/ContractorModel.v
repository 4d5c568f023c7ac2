(** Model of BMPSContractor: the caches of boundary MPS ("BMPS"), one-layer boundary
    tensors ("BTen") and two-layer boundary tensors ("BTen2"), and every operation that
    grows, shifts, erases or reads them.

    Tensors, boundary MPS and contractions are abstract: [ops] packages arbitrary types
    and arbitrary functions, so nothing about truncation accuracy is assumed.
    Simplifications, valid for the whole file:
    - The index spaces of a site tensor do not change when the site tensor is replaced
      (asserted by the updaters, square_nn_updater.h:152-163), so the vacuum objects made
      by InitBMPS/InitBTen do not depend on the entries of the site tensors.
    - Truncation parameters are fixed and folded into [absorb].
    - The fermionic branches perform the same contraction pattern; both are [env_step]. *)
From Coq Require Import List Arith Lia Bool.
From Verif Require Import Base.
Import ListNotations.

Record ops := mkOps {
  Ten : Type;      (* site tensor *)
  Mps : Type;      (* BMPS<TenElemT,QNT> *)
  MTen : Type;     (* one tensor of a boundary MPS *)
  Env : Type;      (* entry of bten_set_ *)
  Env2 : Type;     (* entry of bten_set2_ *)
  Amp : Type;      (* TenElemT *)
  Hole : Type;     (* result of PunchHole *)
  vac_mps : pos -> Mps;                       (* bmps_contractor_init.h:35-70 *)
  absorb : pos -> list Ten -> Mps -> Mps;     (* BMPS::MultiplyMPO *)
  mps_at : Mps -> nat -> MTen;                (* BMPS::operator[] in storage order *)
  vac_env : pos -> MTen -> MTen -> Env;       (* bmps_contractor_init.h:107-118 *)
  env_step : pos -> Env -> MTen -> Ten -> MTen -> Env;   (* bmps_contractor_grow.h:572-580 *)
  vac_env2 : pos -> MTen -> MTen -> Env2;     (* bmps_contractor_init.h:174-184 *)
  env2_step : pos -> Env2 -> MTen -> Ten -> Ten -> MTen -> Env2; (* bmps_contractor_helpers.h:151-180 *)
  tr1 : orient -> list (MTen * MTen) -> list Ten -> Env -> Env -> Amp;
                                              (* one-layer traces, bmps_contractor_trace.h:31-205, 327-423 *)
  tr2 : orient -> list (MTen * MTen) -> list (Ten * Ten) -> Env2 -> Env2 -> Amp;
                                              (* two-layer traces, bmps_contractor_trace.h:208-324, 426-536 *)
  hole_of : orient -> MTen -> MTen -> Env -> Env -> Hole (* bmps_contractor_grow.h:169-182 *)
}.

(** TensorNetwork2D: a rows x cols grid of site tensors. Only coordinates inside the
    lattice are ever read (anything else is [UB]). (tensor_network_2d.h, duomatrix.h:160-180) *)
Definition net (o : ops) := nat -> nat -> Ten o.

(** BMPSContractor data members, bmps_contractor.h:1020-1025. The three [std::map]s always
    hold the four keys (inserted by the constructor, bmps_contractor_init.h:13-22), so they
    are total functions of the position. *)
Record con (o : ops) := mkCon {
  rows_ : nat; cols_ : nat;
  bm : pos -> list (Mps o);
  bt : pos -> list (Env o);
  bt2 : pos -> list (Env2 o)
}.
Arguments mkCon {o}. Arguments rows_ {o}. Arguments cols_ {o}.
Arguments bm {o}. Arguments bt {o}. Arguments bt2 {o}.

Section Contractor.
Context (o : ops).
Implicit Types (c : con o) (tn : net o).

(** writing bmps_set_, bmps_contractor.h:917 *)
Definition set_bm c p l := mkCon (rows_ c) (cols_ c) (upd (bm c) p l) (bt c) (bt2 c).
(** writing bten_set_, bmps_contractor.h:918 *)
Definition set_bt c p l := mkCon (rows_ c) (cols_ c) (bm c) (upd (bt c) p l) (bt2 c).
(** writing bten_set2_, bmps_contractor.h:919 *)
Definition set_bt2 c p l := mkCon (rows_ c) (cols_ c) (bm c) (bt c) (upd (bt2 c) p l).

(** Constructor, bmps_contractor_init.h:11-23 *)
Definition new_con (rows cols : nat) : con o :=
  mkCon rows cols (fun _ => []) (fun _ => []) (fun _ => []).

(** Number of slices a boundary at [p] can absorb: rows for UP/DOWN, cols for LEFT/RIGHT. (impl/bmps_contractor_grow.h:33-88) *)
Definition nsl (rows cols : nat) (p : pos) : nat :=
  match p with UP | DOWN => rows | LEFT | RIGHT => cols end.
(** Length of a boundary MPS at [p] (also the number of steps of a BTen growing from the
    side [p] is [wid] of its [pre_of]): bmps_contractor_init.h:38 *)
Definition wid (rows cols : nat) (p : pos) : nat :=
  match p with UP | DOWN => cols | LEFT | RIGHT => rows end.

(** duomatrix.h:295-318 get_row/get_col/get_slice; reading outside the grid is UB. *)
Definition get_row (rows cols : nat) tn (r : nat) : res (list (Ten o)) :=
  if r <? rows then Ok (map (fun k => tn r k) (seq 0 cols)) else Fail UB.
(** duomatrix.h:295-305 *)
Definition get_col (rows cols : nat) tn (k : nat) : res (list (Ten o)) :=
  if k <? cols then Ok (map (fun r => tn r k) (seq 0 rows)) else Fail UB.
(** duomatrix.h:312-318 *)
Definition get_slice (rows cols : nat) tn (p : pos) (k : nat) : res (list (Ten o)) :=
  match p with UP | DOWN => get_row rows cols tn k | LEFT | RIGHT => get_col rows cols tn k end.
(** duomatrix.h:160-180 *)
Definition get_site (rows cols : nat) tn (r k : nat) : res (Ten o) :=
  if (r <? rows) && (k <? cols) then Ok (tn r k) else Fail UB.

(** bmps_contractor_init.h:26-32 Init (clears and re-creates the four BMPS stacks; the BTen
    caches are left as they are) *)
Definition init_bmps c (p : pos) : con o := set_bm c p [vac_mps o p].
(** impl/bmps_contractor_init.h:11-33 *)
Definition init c : con o :=
  init_bmps (init_bmps (init_bmps (init_bmps c LEFT) DOWN) RIGHT) UP.

(** bmps_contractor.h:320-324 DeleteInnerBMPS *)
Definition delete_inner c (p : pos) : con o :=
  match bm c p with [] => c | b :: _ => set_bm c p [b] end.

(** bmps_contractor_grow.h:33-47 GrowBMPSStep(tn, position). The slice number is
    [size-1] for UP/LEFT and [rows-size] / [cols-size] for DOWN/RIGHT. *)
Definition grow_bmps_step tn (p : pos) c : res (con o) :=
  let n := length (bm c p) in
  let len := nsl (rows_ c) (cols_ c) p in
  k <- (match p with UP | LEFT => usub n 1 | DOWN | RIGHT => usub len n end) ;;
  mpo <- get_slice (rows_ c) (cols_ c) tn p k ;;
  b <- back (bm c p) ;;
  Ok (set_bm c p (bm c p ++ [absorb o p mpo b])).

(** bmps_contractor_grow.h:50-86 GrowFullBMPS. For UP/LEFT the loop runs from [size-1]
    while below [rows-1]; an empty stack makes [size-1] wrap and the loop is skipped. For
    DOWN/RIGHT the loop variable starts at [rows-size] and wraps if the stack is longer than
    the lattice. The loop variable is always the slice [grow_bmps_step] absorbs. *)
Definition grow_full_bmps tn (p : pos) c : res (con o) :=
  let n := length (bm c p) in
  let len := nsl (rows_ c) (cols_ c) p in
  match p with
  | UP | LEFT =>
      last <- usub len 1 ;;
      if n =? 0 then Ok c else iter_res (last - (n - 1)) (grow_bmps_step tn p) c
  | DOWN | RIGHT =>
      k <- usub len n ;; iter_res k (grow_bmps_step tn p) c
  end.

(** bmps_contractor_grow.h:90-104 GrowBMPSForRow and 108-122 GrowBMPSForCol. [far] is the
    side whose stack is stored from the far end (DOWN / RIGHT), [near] the other one. *)
Definition grow_bmps_for tn (far near : pos) (k : nat) c : res (con o) :=
  d <- usub (nsl (rows_ c) (cols_ c) far) (length (bm c far)) ;;
  c1 <- iter_res (d - k) (grow_bmps_step tn far) c ;;
  let n := length (bm c1 near) in
  if n =? 0 then Ok c1 else iter_res (k - (n - 1)) (grow_bmps_step tn near) c1.
(** impl/bmps_contractor_grow.h:90-105 *)
Definition grow_bmps_for_row tn (row : nat) c : res (con o) := grow_bmps_for tn DOWN UP row c.
(** impl/bmps_contractor_grow.h:108-123 *)
Definition grow_bmps_for_col tn (col : nat) c : res (con o) := grow_bmps_for tn RIGHT LEFT col c.

(** bmps_contractor_grow.h:13-17 GenerateBMPSApproach *)
Definition generate_bmps_approach tn (p : pos) c : res (con o) :=
  grow_full_bmps tn (opposite p) (delete_inner c p).

(** bmps_contractor_grow.h:144-148 ShiftBMPSWindow *)
Definition shift_bmps_window tn (p : pos) c : res (con o) :=
  l <- pop_back (bm c p) ;; grow_bmps_step tn (opposite p) (set_bm c p l).

(** bmps_contractor.h:985-999 BMPSAtSlice_: [.at] throws; for DOWN/RIGHT the index
    [rows-1-i] wraps when [i >= rows] and [.at] throws as well. *)
Definition bmps_at_slice c (p : pos) (i : nat) : res (Mps o) :=
  match p with
  | DOWN => if i <? rows_ c then at_ (bm c DOWN) (rows_ c - 1 - i) else Fail Throw
  | RIGHT => if i <? cols_ c then at_ (bm c RIGHT) (cols_ c - 1 - i) else Fail Throw
  | _ => at_ (bm c p) i
  end.
(** bmps_contractor.h:1003-1009 BTenAtSlice_ and 1012-1018 BTen2AtSlice_: LEFT/UP natural,
    RIGHT at [cols-1-i], DOWN at [rows-1-i]. *)
Definition env_at_slice {X} (rows cols : nat) (l : pos -> list X) (p : pos) (i : nat) : res X :=
  match p with
  | DOWN => if i <? rows then at_ (l DOWN) (rows - 1 - i) else Fail Throw
  | RIGHT => if i <? cols then at_ (l RIGHT) (cols - 1 - i) else Fail Throw
  | _ => at_ (l p) i
  end.

(** One tensor of a boundary MPS in storage order, BMPS::operator[]; [n] is the MPS length. (impl/bmps_contractor_trace.h:31-206) *)
Definition mps_idx (n : nat) (b : Mps o) (i : nat) : res (MTen o) :=
  if i <? n then Ok (mps_at o b i) else Fail UB.
(** bmps.h:214-227 AtLogicalCol: UP and RIGHT are stored reversed. *)
Definition at_logical (n : nat) (p : pos) (b : Mps o) (i : nat) : res (MTen o) :=
  if i <? n then Ok (mps_at o b (match p with UP | RIGHT => n - 1 - i | _ => i end)) else Fail UB.

(** Site absorbed by the [i]-th step of the one-layer boundary tensor growing from [p]
    along slice [s]: bmps_contractor_grow.h:265, 294, 336, 353 and 544-569. [n] is the
    number of sites of the slice. *)
Definition env_site (n : nat) (p : pos) (s i : nat) : site :=
  match p with
  | LEFT => (s, i) | RIGHT => (s, n - 1 - i)
  | UP => (i, s) | DOWN => (n - 1 - i, s)
  end.

(** One growth step of [bten_set_[p]] between the boundary MPS [bp] (at [pre_of p]) and [bn]
    (at [next_of p]) along slice [s]; [i] is the number of sites already absorbed.
    bmps_contractor_grow.h:262-281 (and the three other cases), 570-581. *)
Definition env_grow_with tn (p : pos) (bp bn : Mps o) (s i : nat) c : res (con o) :=
  let n := wid (rows_ c) (cols_ c) (pre_of p) in
  if i <? n then
    m1 <- mps_idx n bp (n - 1 - i) ;;
    m2 <- mps_idx n bn i ;;
    t <- get_site (rows_ c) (cols_ c) tn (fst (env_site n p s i)) (snd (env_site n p s i)) ;;
    e <- back (bt c p) ;;
    Ok (set_bt c p (bt c p ++ [env_step o p e m1 t m2]))
  else Fail UB.

(** bmps_contractor_init.h:73-120 InitBTen: clears the stack, reads the two boundary MPS of
    the slice (their outermost tensors) and one border site, and pushes the vacuum. *)
Definition init_bten tn (p : pos) (s : nat) c : res (con o) :=
  let n := wid (rows_ c) (cols_ c) (pre_of p) in
  last <- usub n 1 ;;
  bp <- bmps_at_slice c (pre_of p) s ;;
  m1 <- mps_idx n bp last ;;
  bn <- bmps_at_slice c (next_of p) s ;;
  m2 <- mps_idx n bn 0 ;;
  _ <- get_site (rows_ c) (cols_ c) tn (fst (env_site n p s 0)) (snd (env_site n p s 0)) ;;
  Ok (set_bt c p [vac_env o p m1 m2]).

(** bmps_contractor_grow.h:244-373 GrowFullBTen. The loop runs [i] from [size-1] to
    [N - remain_sites]; [N - remain_sites] wraps when the window is wider than the slice. *)
Definition grow_full_bten tn (p : pos) (s remain : nat) (ini : bool) c : res (con o) :=
  c0 <- (if ini then init_bten tn p s c else Ok c) ;;
  let n := wid (rows_ c) (cols_ c) (pre_of p) in
  let k := length (bt c0 p) in
  stop <- usub n remain ;;
  bp <- bmps_at_slice c0 (pre_of p) s ;;
  bn <- bmps_at_slice c0 (next_of p) s ;;
  if k =? 0 then Ok c0
  else iter_res (stop - (k - 1)) (fun x => env_grow_with tn p bp bn s (length (bt x p) - 1) x) c0.

(** bmps_contractor_grow.h:530-582 GrowBTenStep: uses the innermost boundary MPS of both
    sides; the slice is given by the size of the UP (or LEFT) stack. *)
Definition grow_bten_step tn (p : pos) c : res (con o) :=
  s <- usub (length (bm c (match p with LEFT | RIGHT => UP | UP | DOWN => LEFT end))) 1 ;;
  i <- usub (length (bt c p)) 1 ;;
  bp <- back (bm c (pre_of p)) ;;
  bn <- back (bm c (next_of p)) ;;
  env_grow_with tn p bp bn s i c.

(** bmps_contractor_grow.h:518-521 ShiftBTenWindow *)
Definition shift_bten_window tn (p : pos) c : res (con o) :=
  l <- pop_back (bt c p) ;; grow_bten_step tn (opposite p) (set_bt c p l).

(** bmps_contractor_init.h:123-128 TruncateBTen *)
Definition truncate_bten c (p : pos) (n : nat) : con o := set_bt c p (firstn n (bt c p)).

(** Slices of the two layers handled by a two-layer boundary tensor at [p] for slice
    number [s]: the [pre_of p] side touches [fst], the [next_of p] side touches [snd].
    bmps_contractor_init.h:136-173, bmps_contractor_grow.h:390-435. *)
Definition layers (p : pos) (s : nat) : nat * nat :=
  match p with LEFT | DOWN => (s, s + 1) | RIGHT | UP => (s + 1, s) end.

(** bmps_contractor_init.h:131-186 InitBTen2 *)
Definition init_bten2 tn (p : pos) (s : nat) c : res (con o) :=
  let n := wid (rows_ c) (cols_ c) (pre_of p) in
  let (s1, s2) := layers p s in
  last <- usub n 1 ;;
  bp <- bmps_at_slice c (pre_of p) s1 ;;
  m1 <- mps_idx n bp last ;;
  bn <- bmps_at_slice c (next_of p) s2 ;;
  m2 <- mps_idx n bn 0 ;;
  _ <- get_site (rows_ c) (cols_ c) tn (fst (env_site n p s1 0)) (snd (env_site n p s1 0)) ;;
  _ <- get_site (rows_ c) (cols_ c) tn (fst (env_site n p s2 0)) (snd (env_site n p s2 0)) ;;
  Ok (set_bt2 c p [vac_env2 o p m1 m2]).

(** One growth step of [bten_set2_[p]]: bmps_contractor_grow.h:438-469 and 491-514. *)
Definition env2_grow_with tn (p : pos) (bp bn : Mps o) (s i : nat) c : res (con o) :=
  let n := wid (rows_ c) (cols_ c) (pre_of p) in
  let (s1, s2) := layers p s in
  if i <? n then
    m1 <- mps_idx n bp (n - 1 - i) ;;
    m2 <- mps_idx n bn i ;;
    t1 <- get_site (rows_ c) (cols_ c) tn (fst (env_site n p s1 i)) (snd (env_site n p s1 i)) ;;
    t2 <- get_site (rows_ c) (cols_ c) tn (fst (env_site n p s2 i)) (snd (env_site n p s2 i)) ;;
    e <- back (bt2 c p) ;;
    Ok (set_bt2 c p (bt2 c p ++ [env2_step o p e m1 t1 t2 m2]))
  else Fail UB.

(** bmps_contractor_grow.h:376-470 GrowFullBTen2 *)
Definition grow_full_bten2 tn (p : pos) (s remain : nat) (ini : bool) c : res (con o) :=
  c0 <- (if ini then init_bten2 tn p s c else Ok c) ;;
  let n := wid (rows_ c) (cols_ c) (pre_of p) in
  let (s1, s2) := layers p s in
  let k := length (bt2 c0 p) in
  bp <- bmps_at_slice c0 (pre_of p) s1 ;;
  bn <- bmps_at_slice c0 (next_of p) s2 ;;
  stop <- usub n remain ;;
  if k =? 0 then Ok c0
  else iter_res (stop - (k - 1)) (fun x => env2_grow_with tn p bp bn s (length (bt2 x p) - 1) x) c0.

(** Unchecked [bmps_set_.at(p)[k]] where [k] is the storage index of slice [i]:
    bmps_contractor_helpers.h:53-90, bmps_contractor_grow.h:493-494. *)
Definition bmps_idx_slice c (p : pos) (i : nat) : res (Mps o) :=
  match p with
  | DOWN => k <- usub (rows_ c) (1 + i) ;; idx (bm c DOWN) k
  | RIGHT => k <- usub (cols_ c) (1 + i) ;; idx (bm c RIGHT) k
  | _ => idx (bm c p) i
  end.

(** bmps_contractor_grow.h:473-515 GrowBTen2Step *)
Definition grow_bten2_step tn (p : pos) (s : nat) c : res (con o) :=
  let (s1, s2) := layers p s in
  i <- usub (length (bt2 c p)) 1 ;;
  bp <- bmps_idx_slice c (pre_of p) s1 ;;
  bn <- bmps_idx_slice c (next_of p) s2 ;;
  env2_grow_with tn p bp bn s i c.

(** bmps_contractor_grow.h:524-527 ShiftBTen2Window *)
Definition shift_bten2_window tn (p : pos) (s : nat) c : res (con o) :=
  l <- pop_back (bt2 c p) ;; grow_bten2_step tn (opposite p) s (set_bt2 c p l).

(** bmps_contractor_trace.h:539-589 EraseEnvsAfterUpdate. [erase]/[resize] to a length is
    [firstn]; the lengths kept are the same for BMPS, BTen and BTen2. *)
Definition keep_len (rows cols : nat) (s : site) (p : pos) : nat :=
  match p with
  | LEFT => snd s + 1 | UP => fst s + 1
  | RIGHT => cols - snd s | DOWN => rows - fst s
  end.
(** impl/bmps_contractor_trace.h:539-590 *)
Definition erase_envs_after_update (s : site) c : con o :=
  mkCon (rows_ c) (cols_ c)
    (fun p => firstn (keep_len (rows_ c) (cols_ c) s p) (bm c p))
    (fun p => firstn (keep_len (rows_ c) (cols_ c) s p) (bt c p))
    (fun p => firstn (keep_len (rows_ c) (cols_ c) s p) (bt2 c p)).

(** Reading the environment of a one-layer window of [w] consecutive sites starting at
    [s]: ReplaceOneSiteTrace (w=1), ReplaceNNSiteTrace (w=2), ReplaceTNNSiteTrace (w=3),
    PunchHole (w=1). The near boundary tensor is read with unchecked [operator[]], the far
    one and the boundary MPS with [.at]. bmps_contractor_trace.h:51-70, 116-196, 333-392;
    bmps_contractor_grow.h:154-168. *)
Definition near (d : orient) : pos := match d with HORIZONTAL => LEFT | VERTICAL => UP end.
(** basic.h:76-88 and impl/bmps_contractor_grow.h:518-527 *)
Definition far (d : orient) : pos := opposite (near d).
(** The boundary MPS bounding a row are UP and DOWN, those bounding a column LEFT and RIGHT. (impl/bmps_contractor_grow.h:126-141, impl/bmps_contractor_trace.h:31-70) *)
Definition side1 (d : orient) : pos := match d with HORIZONTAL => UP | VERTICAL => LEFT end.
(** impl/bmps_contractor_grow.h:126-141, impl/bmps_contractor_trace.h:31-70 *)
Definition side2 (d : orient) : pos := opposite (side1 d).
(** the position of a site along its slice, impl/bmps_contractor_init.h:73-120 *)
Definition along (d : orient) (s : site) : nat := match d with HORIZONTAL => snd s | VERTICAL => fst s end.
(** the slice a site belongs to, impl/bmps_contractor_init.h:73-120 *)
Definition across (d : orient) (s : site) : nat := match d with HORIZONTAL => fst s | VERTICAL => snd s end.

(** the tensors of the two boundary MPS over a window, impl/bmps_contractor_trace.h:31-206 *)
Fixpoint mps_pairs (n : nat) (p q : pos) (b1 b2 : Mps o) (i w : nat) : res (list (MTen o * MTen o)) :=
  match w with
  | O => Ok []
  | S w' =>
      m1 <- at_logical n p b1 i ;; m2 <- at_logical n q b2 i ;;
      l <- mps_pairs n p q b1 b2 (i + 1) w' ;; Ok ((m1, m2) :: l)
  end.

(** impl/bmps_contractor_trace.h:31-206 *)
Definition window1 c (d : orient) (s : site) (w : nat)
  : res (list (MTen o * MTen o) * Env o * Env o) :=
  let n := wid (rows_ c) (cols_ c) (side1 d) in
  b1 <- bmps_at_slice c (side1 d) (across d s) ;;
  b2 <- bmps_at_slice c (side2 d) (across d s) ;;
  ms <- mps_pairs n (side1 d) (side2 d) b1 b2 (along d s) w ;;
  e1 <- idx (bt c (near d)) (along d s) ;;
  e2 <- env_at_slice (rows_ c) (cols_ c) (bt c) (far d) (along d s + w - 1) ;;
  Ok (ms, e1, e2).

(** bmps_contractor_trace.h:31-205, 327-423: trace with the window replaced by [ts]. *)
Definition replace_trace1 c (d : orient) (s : site) (ts : list (Ten o)) : res (Amp o) :=
  x <- window1 c d s (length ts) ;;
  let '(ms, e1, e2) := x in Ok (tr1 o d ms ts e1 e2).

(** bmps_contractor_trace.h:12-28 Trace: the two sites keep their current tensors. *)
Definition site_shift (d : orient) (s : site) (k : nat) : site :=
  match d with HORIZONTAL => (fst s, snd s + k) | VERTICAL => (fst s + k, snd s) end.
(** impl/bmps_contractor_trace.h:12-29 *)
Definition trace_nn tn c (d : orient) (s : site) : res (Amp o) :=
  t1 <- get_site (rows_ c) (cols_ c) tn (fst s) (snd s) ;;
  t2 <- get_site (rows_ c) (cols_ c) tn (fst (site_shift d s 1)) (snd (site_shift d s 1)) ;;
  replace_trace1 c d s [t1; t2].

(** bmps_contractor_grow.h:152-183 PunchHole *)
Definition punch_hole c (d : orient) (s : site) : res (Hole o) :=
  x <- window1 c d s 1 ;;
  match x with
  | ([(m1, m2)], e1, e2) => Ok (hole_of o d m1 m2 e1 e2)
  | _ => Fail UB
  end.

(** Reading the environment of a two-layer window, bmps_contractor_trace.h:213-227, 290-295,
    434-449, 485-499. [s] is the left-up site, [w] the number of positions along the layers. *)
Definition window2 c (d : orient) (s : site) (w : nat)
  : res (list (MTen o * MTen o) * Env2 o * Env2 o) :=
  let n := wid (rows_ c) (cols_ c) (side1 d) in
  b1 <- bmps_at_slice c (side1 d) (across d s) ;;
  b2 <- bmps_at_slice c (side2 d) (across d s + 1) ;;
  ms <- mps_pairs n (side1 d) (side2 d) b1 b2 (along d s) w ;;
  e1 <- idx (bt2 c (near d)) (along d s) ;;
  e2 <- env_at_slice (rows_ c) (cols_ c) (bt2 c) (far d) (along d s + w - 1) ;;
  Ok (ms, e1, e2).

(** The [w] pairs of site tensors of a two-layer window; [rep] overrides some sites. (impl/bmps_contractor_trace.h:208-325, 426-536) *)
Fixpoint site_pairs (rows cols : nat) tn (d : orient) (s : site) (w : nat)
    (rep : site -> option (Ten o)) : res (list (Ten o * Ten o)) :=
  match w with
  | O => Ok []
  | S w' =>
      let a := s in
      let b := match d with HORIZONTAL => (fst s + 1, snd s) | VERTICAL => (fst s, snd s + 1) end in
      ta <- (match rep a with Some t => Ok t | None => get_site rows cols tn (fst a) (snd a) end) ;;
      tb <- (match rep b with Some t => Ok t | None => get_site rows cols tn (fst b) (snd b) end) ;;
      l <- site_pairs rows cols tn d (site_shift d s 1) w' rep ;;
      Ok ((ta, tb) :: l)
  end.

(** SiteIdx comparison, framework/site_idx.h *)
Definition site_eqb (a b : site) : bool := (fst a =? fst b) && (snd a =? snd b).
(** the replaced sites of impl/bmps_contractor_trace.h:208-325 *)
Definition rep2 (a b : site) (ta tb : Ten o) : site -> option (Ten o) :=
  fun x => if site_eqb x a then Some ta else if site_eqb x b then Some tb else None.

(** bmps_contractor_trace.h:208-324 ReplaceNNNSiteTrace (w = 2) and 426-536
    ReplaceSqrt5DistTwoSiteTrace (w = 3): the two replaced sites are opposite corners of the
    2 x w (or w x 2) rectangle whose left-up corner is [s]. *)
Definition corners (d : orient) (s : site) (w : nat) (dir : diag) : site * site :=
  let h := match d with HORIZONTAL => 1 | VERTICAL => w - 1 end in
  let v := match d with HORIZONTAL => w - 1 | VERTICAL => 1 end in
  match dir with
  | LEFTUP_TO_RIGHTDOWN => (s, (fst s + h, snd s + v))
  | LEFTDOWN_TO_RIGHTUP => ((fst s + h, snd s), (fst s, snd s + v))
  end.
(** impl/bmps_contractor_trace.h:208-325, 426-536 *)
Definition replace_trace2 tn c (d : orient) (s : site) (w : nat) (dir : diag)
    (tl tr : Ten o) : res (Amp o) :=
  x <- window2 c d s w ;;
  let '(ms, e1, e2) := x in
  let (a, b) := corners d s w dir in
  ts <- site_pairs (rows_ c) (cols_ c) tn d s w (rep2 a b tl tr) ;;
  Ok (tr2 o d ms ts e1 e2).

End Contractor.
