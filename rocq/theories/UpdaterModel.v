(** Monte-Carlo updaters: how one move on two or three sites is proposed and decided, the
    Suwa-Todo choice, and the sweep over random bonds of a periodic lattice. *)
From Coq Require Import List Arith Lia Bool Reals.
From Verif Require Import Base ContractorModel SweepModel.
Import ListNotations.
Local Open Scope nat_scope.

(** *** Suwa-Todo choice, suwa_todo_update.h:53-113 *)
(** Weights, partial sums and the sampled point are multiples of one common unit and are
    written as naturals counting that unit (every [double] is a multiple of 2^-1074). The
    random number is [u], the distance of the sampled point from the start of the source
    interval; the code draws it uniformly from [0, weights[init_state]). *)

(** [std::max_element]: the first maximum. suwa_todo_update.h:69-70 *)
Fixpoint max_from (best i : nat) (bw : nat) (ws : list nat) : nat :=
  match ws with
  | [] => best
  | w :: t => if bw <? w then max_from i (S i) w t else max_from best (S i) bw t
  end.
(** suwa_todo_update.h:68 *)
Definition max_index (ws : list nat) : nat :=
  match ws with [] => 0 | w :: t => max_from 0 1 w t end.
(** Exchange of labels 0 and [m]. suwa_todo_update.h:77-81 and 105-111 *)
Definition relabel (m i : nat) : nat := if i =? m then 0 else if i =? 0 then m else i.
(** [std::swap(weights[0], weights[m])]. suwa_todo_update.h:74-76 *)
Definition swap_weights (m : nat) (ws : list nat) : list nat :=
  map (fun i => nth (relabel m i) ws 0) (seq 0 (length ws)).
(** [s[i-1]] with [s[-1] = 0]: sum of the first [i] weights. suwa_todo_update.h:83-87, 94 *)
Definition psum (ws : list nat) (i : nat) : nat := list_sum (firstn i ws).
(** [std::upper_bound(s.begin(), s.end(), x) - s.begin()]: the first [i] with [s[i] > x], or
    [n] if there is none. suwa_todo_update.h:104 *)
Fixpoint bucket (ws : list nat) (x : nat) : nat :=
  match ws with
  | [] => 0
  | w :: t => if x <? w then 0 else S (bucket t (x - w))
  end.
(** suwa_todo_update.h:53-113 SuwaTodoStateUpdate *)
Definition suwa_todo (weights : list nat) (init u : nat) : nat :=
  let m := max_index weights in
  let ws := swap_weights m weights in
  let i := relabel m init in
  let total := list_sum ws in
  let start0 := psum ws i + nth 0 ws 0 in
  let start := if total <=? start0 then start0 - total else start0 in
  let x0 := start + u in
  let x := if total <=? x0 then x0 - total else x0 in
  relabel m (bucket ws x).

(** *** Moves *)
Section Kernels.
Context (o : ops) (Rng : Type).

(** square_nn_updater.h:142-189, MCUpdateSquareNNExchangeOBC::TwoSiteNNUpdateLocalImpl, and the
    same decision in 196-244 (PBC). [accept psi_a psi_b] is the Metropolis test (151-167),
    which may or may not draw a random number. *)
Definition exchange_kernel (accept : Amp o -> Amp o -> Rng -> bool * Rng) : kernel o Rng :=
  fun olds psi_a tr g =>
    match olds with
    | [c1; c2] =>
        if c1 =? c2 then (None, g)
        else
          let psi_b := tr [c2; c1] in
          let (ok, g') := accept psi_a psi_b g in
          (if ok then Some ([c2; c1], psi_b) else None, g')
    | _ => (None, g)
    end.

(** comparison of configurations, square_3site_updater.h:120-140 *)
Definition list_eqb (a b : list nat) : bool :=
  (length a =? length b) && forallb (fun x => fst x =? snd x) (combine a b).
(** First position of [x], or the length (std::find); the Hubbard updater starts from 0, which
    is the same because the current state is always in the list. (square_3site_updater.h:126-132, square_hubbard_u1u1_updater.h:119-128) *)
Fixpoint index_of (x : list nat) (l : list (list nat)) : nat :=
  match l with [] => 0 | y :: t => if list_eqb x y then 0 else S (index_of x t) end.

(** Common part of the updaters that choose among alternatives: amplitude of the current state
    from the component, of the others from traces; then a choice among the weights.
    square_nn_updater.h:262-292, square_3site_updater.h:133-157,
    square_hubbard_u1u1_updater.h:126-155. [choose] receives the initial index and the
    amplitudes. *)
Definition alternatives_kernel (choose : nat -> list (Amp o) -> Rng -> nat * Rng)
    (alts : list (list nat)) (olds : list nat) (psi_a : Amp o) (tr : list nat -> Amp o) (g : Rng)
    : option (list nat * Amp o) * Rng :=
  let init := index_of olds alts in
  let psis := map (fun i => if i =? init then psi_a else tr (nth i alts [])) (seq 0 (length alts)) in
  let (final, g') := choose init psis g in
  if final =? init then (None, g')
  else (Some (nth final alts [], nth final psis psi_a), g').

(** All pairs of local states in the order of the code c1*dim+c2, square_nn_updater.h:266-277;
    decoding by final_state / dim and final_state % dim, 287-288. *)
Definition full_alts (dim : nat) : list (list nat) :=
  map (fun s => [s / dim; s mod dim]) (seq 0 (dim * dim)).
(** square_nn_updater.h:253-293, MCUpdateSquareNNFullSpaceUpdateOBC *)
Definition full_space_kernel (dim : nat) choose : kernel o Rng :=
  fun olds psi_a tr g =>
    match olds with
    | [c1; c2] => alternatives_kernel choose (full_alts dim) [c1; c2] psi_a tr g
    | _ => (None, g)
    end.

(** square_hubbard_u1u1_updater.h:30-40 HubbardConfig2SpinCounts; anything else aborts. *)
Definition spin_counts (c : nat) : option (nat * nat) :=
  match c with 0 => Some (1, 1) | 1 => Some (1, 0) | 2 => Some (0, 1) | 3 => Some (0, 0) | _ => None end.
(** square_hubbard_u1u1_updater.h:57-72 EnumerateHubbardTwoSiteConfigsWithU1U1 *)
Definition hubbard_alts (nu nd : nat) : list (list nat) :=
  flat_map (fun c1 => flat_map (fun c2 =>
    match spin_counts c1, spin_counts c2 with
    | Some (u1, d1), Some (u2, d2) => if (u1 + u2 =? nu) && (d1 + d2 =? nd) then [[c1; c2]] else []
    | _, _ => []
    end) (seq 0 4)) (seq 0 4).
(** square_hubbard_u1u1_updater.h:95-157, MCUpdateSquareNNHubbardU1U1OBC. A state outside
    0..3 aborts the program; here the move is dropped (no theorem starts from such a state). *)
Definition hubbard_kernel choose : kernel o Rng :=
  fun olds psi_a tr g =>
    match olds with
    | [c1; c2] =>
        match spin_counts c1, spin_counts c2 with
        | Some (u1, d1), Some (u2, d2) =>
            let alts := hubbard_alts (u1 + u2) (d1 + d2) in
            if length alts <=? 1 then (None, g) else alternatives_kernel choose alts olds psi_a tr g
        | _, _ => (None, g)
        end
    | _ => (None, g)
    end.

(** [std::sort]; (square_3site_updater.h:118-125) *)
Fixpoint insert_sorted (x : nat) (l : list nat) : list nat :=
  match l with [] => [x] | y :: t => if x <=? y then x :: l else y :: insert_sorted x t end.
(** square_3site_updater.h:118-125 *)
Definition sorted_states (l : list nat) : list nat := fold_right insert_sorted [] l.
(** [std::next_permutation]: [None] when the sequence is already the last one. If the tail has
    no successor it is non-increasing: exchange the head with the last larger element of the
    tail and reverse the tail. (called in square_3site_updater.h:125-131) *)
Fixpoint swap_last_larger (x : nat) (l : list nat) : option (nat * list nat) :=
  match l with
  | [] => None
  | y :: t =>
      match swap_last_larger x t with
      | Some (z, t') => Some (z, y :: t')
      | None => if x <? y then Some (y, x :: t) else None
      end
  end.
(** called in square_3site_updater.h:125-131 *)
Fixpoint next_perm (l : list nat) : option (list nat) :=
  match l with
  | [] => None
  | x :: t =>
      match next_perm t with
      | Some t' => Some (x :: t')
      | None => match swap_last_larger x t with
                | Some (y, t') => Some (y :: rev t')
                | None => None
                end
      end
  end.
(** The do-while loop, square_3site_updater.h:123-126. Three elements have at most six
    permutations; running out of fuel is reported. *)
Fixpoint perms_from (fuel : nat) (l : list nat) : res (list (list nat)) :=
  match fuel with
  | O => Fail UB
  | S f => match next_perm l with
           | None => Ok [l]
           | Some l' => r <- perms_from f l' ;; Ok (l :: r)
           end
  end.
(** square_3site_updater.h:108-159, MCUpdateSquareTNN3SiteExchange::TNN3SiteUpdateImpl *)
Definition three_site_kernel choose : kernel o Rng :=
  fun olds psi_a tr g =>
    match olds with
    | [s1; s2; s3] =>
        if (s1 =? s2) && (s2 =? s3) then (None, g)
        else match perms_from 6 (sorted_states olds) with
             | Ok alts => alternatives_kernel choose alts olds psi_a tr g
             | Fail _ => (None, g)
             end
    | _ => (None, g)
    end.

(** *** Periodic lattices: square_nn_updater.h:94-128 *)
(** State seen by the updater: configuration, amplitude and random engine. The network and the
    contractor follow the configuration (AcceptTrial); the amplitude of a trial is the value
    [trial] gives for the configuration with the two replaced states. (wave_function_component.h:140-165) *)
Record pst := mkP { pcfg : nat -> nat -> nat; pamp : Amp o; prng : Rng }.
(** wave_function_component.h:267-301 AcceptTrial: the listed sites are set in order. *)
Definition set_sites (c : nat -> nat -> nat) (l : list (site * nat)) : nat -> nat -> nat :=
  fold_left (fun f sn => upd2 f (fst sn) (snd sn)) l c.
(** square_nn_updater.h:115-121 *)
Definition pbc_partner (rows cols : nat) (d : orient) (s : site) : site :=
  match d with
  | HORIZONTAL => (fst s, (snd s + 1) mod cols)
  | VERTICAL => ((fst s + 1) mod rows, snd s)
  end.
(** square_nn_updater.h:90-135, 195-240 *)
Definition pbc_move (trial : (nat -> nat -> nat) -> Amp o) (ker : kernel o Rng) (s1 s2 : site) (w : pst) : pst * bool :=
  let olds := [pcfg w (fst s1) (snd s1); pcfg w (fst s2) (snd s2)] in
  let '(dec, g) := ker olds (pamp w)
       (fun ns => trial (set_sites (pcfg w) (combine [s1; s2] ns))) (prng w) in
  match dec with
  | None => (mkP (pcfg w) (pamp w) g, false)
  | Some (ns, a) => (mkP (set_sites (pcfg w) (combine [s1; s2] ns)) a g, true)
  end.
(** One draw of row, column and direction (107-113); the distributions return values in range. *)
Definition pbc_step (rows cols : nat) (draw : Rng -> (site * orient) * Rng)
    (trial : (nat -> nat -> nat) -> Amp o) (ker : kernel o Rng) (w : pst * nat) : pst * nat :=
  let (x, g) := draw (prng (fst w)) in
  let (s1, d) := x in
  let (w', ok) := pbc_move trial ker s1 (pbc_partner rows cols d s1) (mkP (pcfg (fst w)) (pamp (fst w)) g) in
  (w', if ok then S (snd w) else snd w).
(** square_nn_updater.h:90-135 *)
Definition sweep_nn_pbc (rows cols : nat) draw trial ker (w : pst) : pst * nat :=
  Nat.iter (rows * cols * 2) (pbc_step rows cols draw trial ker) (w, 0).
End Kernels.
Arguments pcfg {o Rng}. Arguments pamp {o Rng}. Arguments prng {o Rng}. Arguments mkP {o Rng}.

(** *** Metropolis test, square_nn_updater.h:166-180 and 225-233 *)
(** [pa], [pb] are the absolute values of the current and the proposed amplitude, [u] the
    uniform random number. (square_nn_updater.h:169-180, 226-236) *)
Definition metropolis (pa pb u : R) : bool :=
  if Rle_dec pa pb then true
  else let div := (pb / pa)%R in if Rlt_dec u (div * div)%R then true else false.
(** The same test as the code calls it: the random number is drawn only if the proposed
    amplitude is smaller. (square_nn_updater.h:169-180, 226-236) *)
Definition metropolis_accept {A Rng} (abs : A -> R) (draw : Rng -> R * Rng) (psi_a psi_b : A) (g : Rng) : bool * Rng :=
  if Rle_dec (abs psi_a) (abs psi_b) then (true, g)
  else let (u, g') := draw g in (metropolis (abs psi_a) (abs psi_b) u, g').
(** The Suwa-Todo choice as the updaters call it: weights are [std::norm] of the amplitudes over a
    common normalisation ([weight] counts them in a common unit), the engine supplies the
    offset inside the source interval. (square_nn_updater.h:340-368, square_3site_updater.h:140-155, square_hubbard_u1u1_updater.h:131-150) *)
Definition suwa_todo_choose {A Rng} (weight : A -> nat) (draw : nat -> Rng -> nat * Rng)
    (init : nat) (psis : list A) (g : Rng) : nat * Rng :=
  let ws := map weight psis in
  let (u, g') := draw (nth init ws 0) g in (suwa_todo ws init u, g').
