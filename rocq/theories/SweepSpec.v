(** What it means for the environments read during a run to be right. *)
From Coq Require Import List Arith.
From Verif Require Import Base ContractorModel ContractorSpec SweepModel.
Import ListNotations.

Section Spec.
Context (o : ops) (rows cols : nat).

(** The environment of a window, computed from scratch from the network. *)
Definition answer (tn : net o) (q : query) : win o :=
  match q with
  | Q1 d s w => W1 (window1_spec o rows cols tn d s w)
  | Q2 d s w => W2 (window2_spec o rows cols tn d s w)
  end.

(** Every read returned the environment of the network as it was at the time of the read. *)
Definition log_fresh (lg : list (event o)) : Prop :=
  forall n q x, In (Read n q x) lg -> x = answer n q.

(** A wave-function component whose caches are usable: every stored boundary MPS is the one
    of the current network and each stack holds the vacuum plus at most [slices - 1] slices. *)
Definition ready {Rng} (w : wst o Rng) : Prop :=
  rows_ (ctr w) = rows /\ cols_ (ctr w) = cols /\ bm_fresh o (tn w) (ctr w) /\
  forall p, 1 <= length (bm (ctr w) p) <= match p with UP | DOWN => rows | LEFT | RIGHT => cols end.

(** Configuration and network describe the same state. *)
Definition projected (tps : sitps o) (cfg : nat -> nat -> nat) (tn : net o) : Prop :=
  forall r c, r < rows -> c < cols -> tn r c = tps r c (cfg r c).

(** Value of the network traced at the window of [k] sites starting at [x] along [d]. *)
Definition trace_at (tn : net o) (d : orient) (x : site) (k : nat) : Amp o :=
  let '(ms, e1, e2) := window1_spec o rows cols tn d x k in
  tr1 o d ms (map (fun y => tn (fst y) (snd y)) (chain d x k)) e1 e2.

(** A window of [k] sites starting at [x] along [d] lies in the lattice. *)
Definition window_in (d : orient) (x : site) (k : nat) : Prop :=
  match d with
  | HORIZONTAL => fst x < rows /\ snd x + k <= cols
  | VERTICAL => snd x < cols /\ fst x + k <= rows
  end.

(** [psi] is the amplitude of a network however it is contracted: true of exact contraction,
    approximate under truncation. *)
Definition contraction_consistent (psi : net o -> Amp o) : Prop :=
  forall tn d x k, 1 <= k -> window_in d x k -> trace_at tn d x k = psi tn.
End Spec.

(** An updater proposes exactly one state per site and reports the trace of its proposal. *)
Definition honest {o Rng} (ker : kernel o Rng) : Prop :=
  forall olds a tr g ns b g', ker olds a tr g = (Some (ns, b), g') ->
    length ns = length olds /\ b = tr ns.

(** Moves a program tries, in order. *)
Definition tried {o} (lg : list (event o)) : list (orient * site * nat) :=
  flat_map (fun e => match e with Tried d s k _ => [(d, s, k)] | _ => [] end) lg.
(** Windows a program reads, in order. *)
Definition reads {o} (lg : list (event o)) : list query :=
  flat_map (fun e => match e with Read _ q _ => [q] | _ => [] end) lg.
(** Callbacks invoked, in order. *)
Definition visited {o} (lg : list (event o)) : list visit :=
  flat_map (fun e => match e with Visited v => [v] | _ => [] end) lg.

(** Straight chains of [k] sites of an open rows x cols lattice. *)
Definition lattice_chain (rows cols k : nat) (x : orient * site * nat) : Prop :=
  let '(d, s, k') := x in k' = k /\ window_in rows cols d s k.

(** Callbacks a complete pass must make: every nearest-neighbour bond; with diagonals, both
    diagonals of every plaquette; with holes, every site. *)
Definition lattice_visit (rows cols : nat) (holes nnn : bool) (v : visit) : Prop :=
  match v with
  | VBond d s => window_in rows cols d s 2
  | VDiag _ s => nnn = true /\ fst s + 1 < rows /\ snd s + 1 < cols
  | VHole s => holes = true /\ fst s < rows /\ snd s < cols
  | VFar _ _ _ | VSite _ => False
  end.

(** Lattices on which the code supports an action: at least two rows and columns (three for
    the three-site sweep). *)
Definition fits (rows cols : nat) (a : action) : Prop :=
  match a with
  | Do TNNSweep => 3 <= rows /\ 3 <= cols
  | _ => 2 <= rows /\ 2 <= cols
  end.
