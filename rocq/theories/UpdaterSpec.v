(** What the updaters must guarantee. *)
From Coq Require Import List Arith Lia Bool Reals.
From Verif Require Import Base ContractorModel SweepModel UpdaterModel.
Import ListNotations.
Local Open Scope nat_scope.

(** All sites of a lattice and the sum of a quantity over it. *)
Definition all_sites (rows cols : nat) : list site := list_prod (seq 0 rows) (seq 0 cols).
Definition total (rows cols : nat) (f : nat -> nat) (c : nat -> nat -> nat) : nat :=
  list_sum (map (fun s => f (c (fst s) (snd s))) (all_sites rows cols)).
(** Number of sites in local state [v]. *)
Definition occupation (rows cols v : nat) (c : nat -> nat -> nat) : nat :=
  length (filter (fun s => c (fst s) (snd s) =? v) (all_sites rows cols)).
Definition all_states (rows cols : nat) (P : nat -> Prop) (c : nat -> nat -> nat) : Prop :=
  forall r k, r < rows -> k < cols -> P (c r k).

(** Hubbard states: 0 = both, 1 = up, 2 = down, 3 = empty. *)
Definition n_up (c : nat) : nat := match c with 0 | 1 => 1 | _ => 0 end.
Definition n_down (c : nat) : nat := match c with 0 | 2 => 1 | _ => 0 end.

(** Acceptance probability of a move from weight [pa]^2 to weight [pb]^2. *)
Definition accept_prob (pa pb : R) : R :=
  if Req_EM_T pa 0 then 1%R else Rmin 1 ((pb * pb) / (pa * pa)).

(** Everything a run does except replacing the whole configuration from outside. *)
Definition is_routine (a : action) : Prop := match a with Do _ => True | ReplaceGlobalConfig _ => False end.

(** A choice that stays among the offered alternatives. *)
Definition in_range {A Rng} (choose : nat -> list A -> Rng -> nat * Rng) : Prop :=
  forall i l g, i < length l -> fst (choose i l g) < length l.

(** *** Markov chains on a finite set of states *)
Section Chain.
Context {S : Type} (states : list S).
Local Open Scope R_scope.
Definition sumR (f : S -> R) (l : list S) : R := fold_right (fun s acc => f s + acc) 0 l.
(** One step of the chain with transition probabilities [K]. *)
Definition push (mu : S -> R) (K : S -> S -> R) : S -> R := fun s' => sumR (fun s => mu s * K s s') states.
Definition pushes (mu : S -> R) (Ks : list (S -> S -> R)) : S -> R := fold_left push Ks mu.
End Chain.

(** Transition probabilities of one exchange move with acceptance probability [acc]. *)
Definition exchange_K {S} (eqb : S -> S -> bool) (swap : S -> S) (acc : S -> S -> R) (s s' : S) : R :=
  if eqb (swap s) s then (if eqb s s' then 1 else 0)%R
  else if eqb s s' then (1 - acc s (swap s))%R
  else if eqb (swap s) s' then acc s (swap s) else 0%R.
(** Configurations of [n] sites listed in a fixed order; exchange of sites [i] and [j]. *)
Fixpoint all_configs (dim n : nat) : list (list nat) :=
  match n with
  | O => [[]]
  | Datatypes.S m => flat_map (fun l => map (fun x => x :: l) (seq 0 dim)) (all_configs dim m)
  end.
Definition exchange (i j : nat) (l : list nat) : list nat :=
  map (fun k => nth (if k =? i then j else if k =? j then i else k) l 0) (seq 0 (length l)).
(** The configuration of a lattice as a list, row by row. *)
Definition flat (rows cols : nat) (c : nat -> nat -> nat) : list nat :=
  map (fun s => c (fst s) (snd s)) (all_sites rows cols).

(** Local update of the sites [ps] of a configuration: [rule] lists the alternatives for the
    local states, in a fixed order. *)
Definition get (ps : list nat) (l : list nat) : list nat := map (fun i => nth i l 0) ps.
Definition set_at (i n : nat) (l : list nat) : list nat :=
  map (fun k => if k =? i then n else nth k l 0) (seq 0 (length l)).
Definition put (ps ns : list nat) (l : list nat) : list nat :=
  fold_left (fun l' x => set_at (fst x) (snd x) l') (combine ps ns) l.
Definition block_alts (rule : list nat -> list (list nat)) (ps l : list nat) : list (list nat) :=
  map (fun ns => put ps ns l) (rule (get ps l)).
(** Number of offsets [u] below the weight of [l] for which the Suwa-Todo choice among the
    alternatives (weights [W]) leads from [l] to [l']. *)
Definition block_next (W : list nat -> nat) (alts : list (list nat)) (l : list nat) (u : nat) : list nat :=
  nth (suwa_todo (map W alts) (index_of l alts) u) alts l.
Definition block_flow (W : list nat -> nat) (alts : list (list nat)) (l l' : list nat) : nat :=
  length (filter (fun u => list_eqb (block_next W alts l u) l') (seq 0 (W l))).
(** Transition probability: share of the offsets. *)
Definition block_K (W : list nat -> nat) (rule : list nat -> list (list nat)) (ps : list nat) (l l' : list nat) : R :=
  (INR (block_flow W (block_alts rule ps l) l l') / INR (W l))%R.
(** The three rules of the code. *)
Definition rule_full (dim : nat) (ns : list nat) : list (list nat) := full_alts dim.
Definition rule_hubbard (ns : list nat) : list (list nat) :=
  hubbard_alts (list_sum (map n_up ns)) (list_sum (map n_down ns)).
Definition rule_three (ns : list nat) : list (list nat) :=
  match perms_from 6 (sorted_states ns) with Ok alts => alts | Fail _ => [] end.
