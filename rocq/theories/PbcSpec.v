(** Hamiltonians on the torus. *)
From Coq Require Import List Arith Bool Reals.
From Verif Require Import Base ContractorModel SweepModel SweepSpec UpdaterSpec Cplx EnergyModel EnergySpec.
Import ListNotations.
Local Open Scope nat_scope.

(** Neighbours on a ring of [n] sites. *)
Definition ring (n i j : nat) : bool := (j =? (i + 1) mod n) || (i =? (j + 1) mod n).
Definition torus_horizontal (cols : nat) (a b : site) : bool := (fst a =? fst b) && ring cols (snd a) (snd b).
Definition torus_vertical (rows : nat) (a b : site) : bool := ring rows (fst a) (fst b) && (snd a =? snd b).
Definition torus_diagonal (rows cols : nat) (a b : site) : bool := ring rows (fst a) (fst b) && ring cols (snd a) (snd b).
(** Unordered pairs, each listed once. *)
Definition torus_pairs (rows cols : nat) (rel : site -> site -> bool) : list (site * site) :=
  filter (fun ab => (index cols (fst ab) <? index cols (snd ab)) && rel (fst ab) (snd ab))
         (list_prod (all_sites rows cols) (all_sites rows cols)).
Definition on_pairs (rows cols : nat) (rel : site -> site -> bool) (A : operator) : operator :=
  op_sum (fun ab => on_sites [index cols (fst ab); index cols (snd ab)] A) (torus_pairs rows cols rel).
(** [wh], [wv]: weights of a horizontal and of a vertical step; both 1 on an honest torus. *)
Definition H_xxz_torus (rows cols : nat) (wh wv jz jxy jz2 jxy2 pinning00 : R) : operator :=
  op_add (op_scal wh (on_pairs rows cols (torus_horizontal cols) (xxz_bond jz jxy)))
 (op_add (op_scal wv (on_pairs rows cols (torus_vertical rows) (xxz_bond jz jxy)))
 (op_add (op_scal (wh * wv) (on_pairs rows cols (torus_diagonal rows cols) (xxz_bond jz2 jxy2)))
         (op_scal (- pinning00) (on_sites [0] Sz)))).
Definition zz_bond : operator := op_scal (-1) (tensor (op_scal 2 Sz) (op_scal 2 Sz)).
Definition H_tfim_torus (rows cols : nat) (wh wv h : R) : operator :=
  op_add (op_scal wh (on_pairs rows cols (torus_horizontal cols) zz_bond))
 (op_add (op_scal wv (on_pairs rows cols (torus_vertical rows) zz_bond))
         (op_sum (fun a => on_sites [index cols a] (op_scal (- h) (op_scal 2 Sx))) (all_sites rows cols))).
(** The weight a direction of [n] sites gets from a loop that joins every site to its successor. *)
Definition wrap_weight (n : nat) : R := if n =? 2 then 2 else 1.
(** Wave function read from a network by a contraction. *)
Definition torus_wave {T} (contract : (nat -> nat -> T) -> C) (tps : nat -> nat -> nat -> T) (cols : nat) (S : list nat) : C :=
  contract (fun r c => tps r c (conf cols S r c)).
Definition reads_lattice {T} (contract : (nat -> nat -> T) -> C) (rows cols : nat) : Prop :=
  forall a b, (forall r c, r < rows -> c < cols -> a r c = b r c) -> contract a = contract b.
