(** What a loop gate is, when the decompositions inside a loop projection lose nothing, and the expectation value of a loop gate in
    the four tensors of a loop. *)
From Coq Require Import List Arith Bool Reals.
From Verif Require Import Base Cplx SumModel SumSpec TrgTensor ProjModel ProjSpec.
Import ListNotations.
Local Open Scope nat_scope.

(** the sites of the loop with the given upper left corner, clockwise, and the bonds between one and the next *)
Definition corner (R K r c i : nat) : nat * nat :=
  match i with 0 => (r, c) | 1 => (r, next K c) | 2 => (next R r, next K c) | _ => (next R r, c) end.
Definition side (R K r c i : nat) : bond :=
  match i with 0 => Hor r c | 1 => Ver r (next K c) | 2 => Hor (next R r) c | _ => Ver r c end.
(** the loop lies in the lattice, and no site is there twice *)
Definition loop_valid (P : peps) (r c : nat) : Prop :=
  incl (map (side (p_rows P) (p_cols P) r c) [0; 1; 2; 3]) (bonds (p_rows P) (p_cols P) (p_per P)) /\
  NoDup (map (corner (p_rows P) (p_cols P) r c) [0; 1; 2; 3]).

(** The operator that four tensors with legs (left, old state, new state, right) are, joined in a ring *)
Definition gate_value (g : nat -> tensor) (old new : nat -> nat) : C :=
  nsum (map (fun i => dimat (g i) 3) [0; 1; 2; 3]) (fun b =>
    let b0 := nth 0 b 0 in let b1 := nth 1 b 0 in let b2 := nth 2 b 0 in let b3 := nth 3 b 0 in
    let value i l r := entry (g i) [l; old i; new i; r] in (value 0%nat b3 b0 * value 1%nat b0 b1 * value 2%nat b1 b2 * value 3%nat b2 b3)%C).
(** the new state of four sites *)
Definition at_sites (s : basis) (x : nat -> nat * nat) (p : list nat) : basis :=
  at_site (at_site (at_site (at_site s (x 0) (nth 0 p 0)) (x 1) (nth 1 p 0)) (x 2) (nth 2 p 0)) (x 3) (nth 3 p 0).
(** it is applied to a wave function *)
Definition gate4 (g : nat -> tensor) (x : nat -> nat * nat) (psi : basis -> C) : basis -> C := fun s =>
  nsum (map (fun i => dimat (g i) 1) [0; 1; 2; 3]) (fun p =>
    (gate_value g (fun i => nth i p 0%nat) (fun i => s (fst (x i)) (snd (x i))) * psi (at_sites s x p))%C).
(** the gate has the physical dimensions of the sites, and its tensors fit together *)
Definition loop_fits (P : peps) (r c : nat) (g : nat -> tensor) : Prop :=
  exists b : nat -> nat, forall i, i < 4 ->
    let x := corner (p_rows P) (p_cols P) r c i in let d := phys P (fst x) (snd x) in shape (g i) = [b ((i + 3) mod 4); d; d; b i].

(** QR of the first n legs against the others *)
Definition qr_any (qr : nat -> tensor -> tensor * tensor) : Prop :=
  forall n T, n <= length (shape T) -> let '(q, r) := qr n T in exists k,
    shape q = firstn n (shape T) ++ [k] /\ shape r = k :: skipn n (shape T) /\
    forall ix jx, inside (firstn n (shape T)) ix -> inside (skipn n (shape T)) jx ->
      entry T (ix ++ jx) = sumC (fun x => (entry q (ix ++ [x]) * entry r (x :: jx))%C) (seq 0 k).
(** SVD of the first n legs against the others without truncation: no more singular values than rows or columns *)
Definition svd_any (svd : nat -> tensor -> tensor * list R * tensor) : Prop :=
  forall n T, n <= length (shape T) -> let '(u, s, vt) := svd n T in
    shape u = firstn n (shape T) ++ [length s] /\ shape vt = length s :: skipn n (shape T) /\
    length s <= size (firstn n (shape T)) /\ length s <= size (skipn n (shape T)) /\
    forall ix jx, inside (firstn n (shape T)) ix -> inside (skipn n (shape T)) jx ->
      entry T (ix ++ jx) = sumC (fun x => (entry u (ix ++ [x]) * RtoC (nth x s 0%R) * entry vt (x :: jx))%C) (seq 0 (length s)).
(** the eigenvectors of a square matrix, as they are found, are orthonormal *)
Definition evd_unitary (evd : tensor -> tensor * list R) : Prop :=
  forall T n, shape T = [n; n] -> let '(u, d) := evd T in
    shape u = [n; n] /\ length d = n /\
    forall i j, i < n -> j < n -> sumC (fun k => (entry u [i; k] * Cconj (entry u [j; k]))%C) (seq 0 n) = if i =? j then RtoC 1 else RtoC 0.
(** the dominant eigenvectors are matrices of the dimension of the bond *)
Definition eig_shape (eigvec : bool -> tensor -> list R -> tensor) : Prop := forall b U s, shape (eigvec b U s) = [length s; length s].
(** with the gate the bonds of the loop have at most m values *)
Definition loop_room (m : nat) (P : peps) (r c : nat) (g : nat -> tensor) : Prop :=
  forall i, i < 4 -> dimat (g i) 3 * length (lam_of P (side (p_rows P) (p_cols P) r c i)) <= m.

(** *** The loop by itself *)
(** the legs of a corner in the order west, south, east, north: to the corner before, [l], and after, [r]; [e] and [f] are the
    others *)
Definition corner_index (i l p e f r : nat) : list nat :=
  match i with 0 => [e; l; r; f; p] | 1 => [l; r; e; f; p] | 2 => [r; e; f; l; p] | _ => [e; f; l; r; p] end.
(** the weights of the legs [e] and [f] *)
Definition outer_weights (P : peps) (r c i : nat) : list R * list R :=
  let x := corner (p_rows P) (p_cols P) r c i in let w := west P (fst x) (snd x) in let s := south P (fst x) (snd x) in
  let e := east P (fst x) (snd x) in let n := north P (fst x) (snd x) in
  match i with 0 => (w, n) | 1 => (e, n) | 2 => (s, e) | _ => (w, s) end.
(** The amplitude of the loop: states [p] of its sites, values [e] and [f] of the legs out of it, which carry their weights *)
Definition loop_amplitude (P : peps) (r c : nat) (p e f : nat -> nat) : C :=
  let w i := lam_of P (side (p_rows P) (p_cols P) r c i) in
  nsum (map (fun i => length (w i)) [0; 1; 2; 3]) (fun z =>
    let z i := nth i z 0 in
    let site i := let x := corner (p_rows P) (p_cols P) r c i in
      (entry (gamma P (fst x) (snd x)) (corner_index i (z ((i + 3) mod 4)%nat) (p i) (e i) (f i) (z i)) *
       RtoC (nth (e i) (fst (outer_weights P r c i)) 0%R) * RtoC (nth (f i) (snd (outer_weights P r c i)) 0%R) * RtoC (nth (z i) (w i) 0%R))%C in
    (site 0%nat * site 1%nat * site 2%nat * site 3%nat)%C).
(** sums over all states and all values of the legs out of the loop *)
Definition over_loop (P : peps) (r c : nat) (F : (nat -> nat) -> (nat -> nat) -> (nat -> nat) -> C) : C :=
  let d i := let x := corner (p_rows P) (p_cols P) r c i in phys P (fst x) (snd x) in
  let all {A} (h : nat -> A) := map h [0; 1; 2; 3] in
  nsum (all d) (fun p => nsum (all (fun i => length (fst (outer_weights P r c i)))) (fun e =>
    nsum (all (fun i => length (snd (outer_weights P r c i)))) (fun f => F (fun i => nth i p 0) (fun i => nth i e 0) (fun i => nth i f 0)))).
(** the squared norm of the loop, and the matrix element of the gate between the loop and itself *)
Definition loop_square (P : peps) (r c : nat) : C :=
  over_loop P r c (fun p e f => (Cconj (loop_amplitude P r c p e f) * loop_amplitude P r c p e f)%C).
Definition loop_element (g : nat -> tensor) (P : peps) (r c : nat) : C :=
  over_loop P r c (fun p e f => (Cconj (loop_amplitude P r c p e f) *
    nsum (map (fun i => dimat (g i) 1) [0; 1; 2; 3]%nat) (fun q => (gate_value g (fun i => nth i q 0%nat) p * loop_amplitude P r c (fun i => nth i q 0%nat) e f)%C))%C).
