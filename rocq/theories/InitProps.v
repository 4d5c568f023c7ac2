(** C53: charges of the initial product state. *)
From Coq Require Import List Arith Lia Bool ZArith.
From Verif Require Import Base InitModel InitSpec InitProofs.
Import ListNotations.
Local Open Scope nat_scope.

(** From any earlier state: with open boundaries every site tensor conserves charge; on a torus every one but
    the last, *)
Theorem c53_conserved (G : charges) (rows cols : nat) (per : bool) (phy : nat -> nat -> nat -> G) (out : nat -> nat -> bool) (act : nat -> nat -> nat) (p : peps G) (r c : nat) :
  1 <= rows -> 1 <= cols -> r < rows -> c < cols -> (per = false \/ ~ (r = rows - 1 /\ c = cols - 1)) ->
  divergence phy out act (initial rows cols per phy out act p) r c = q0.
Proof. intros A B. exact (div_zero rows cols per phy out act A B p r c). Qed.
Print Assumptions c53_conserved.
(** which carries the charge of the state. *)
Theorem c53_torus_charge (G : charges) (rows cols : nat) (phy : nat -> nat -> nat -> G) (out : nat -> nat -> bool) (act : nat -> nat -> nat) (p : peps G) :
  1 <= rows -> 1 <= cols -> divergence phy out act (initial rows cols true phy out act p) (rows - 1) (cols - 1) = total phy out act rows cols.
Proof. intros A B. exact (div_last rows cols true phy out act A B p eq_refl). Qed.
Print Assumptions c53_torus_charge.
(** With open boundaries the outer leg of the last site carries minus the charge of the state, *)
Theorem c53_open_charge (G : charges) (rows cols : nat) (phy : nat -> nat -> nat -> G) (out : nat -> nat -> bool) (act : nat -> nat -> nat) (p : peps G) :
  1 <= rows -> 1 <= cols -> let q := initial rows cols false phy out act p in
  east (ga q (rows - 1) (cols - 1)) = qneg (total phy out act rows cols) /\ lh q (rows - 1) cols = qneg (total phy out act rows cols).
Proof. intros A B. exact (out_leg rows cols false phy out act A B p eq_refl). Qed.
Print Assumptions c53_open_charge.
(** and every other outer leg is neutral. *)
Theorem c53_open_edges (G : charges) (rows cols : nat) (phy : nat -> nat -> nat -> G) (out : nat -> nat -> bool) (act : nat -> nat -> nat) (p : peps G) :
  1 <= rows -> 1 <= cols -> let q := initial rows cols false phy out act p in
  (forall c, c < cols -> lv q 0 c = q0 /\ lv q rows c = q0) /\ (forall r, r < rows -> lh q r 0 = q0) /\ (forall r, r < rows - 1 -> lh q r cols = q0).
Proof. intros A B. exact (edges rows cols false phy out act A B p eq_refl). Qed.
Print Assumptions c53_open_edges.
(** The comment above Initial says that all outer legs are neutral: not so for a charged state. *)
Theorem c53_neutral_edge_refuted : exists (G : charges) (rows cols : nat) (phy : nat -> nat -> nat -> G) (out : nat -> nat -> bool) (act : nat -> nat -> nat) (p : peps G),
  1 <= rows /\ 1 <= cols /\ lh (initial rows cols false phy out act p) (rows - 1) cols <> q0.
Proof. exact charged_edge. Qed.
Print Assumptions c53_neutral_edge_refuted.
(** Legs that meet carry the same charge, also around a torus. *)
Theorem c53_matching (G : charges) (rows cols : nat) (per : bool) (phy : nat -> nat -> nat -> G) (out : nat -> nat -> bool) (act : nat -> nat -> nat) (p : peps G) (r c : nat) :
  1 <= rows -> 1 <= cols -> r < rows -> c < cols -> let q := initial rows cols per phy out act p in
  lv q r c = north (ga q r c) /\ lh q r c = west (ga q r c) /\
  (r + 1 < rows \/ per = false -> lv q (r + 1) c = south (ga q r c)) /\ (c + 1 < cols \/ per = false -> lh q r (c + 1) = east (ga q r c)) /\
  (per = true -> r + 1 = rows -> lv q 0 c = south (ga q r c)) /\ (per = true -> c + 1 = cols -> lh q r 0 = east (ga q r c)).
Proof. intros A B. exact (matching rows cols per phy out act A B p r c). Qed.
Print Assumptions c53_matching.
(** The element of every site is at the requested physical coordinate. *)
Theorem c53_product (G : charges) (rows cols : nat) (per : bool) (phy : nat -> nat -> nat -> G) (out : nat -> nat -> bool) (act : nat -> nat -> nat) (p : peps G) (r c : nat) :
  1 <= rows -> 1 <= cols -> r < rows -> c < cols -> coor (ga (initial rows cols per phy out act p) r c) = act r c.
Proof. intros A B. exact (product rows cols per phy out act A B p r c). Qed.
Print Assumptions c53_product.

(** A charged 2x3 state over the integers: the outer leg carries minus its charge. *)
Example charged : east (ga (initial (G := ints) 2 3 false (fun _ _ k => Z.of_nat k : ints) (fun _ _ => true) (fun r c => r + c) (@mkPeps ints (fun _ _ => 7%Z) (fun _ _ => 5%Z) (fun _ _ => @mkG ints 1%Z 1%Z 1%Z 1%Z 0))) 1 2) = (-9)%Z.
Proof. vm_compute. reflexivity. Qed.
