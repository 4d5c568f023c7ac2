(** C93 *)
From Coq Require Import List Arith Bool Lia.
From Verif Require Import Base BondDimModel BondDimSpec BondDimProofs.
Import ListNotations.

(** C93: GetAllInnerBondDimensions returns the dimensions of the bonds, one for each bond of the lattice. *)
Theorem c93_all rows cols (periodic : bool) dim : 2 <= rows -> 2 <= cols -> exists l, all_dims rows cols periodic dim = Ok l /\
  (forall D, In D l <-> inner rows cols periodic dim D) /\ length l = if periodic then 2 * (rows * cols) else (rows - 1) * cols + rows * (cols - 1).
Proof. exact (dims_listed rows cols periodic dim). Qed.
Print Assumptions c93_all.

(** C93: GetMinBondDimension and GetMinMaxBondDimension return the least and the largest dimension of a bond. *)
Theorem c93_min_max rows cols periodic dim : 2 <= rows -> 2 <= cols -> exists a b,
  get_min rows cols periodic dim = Ok a /\ get_min_max rows cols periodic dim = Ok (a, b) /\
  inner rows cols periodic dim a /\ inner rows cols periodic dim b /\ forall D, inner rows cols periodic dim D -> a <= D <= b.
Proof. exact (min_max rows cols periodic dim). Qed.
Print Assumptions c93_min_max.

(** C93: GetMaxBondDimension returns the largest dimension of a bond, on every lattice that has a bond. *)
Theorem c93_max rows cols periodic dim : matching rows cols periodic dim -> outer_trivial rows cols periodic dim ->
  (exists D, inner rows cols periodic dim D) ->
  inner rows cols periodic dim (get_max rows cols dim) /\ forall D, inner rows cols periodic dim D -> D <= get_max rows cols dim.
Proof. exact (max_bond rows cols periodic dim). Qed.
Print Assumptions c93_max.

(** C93: IsBondDimensionEven says whether all bonds have the same dimension, on a torus and on an open lattice of two or more rows. *)
Theorem c93_even rows cols periodic dim : 0 < rows -> 0 < cols -> 2 <= rows \/ periodic = true ->
  (is_even rows cols periodic dim = true <-> all_equal rows cols periodic dim).
Proof. exact (even_ok rows cols periodic dim). Qed.
Print Assumptions c93_even.

(** C93: so does IsBondDimensionUniform, which looks at the other end of each bond. *)
Theorem c93_uniform rows cols periodic dim : 0 < rows -> 0 < cols -> 2 <= rows \/ periodic = true -> matching rows cols periodic dim ->
  (is_uniform rows cols periodic dim = true <-> all_equal rows cols periodic dim).
Proof. exact (uniform_ok rows cols periodic dim). Qed.
Print Assumptions c93_uniform.

(** C93: on a lattice of one row or one column GetAllInnerBondDimensions, GetMinBondDimension and GetMinMaxBondDimension throw. *)
Theorem c93_chain_throws rows cols periodic dim : rows = 1 \/ cols = 1 ->
  all_dims rows cols periodic dim = Fail Throw /\ get_min rows cols periodic dim = Fail Throw /\ get_min_max rows cols periodic dim = Fail Throw.
Proof. intros H. unfold get_min, get_min_max. rewrite (all_dims_throw rows cols periodic dim H). auto. Qed.
Print Assumptions c93_chain_throws.

(** An open chain of three sites with two bonds of dimension 4. *)
Definition chain_dim (r c : nat) (l : leg) : nat :=
  match l with West => if c =? 0 then 1 else 4 | East => if c =? 2 then 1 else 4 | _ => 1 end.

(** C93 is false of open chains: all bonds have dimension 4, and both functions say that the dimensions differ. *)
Theorem c93_chain_refuted : exists dim, matching 1 3 false dim /\ outer_trivial 1 3 false dim /\ inner 1 3 false dim 4 /\ all_equal 1 3 false dim /\
  is_even 1 3 false dim = false /\ is_uniform 1 3 false dim = false.
Proof.
  exists chain_dim.
  assert (K : forall D, inner 1 3 false chain_dim D -> D = 4).
  { intros D [r [c [Hr [Hc [[[G|G] ->]|[[G|G] ->]]]]]]; try discriminate; [lia|].
    destruct c as [|[|c]]; [reflexivity|reflexivity|lia]. }
  split; [|split; [|split; [|split; [|split; reflexivity]]]].
  - intros r c Hr Hc. split; intros [G|G]; try discriminate; [lia|]. destruct c as [|[|c]]; [reflexivity|reflexivity|lia].
  - split.
    + intros r c l _ _. destruct l; cbn; try lia; [destruct (c =? 0)|destruct c as [|[|[|c]]]]; cbn; lia.
    + intros _. split; intros x Hx; split; reflexivity.
  - exists 0, 0. split; [lia|]. split; [lia|]. right. split; [left; lia|reflexivity].
  - intros D D' H H'. rewrite (K D H), (K D' H'). reflexivity.
Qed.
Print Assumptions c93_chain_refuted.

(** non-vacuity: an open lattice of two rows and three columns with horizontal bonds 4 and vertical bonds 3 *)
Definition lattice_dim (r c : nat) (l : leg) : nat :=
  match l with
  | West => if c =? 0 then 1 else 4 | East => if c =? 2 then 1 else 4
  | North => if r =? 0 then 1 else 3 | South => if r =? 1 then 1 else 3
  end.
Example c93_lattice : matching 2 3 false lattice_dim /\ outer_trivial 2 3 false lattice_dim /\ inner 2 3 false lattice_dim 3 /\
  all_dims 2 3 false lattice_dim = Ok [3; 4; 3; 4; 3; 4; 4] /\ get_min_max 2 3 false lattice_dim = Ok (3, 4) /\ get_max 2 3 lattice_dim = 4 /\
  is_even 2 3 false lattice_dim = false /\ is_even 2 3 true (fun _ _ _ => 4) = true /\ is_uniform 2 3 true (fun _ _ _ => 4) = true.
Proof.
  split; [|split; [|split; [|repeat split]]].
  - intros r c Hr Hc. split; intros [G|G]; try discriminate.
    + destruct r as [|r]; [reflexivity|lia].
    + destruct c as [|[|c]]; [reflexivity|reflexivity|lia].
  - split.
    + intros r c l _ _. destruct l; cbn; [destruct (c =? 0)|destruct r as [|[|r]]|destruct c as [|[|[|c]]]|destruct (r =? 0)]; cbn; lia.
    + intros _. split; intros x Hx; split; reflexivity.
  - exists 0, 0. split; [lia|]. split; [lia|]. left. split; [left; lia|reflexivity].
Qed.
