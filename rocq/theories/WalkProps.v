(** C55.  The walker carries an UP boundary MPS and caches of boundary tensors for one row of the network:
    [w_left] grown from the left end, [w_right] from the right end.  [run mpo opp l (fresh up st)] is the
    walker after the history [l] of cache calls on the row [mpo] with the DOWN boundary [opp]; calls in the
    history may throw.  [row_value D up mpo opp] (WalkSpec.v) is the exact value of the row: the sum over all
    bonds of the product of its columns.  [row_shape] asks for at least one column, equal lengths and bond
    dimension at most [D]. *)
From Coq Require Import List Arith Lia Bool ZArith Reals.
From Verif Require Import Base Cplx WalkModel WalkSpec WalkAlg WalkProofs WalkMain.
Import ListNotations.

(** TraceWithBTen, after any history: either it throws, or it returns the exact value of the row with the
    site replaced; it returns exactly when both caches are there and reach the site. *)
Theorem c55_trace : forall D up mpo opp, row_shape D up mpo opp -> forall l st s c,
  let w := run D mpo opp l (fresh up st) in
  (trace_with D w s c opp = Value (row_value D up (replace mpo c s) opp)
    /\ w_left w <> [] /\ w_right w <> [] /\ c < length up /\ (Z.of_nat c <= w_left_col w)%Z /\ (w_right_col w <= Z.of_nat c + 1)%Z)
  \/ (trace_with D w s c opp = Threw
    /\ ~ (w_left w <> [] /\ w_right w <> [] /\ c < length up /\ (Z.of_nat c <= w_left_col w)%Z /\ (w_right_col w <= Z.of_nat c + 1)%Z)).
Proof. exact history_traces. Qed.
Print Assumptions c55_trace.

(** The same for two neighbouring sites. *)
Theorem c55_trace_two : forall D up mpo opp, row_shape D up mpo opp -> forall l st sa sb c,
  let w := run D mpo opp l (fresh up st) in
  (trace_two D w sa sb c opp = Value (row_value D up (replace (replace mpo c sa) (c + 1) sb) opp)
    /\ w_left w <> [] /\ w_right w <> [] /\ c + 1 < length up /\ (Z.of_nat c <= w_left_col w)%Z /\ (w_right_col w <= Z.of_nat c + 2)%Z)
  \/ (trace_two D w sa sb c opp = Threw
    /\ ~ (w_left w <> [] /\ w_right w <> [] /\ c + 1 < length up /\ (Z.of_nat c <= w_left_col w)%Z /\ (w_right_col w <= Z.of_nat c + 2)%Z)).
Proof. exact history_two. Qed.
Print Assumptions c55_trace_two.

(** ContractRow returns the value of the row, whatever the caches hold. *)
Theorem c55_contract_row : forall D up mpo opp, row_shape D up mpo opp -> forall w, w_up w = up ->
  contract_row D w mpo opp = Value (row_value D up mpo opp).
Proof. exact contract_row_spec. Qed.
Print Assumptions c55_contract_row.

(** After any history each cache holds the vacuum and one entry per absorbed column, the counters say how
    many columns, and no call is undefined. *)
Theorem c55_windows : forall D up mpo opp, row_shape D up mpo opp -> forall l st c,
  let w := run D mpo opp l (fresh up st) in
  (w_left w <> [] -> w_left_col w = (Z.of_nat (length (w_left w)) - 1)%Z /\ length (w_left w) <= length up + 1)
  /\ (w_right w <> [] -> w_right_col w = (Z.of_nat (length up) - (Z.of_nat (length (w_right w)) - 1))%Z /\ length (w_right w) <= length up + 1)
  /\ snd (step D mpo opp c w) <> Undefined.
Proof. exact history_windows. Qed.
Print Assumptions c55_windows.

(** The documented scan of a row, from any earlier history: InitBTenLeft over the whole row, InitBTenRight at
    the last column, then one GrowBTenRightStep per site; every trace returns. *)
Theorem c55_scan : forall D up mpo opp, row_shape D up mpo opp -> forall l st s k, k < length up ->
  trace_with D (run D mpo opp (l ++ InitLeft (length up) :: InitRight (length up - 1) :: repeat GrowRight k) (fresh up st)) s (length up - 1 - k) opp
  = Value (row_value D up (replace mpo (length up - 1 - k) s) opp).
Proof. exact scan_spec. Qed.
Print Assumptions c55_scan.

(** EvolveStep with [stack - 1] rows absorbed takes the next row; going up it stops before the last one,
    going down it takes them all ... *)
Theorem c55_evolve_up : forall rows cols stack, 1 <= rows -> 1 <= stack ->
  evolve_choice UP rows cols stack = if stack <? rows then Some (Ok (stack - 1)) else None.
Proof. exact evolve_up. Qed.
Print Assumptions c55_evolve_up.
Theorem c55_evolve_down : forall rows cols stack, 1 <= stack <= rows ->
  evolve_choice DOWN rows cols stack = Some (Ok (rows - stack)).
Proof. exact evolve_down. Qed.
Print Assumptions c55_evolve_down.
(** ... and one more call downwards or to the right computes a row index below zero. *)
Theorem c55_evolve_refuted : forall rows cols, evolve_choice DOWN rows cols (rows + 1) = Some (Fail UB)
  /\ evolve_choice RIGHT rows cols (cols + 1) = Some (Fail UB).
Proof. exact evolve_past. Qed.
Print Assumptions c55_evolve_refuted.

(** Evolve replaces the boundary and keeps the caches: a trace then mixes the two boundaries and returns a
    wrong value instead of throwing. *)
Theorem c55_stale_refuted : exists D (absorb : list tensor -> list tensor -> list tensor) up mpo opp s c v,
  row_shape D up mpo opp /\ length (absorb up mpo) = length up /\
  let w := fst (evolve absorb (run D mpo opp [InitLeft 2; InitRight 0] (fresh up 1)) mpo) in
  trace_with D w s c opp = Value v /\ v <> row_value D (w_up w) (replace mpo c s) opp.
Proof. exact evolve_stale. Qed.
Print Assumptions c55_stale_refuted.

(** a row of three columns with bond dimension two *)
Example c55_inhabited : forall t u v : tensor, row_shape 2 [t; u; v] [u; v; t] [v; t; u]
  /\ exists x, trace_with 2 (run 2 [u; v; t] [v; t; u] [InitLeft 3; InitRight 2; GrowRight; GrowRight; ShiftRight] (fresh [t; u; v] 1)) t 1 [v; t; u] = Value x.
Proof.
  intros t u v. split; [unfold row_shape; simpl; repeat split; lia|]. eexists.
  assert (S : row_shape 2 [t; u; v] [u; v; t] [v; t; u]) by (unfold row_shape; simpl; repeat split; lia).
  destruct (c55_trace 2 _ _ _ S [InitLeft 3; InitRight 2; GrowRight; GrowRight; ShiftRight] 1 t 1) as [[E _]|[_ X]]; [exact E|].
  exfalso. apply X. cbn -[grow_left grow_right vacuum]. repeat split; try discriminate; lia.
Qed.
