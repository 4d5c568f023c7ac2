(** Two-site traces, whole rows, scans and evolution of the walker. *)
From Coq Require Import List Arith Lia Bool ZArith Reals Lra.
From Verif Require Import Base Cplx WalkModel WalkSpec WalkAlg WalkProofs.
Import ListNotations.

(** the shape of a row: at least one column, as many site tensors and DOWN tensors as UP tensors, and a
    length that fits [size_t] *)
Definition row_shape (D : nat) (up mpo opp : list tensor) : Prop :=
  1 <= D /\ 1 <= length up /\ (Z.of_nat (length up) < 2 ^ 64)%Z /\ length mpo = length up /\ length opp = length up.

Lemma replace_len : forall X (l : list X) i x, i < length l -> length (replace l i x) = length l.
Proof. intros X l i x H. unfold replace. rewrite app_length. simpl. rewrite firstn_length, skipn_length. lia. Qed.

Lemma firstn_app_le : forall X (a b : list X) k, k <= length a -> firstn k (a ++ b) = firstn k a.
Proof. intros. rewrite firstn_app. replace (k - length a) with 0 by lia. simpl. apply app_nil_r. Qed.

Section Two.
Variables (D : nat) (up mpo opp : list tensor).
Hypothesis Sh : row_shape D up mpo opp.
Notation n := (length up).

Lemma trace_two_spec : forall w sa sb c, inv D up mpo opp w ->
  (trace_two D w sa sb c opp = Value (row_value D up (replace (replace mpo c sa) (c + 1) sb) opp)
    /\ w_left w <> [] /\ w_right w <> [] /\ c + 1 < n /\ (Z.of_nat c <= w_left_col w)%Z /\ (w_right_col w <= Z.of_nat c + 2)%Z)
  \/ (trace_two D w sa sb c opp = Threw
    /\ ~ (w_left w <> [] /\ w_right w <> [] /\ c + 1 < n /\ (Z.of_nat c <= w_left_col w)%Z /\ (w_right_col w <= Z.of_nat c + 2)%Z)).
Proof.
  destruct Sh as (D1 & n1 & n_size & mpo_n & opp_n).
  intros w sa sb c I. assert (U := inv_up _ _ _ _ w I). unfold trace_two. rewrite U.
  destruct (Nat.leb_spec n (c + 1)) as [Q|Q]. { right. split; [reflexivity|]. lia. }
  destruct (w_left w) as [|b0 bl] eqn:L. { right. split; [reflexivity|]. tauto. }
  destruct (w_right w) as [|r0 br] eqn:R. { right. split; [reflexivity|]. tauto. }
  rewrite <- L, <- R.
  destruct (inv_left_col _ _ _ _ w I) as [C1 C2]; [congruence|]. destruct (inv_right_col _ _ _ _ w I) as [E1 E2]; [congruence|].
  assert (NL : w_left w <> []) by congruence. assert (NR : w_right w <> []) by congruence.
  destruct (Z.ltb_spec (w_left_col w) (Z.of_nat c)) as [A|A]. { right. split; [reflexivity|]. lia. }
  destruct (Z.ltb_spec (Z.of_nat c + 2) (w_right_col w)) as [B|B]. { right. split; [reflexivity|]. lia. }
  destruct (Nat.leb_spec (length (w_left w)) c) as [F|F]; [lia|].
  destruct (Nat.leb_spec (length (w_right w)) (n - 2 - c)) as [G|G]; [lia|].
  destruct (some_lt _ (w_left w) c) as [l Ll]; [lia|]. destruct (some_lt _ (w_right w) (n - 2 - c)) as [r Rr]; [lia|].
  destruct (some_lt _ up (n - 1 - c)) as [ua Ua]; [lia|]. destruct (some_lt _ opp c) as [da Da]; [lia|].
  destruct (some_lt _ up (n - 1 - (c + 1))) as [ub Ub]; [lia|]. destruct (some_lt _ opp (c + 1)) as [db Db]; [lia|].
  rewrite Ll, Rr, Ua, Da, Ub, Db. left. split; [|repeat split; auto; lia]. f_equal.
  assert (Lm : length (replace mpo c sa) = n) by (rewrite replace_len; lia).
  assert (Cl := cols_len D D1 up mpo opp n1 mpo_n opp_n).
  assert (Cr := cols_replace D D1 up mpo opp n1 mpo_n opp_n c sa ua da ltac:(lia) Ua Da).
  apply trace_value; auto; try lia.
  - apply grow_left_ok; auto; try lia.
    + intros m Hm. rewrite Cr. rewrite firstn_app_le by (rewrite firstn_length; lia). rewrite firstn_firstn, Nat.min_id.
      apply (inv_left _ _ _ _ w I c l Ll m Hm).
    + unfold replace. rewrite nth_error_app2 by (rewrite firstn_length; lia). rewrite firstn_length.
      replace (c - Nat.min c (length mpo)) with 0 by lia. reflexivity.
  - intros m Hm. rewrite Cr. replace (n - 1 - (c + 1)) with (n - 2 - c) by lia.
    rewrite (inv_right _ _ _ _ w I _ r Rr m Hm). f_equal.
    rewrite skipn_app, (skipn_all2 (firstn c _)) by (rewrite firstn_length; lia). cbn [app]. rewrite firstn_length, Cl.
    replace (n - (n - 2 - c) - Nat.min c n) with 2 by lia. cbn [skipn].
    replace (n - (n - 2 - c)) with (c + 2) by lia.
    replace (c + 2) with ((c + 1) + 1) by lia.
    assert (H : forall X (q : list X) a b, skipn a (skipn b q) = skipn (b + a) q).
    { clear. intros X q a b. revert q. induction b as [|b IH]; intros q; [reflexivity|]. destruct q; [destruct a; reflexivity|]. simpl. apply IH. }
    symmetry. apply (H _ _ 1 (c + 1)).
Qed.

Lemma row_loop_spec : forall k i acc, i + k = n ->
  (i = 0 \/ (i = 1 /\ forall m, In m (all_bonds D) ->
              acc [0; fst (fst m); snd (fst m); 0; snd m; 0] = weight D (skipn (n - 1) (columns D up mpo opp)) m zero_bonds)
   \/ (2 <= i /\ forall m, In m (all_bonds D) ->
              acc [0; 0; 0; fst (fst m); snd (fst m); snd m] = weight D (skipn (n - i) (columns D up mpo opp)) m zero_bonds)) ->
  exists acc', row_loop D n i k up mpo opp acc = Some acc' /\
    (1 <= i + k -> acc' [0; 0; 0; 0; 0; 0] = row_value D up mpo opp).
Proof.
  destruct Sh as (D1 & n1 & n_size & mpo_n & opp_n).
  assert (Z0 : In zero_bonds (all_bonds D)) by (apply in_bonds; simpl; lia).
  induction k as [|k IH]; intros i acc Hi H; cbn [row_loop].
  - exists acc. split; [reflexivity|]. intros _. unfold row_value.
    destruct H as [H|[[H1 H]|[H1 H]]]; [lia| |].
    + specialize (H _ Z0). unfold zero_bonds in H at 1 2 3. cbn [fst snd] in H. rewrite H.
      replace (n - 1) with 0 by lia. reflexivity.
    + specialize (H _ Z0). unfold zero_bonds in H at 1 2 3. cbn [fst snd] in H. rewrite H.
      replace (n - i) with 0 by lia. reflexivity.
  - destruct (some_lt _ up i) as [u Uu]; [lia|]. destruct (some_lt _ mpo (n - 1 - i)) as [s Ss]; [lia|].
    destruct (some_lt _ opp (n - 1 - i)) as [d Dd]; [lia|]. rewrite Uu, Ss, Dd.
    assert (Cn : nth_error (columns D up mpo opp) (n - 1 - i) = Some (column D u s d)).
    { apply cols_nth; auto; try lia. replace (n - 1 - (n - 1 - i)) with i by lia. exact Uu. }
    assert (Sc := skipn_cons _ _ _ _ Cn).
    match goal with |- exists acc', row_loop D n (i + 1) k up mpo opp ?a = _ /\ _ => set (acc1 := a) end.
    destruct (IH (i + 1) acc1) as (acc' & E & V); [lia| |].
    + right. destruct (Nat.eqb_spec i 0) as [I0|I0].
      * left. split; [lia|]. intros [[x y] z] Hm. cbn [fst snd]. unfold acc1.
        rewrite column_tensor_elem. replace (n - 1) with (n - 1 - i) by lia. rewrite Sc.
        replace (n - 1 - i + 1) with n by lia. rewrite <- (cols_len D D1 up mpo opp n1 mpo_n opp_n) at 1. rewrite skipn_all.
        rewrite weight_one by exact Z0. reflexivity.
      * right. split; [lia|]. intros [[x y] z] Hm. cbn [fst snd]. unfold acc1.
        replace (n - (i + 1)) with (n - 1 - i) by lia. rewrite Sc. cbn [weight].
        destruct H as [H|[[H1 H]|[H1 H]]]; [lia| |].
        -- destruct (Nat.eqb_spec i 1) as [_|]; [|lia]. rewrite absorb_second. apply sumC_ext. intros m Hm'.
           destruct m as [[x' y'] z']. cbn [fst snd] in *. rewrite column_tensor_elem. f_equal.
           assert (X := H _ Hm'). cbn [fst snd] in X. rewrite X. f_equal. f_equal. lia.
        -- destruct (Nat.eqb_spec i 1) as [|_]; [lia|]. rewrite absorb_later. apply sumC_ext. intros m Hm'.
           destruct m as [[x' y'] z']. cbn [fst snd] in *. rewrite column_tensor_elem. f_equal.
           assert (X := H _ Hm'). cbn [fst snd] in X. rewrite X. f_equal. f_equal. lia.
    + exists acc'. split; [exact E|]. intros _. apply V. lia.
Qed.
Lemma contract_row_spec : forall w, w_up w = up -> contract_row D w mpo opp = Value (row_value D up mpo opp).
Proof.
  destruct Sh as (D1 & n1 & n_size & mpo_n & opp_n).
  intros w U. unfold contract_row. rewrite U, mpo_n, opp_n, Nat.eqb_refl.
  destruct (Nat.eqb_spec n 0) as [|N0]; [lia|]. cbn [negb orb].
  destruct (row_loop_spec (length up) 0 (fun _ => RtoC 0)) as (a & E & V); [lia | auto |].
  rewrite E. f_equal. apply V. lia.
Qed.

Lemma run_grow_right : forall k w, inv D up mpo opp w -> w_right w <> [] -> (Z.of_nat k <= w_right_col w)%Z ->
  let w' := run D mpo opp (repeat GrowRight k) w in
  inv D up mpo opp w' /\ w_left w' = w_left w /\ w_left_col w' = w_left_col w /\ w_right w' <> []
  /\ w_right_col w' = (w_right_col w - Z.of_nat k)%Z.
Proof.
  destruct Sh as (D1 & n1 & n_size & mpo_n & opp_n).
  induction k as [|k IH]; intros w I NE Hk; cbn [repeat run].
  - repeat split; try apply I; auto. lia.
  - cbn [step]. destruct (grow_right_step_inv D D1 up mpo opp n1 n_size mpo_n opp_n w I) as (I' & _ & G & L1 & L2).
    destruct (G NE) as [_ G2]; [lia|]. set (w1 := fst (grow_right_step D w mpo opp)) in *.
    assert (NE1 : w_right w1 <> []) by (intros X; rewrite X in G2; simpl in G2; lia).
    destruct (inv_right_col _ _ _ _ w I NE) as [C1 _]. destruct (inv_right_col _ _ _ _ w1 I' NE1) as [C1' _].
    destruct (IH w1 I' NE1) as (J1 & J2 & J3 & J4 & J5); [lia|].
    repeat split; try apply J1; auto; try congruence. lia.
Qed.
(** the documented scan of a row, right to left *)
Lemma scan_spec : forall l st s k, k < n ->
  trace_with D (run D mpo opp (l ++ InitLeft n :: InitRight (n - 1) :: repeat GrowRight k) (fresh up st)) s (n - 1 - k) opp
  = Value (row_value D up (replace mpo (n - 1 - k) s) opp).
Proof.
  destruct Sh as (D1 & n1 & n_size & mpo_n & opp_n).
  intros l st s k Hk.
  assert (Ra : forall l1 l2 w, run D mpo opp (l1 ++ l2) w = run D mpo opp l2 (run D mpo opp l1 w)).
  { induction l1 as [|c l1 IHl]; intros l2 w; [reflexivity|]. cbn [app run]. apply IHl. }
  rewrite Ra. set (w0 := run D mpo opp l (fresh up st)).
  assert (I0 : inv D up mpo opp w0) by (apply run_inv; auto; apply fresh_inv; auto).
  cbn [run step].
  destruct (init_left_inv D D1 up mpo opp n1 n_size mpo_n opp_n n w0 I0) as (I1 & _ & C1 & NL & _).
  set (w1 := fst (init_left D w0 mpo opp n)) in *.
  destruct (init_right_inv D D1 up mpo opp n1 n_size mpo_n opp_n (n - 1) w1 I1) as (I2 & _ & C2 & NR & L2 & LC2).
  set (w2 := fst (init_right D w1 mpo opp (n - 1))) in *.
  assert (C2' : w_right_col w2 = Z.of_nat n).
  { rewrite C2, wrap_small by lia. lia. }
  destruct (run_grow_right k w2 I2 NR) as (I3 & L3 & LC3 & NR3 & C3); [lia|].
  set (w3 := run D mpo opp (repeat GrowRight k) w2) in *.
  destruct (trace_with_spec D D1 up mpo opp n1 mpo_n opp_n w3 s (n - 1 - k) I3) as [[E _]|[_ X]]; [exact E|].
  exfalso. apply X. rewrite L3, L2, LC3, LC2, C1, C3, C2'. repeat split; auto; lia.
Qed.
End Two.

Lemma history_traces : forall D up mpo opp, row_shape D up mpo opp -> forall l st s c,
  let w := run D mpo opp l (fresh up st) in
  (trace_with D w s c opp = Value (row_value D up (replace mpo c s) opp)
    /\ w_left w <> [] /\ w_right w <> [] /\ c < length up /\ (Z.of_nat c <= w_left_col w)%Z /\ (w_right_col w <= Z.of_nat c + 1)%Z)
  \/ (trace_with D w s c opp = Threw
    /\ ~ (w_left w <> [] /\ w_right w <> [] /\ c < length up /\ (Z.of_nat c <= w_left_col w)%Z /\ (w_right_col w <= Z.of_nat c + 1)%Z)).
Proof.
  intros D up mpo opp (D1 & n1 & ns & mn & on) l st s c w.
  apply trace_with_spec; auto. apply run_inv; auto. apply fresh_inv; auto.
Qed.
Lemma history_two : forall D up mpo opp, row_shape D up mpo opp -> forall l st sa sb c,
  let w := run D mpo opp l (fresh up st) in
  (trace_two D w sa sb c opp = Value (row_value D up (replace (replace mpo c sa) (c + 1) sb) opp)
    /\ w_left w <> [] /\ w_right w <> [] /\ c + 1 < length up /\ (Z.of_nat c <= w_left_col w)%Z /\ (w_right_col w <= Z.of_nat c + 2)%Z)
  \/ (trace_two D w sa sb c opp = Threw
    /\ ~ (w_left w <> [] /\ w_right w <> [] /\ c + 1 < length up /\ (Z.of_nat c <= w_left_col w)%Z /\ (w_right_col w <= Z.of_nat c + 2)%Z)).
Proof.
  intros D up mpo opp S l st sa sb c w. apply trace_two_spec; auto.
  destruct S as (D1 & n1 & ns & mn & on). apply run_inv; auto. apply fresh_inv; auto.
Qed.
Lemma history_windows : forall D up mpo opp, row_shape D up mpo opp -> forall l st c,
  let w := run D mpo opp l (fresh up st) in
  (w_left w <> [] -> w_left_col w = (Z.of_nat (length (w_left w)) - 1)%Z /\ length (w_left w) <= length up + 1)
  /\ (w_right w <> [] -> w_right_col w = (Z.of_nat (length up) - (Z.of_nat (length (w_right w)) - 1))%Z /\ length (w_right w) <= length up + 1)
  /\ snd (step D mpo opp c w) <> Undefined.
Proof.
  intros D up mpo opp (D1 & n1 & ns & mn & on) l st c w.
  assert (I : inv D up mpo opp w) by (apply run_inv; auto; apply fresh_inv; auto).
  split; [apply (inv_left_col _ _ _ _ w I)|]. split.
  - intros NE. destruct (inv_right_col _ _ _ _ w I NE) as [A B]. split; [lia | exact B].
  - exact (proj2 (step_inv D D1 up mpo opp n1 ns mn on c w I)).
Qed.

(** EvolveStep *)
Lemma evolve_down : forall rows cols stack, 1 <= stack <= rows -> evolve_choice DOWN rows cols stack = Some (Ok (rows - stack)).
Proof. intros rows cols stack H. unfold evolve_choice, usub. destruct (Nat.ltb_spec rows stack); [lia | reflexivity]. Qed.
Lemma evolve_right : forall rows cols stack, 1 <= stack <= cols -> evolve_choice RIGHT rows cols stack = Some (Ok (cols - stack)).
Proof. intros rows cols stack H. unfold evolve_choice, usub. destruct (Nat.ltb_spec cols stack); [lia | reflexivity]. Qed.
Lemma evolve_up : forall rows cols stack, 1 <= rows -> 1 <= stack ->
  evolve_choice UP rows cols stack = if stack <? rows then Some (Ok (stack - 1)) else None.
Proof.
  intros rows cols stack R H. unfold evolve_choice, usub. destruct (Nat.ltb_spec rows 1); [lia|].
  destruct (Nat.leb_spec (rows - 1) (stack - 1)), (Nat.ltb_spec stack rows); try lia; reflexivity.
Qed.
Lemma evolve_left : forall rows cols stack, 1 <= cols -> 1 <= stack ->
  evolve_choice LEFT rows cols stack = if stack <? cols then Some (Ok (stack - 1)) else None.
Proof.
  intros rows cols stack R H. unfold evolve_choice, usub. destruct (Nat.ltb_spec cols 1); [lia|].
  destruct (Nat.leb_spec (cols - 1) (stack - 1)), (Nat.ltb_spec stack cols); try lia; reflexivity.
Qed.
Lemma evolve_past : forall rows cols, evolve_choice DOWN rows cols (rows + 1) = Some (Fail UB)
  /\ evolve_choice RIGHT rows cols (cols + 1) = Some (Fail UB).
Proof.
  intros rows cols. unfold evolve_choice, usub.
  destruct (Nat.ltb_spec rows (rows + 1)); [|lia]. destruct (Nat.ltb_spec cols (cols + 1)); [|lia]. auto.
Qed.

(** after Evolve the caches still belong to the old boundary *)
Definition one_ten (x : R) : tensor := fun _ => RtoC x.
Lemma evolve_stale : exists D (absorb : list tensor -> list tensor -> list tensor) up mpo opp s c v,
  row_shape D up mpo opp /\ length (absorb up mpo) = length up /\
  let w := fst (evolve absorb (run D mpo opp [InitLeft 2; InitRight 0] (fresh up 1)) mpo) in
  trace_with D w s c opp = Value v /\ v <> row_value D (w_up w) (replace mpo c s) opp.
Proof.
  exists 1, (fun u _ => map (fun t o => Cmul (RtoC 2) (t o)) u), [one_ten 1; one_ten 1], [one_ten 1; one_ten 1], [one_ten 1; one_ten 1], (one_ten 1), 1.
  eexists. split; [|split; [|split]].
  - unfold row_shape. simpl. repeat split; lia.
  - reflexivity.
  - cbn [run step]. unfold init_left, init_right, trace_with, evolve, mismatch. cbn. reflexivity.
  - intros X. apply (f_equal fst) in X. cbv -[Rplus Rmult Ropp Rminus IZR] in X. lra.
Qed.
