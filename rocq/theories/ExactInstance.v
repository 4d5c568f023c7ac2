(** A contraction scheme that keeps the whole network: environments are the lists of the
    tensors they contain and a trace evaluates a given amplitude on the reassembled network.
    For every amplitude that depends on the lattice alone, this scheme returns that amplitude
    in every window. The hypotheses on contractions are thus satisfiable for every wave
    function, entangled or not. *)
From Coq Require Import List Arith Lia Bool Reals.
From Verif Require Import Base ContractorModel ContractorSpec ContractorProofs SweepModel SweepSpec SweepProofs
  ProductInstance Cplx EnergyModel EnergySpec.
Import ListNotations.
Local Open Scope nat_scope.

Section Exact.
Context (T : Type) (d0 : T) (amp : query -> (nat -> nat -> T) -> C).

Definition assemble (d : orient) (ls : list (list T)) : nat -> nat -> T :=
  fun r c => match d with
             | HORIZONTAL => nth r (nth c ls []) d0
             | VERTICAL => nth c (nth r ls []) d0
             end.
Definition corner (d : orient) (ms : list (list T * list T)) (e1 : list (list T)) : site :=
  match d with
  | HORIZONTAL => (length (fst (nth 0 ms ([], []))), length e1)
  | VERTICAL => (length e1, length (fst (nth 0 ms ([], []))))
  end.
Definition tr1_exact d (ms : list (list T * list T)) (ts : list T) (e1 e2 : list (list T)) : C :=
  amp (Q1 d (corner d ms e1) (length ts))
      (assemble d (e1 ++ map (fun mt => fst (fst mt) ++ snd mt :: rev (snd (fst mt))) (combine ms ts) ++ rev e2)).
Definition tr2_exact d (ms : list (list T * list T)) (ts : list (T * T)) (e1 e2 : list (list T)) : C :=
  amp (Q2 d (corner d ms e1) (length ts))
      (assemble d (e1 ++ map (fun mt => fst (fst mt) ++ fst (snd mt) :: snd (snd mt) :: rev (snd (fst mt))) (combine ms ts) ++ rev e2)).
Definition exact_ops : ops :=
  mkOps T (nat -> list T) (list T) (list (list T)) (list (list T)) C (T -> C)
    (fun p => fun _ => [])
    (fun p ts m => fun i => m i ++ [nth (match p with UP | RIGHT => length ts - 1 - i | _ => i end) ts d0])
    (fun m i => m i)
    (fun p a b => [])
    (fun p e a t b => e ++ [match p with LEFT | DOWN => a ++ t :: rev b | RIGHT | UP => b ++ t :: rev a end])
    (fun p a b => [])
    (fun p e a t1 t2 b => e ++ [match p with LEFT | DOWN => a ++ t1 :: t2 :: rev b | RIGHT | UP => b ++ t2 :: t1 :: rev a end])
    tr1_exact tr2_exact
    (fun d a b e1 e2 => fun t => tr1_exact d [(a, b)] [t] e1 e2).

Section L.
Context (rows cols : nat) (n : net exact_ops).
Definition lgc (p : pos) (i : nat) : nat := match p with UP | RIGHT => wid rows cols p - 1 - i | _ => i end.
Definition slice_at (p : pos) (j i : nat) : T :=
  match p with UP => n j i | DOWN => n (rows - 1 - j) i | LEFT => n i j | RIGHT => n i (cols - 1 - j) end.
Lemma nth_map_seq (f : nat -> T) k i : i < k -> nth i (map f (seq 0 k)) d0 = f i.
Proof.
  intros H. rewrite (nth_indep _ d0 (f 0)) by (now rewrite map_length, seq_length).
  rewrite map_nth, seq_nth by exact H. reflexivity.
Qed.
Lemma bmps_list p k i : i < wid rows cols p ->
  bmps_from exact_ops rows cols n p k (lgc p i) = map (fun j => slice_at p j i) (seq 0 k).
Proof.
  intros Hi. induction k as [|k IH]; [reflexivity|]. cbn [bmps_from]. simpl absorb. cbv beta.
  rewrite IH, seq_S, map_app. f_equal. cbn [map]. f_equal.
  destruct p; simpl in *; rewrite ?map_length, ?seq_length; rewrite nth_map_seq; try lia; try reflexivity; f_equal; lia.
Qed.
Lemma facing_list p s i : i < wid rows cols p ->
  facing exact_ops rows cols n p s i = map (fun j => slice_at p j i) (seq 0 (depth rows cols p s)).
Proof. intros Hi. unfold facing, boundary. apply (bmps_list p _ i Hi). Qed.

Definition crossing (d : orient) (i : nat) : list T :=
  match d with HORIZONTAL => map (fun r => n r i) (seq 0 rows) | VERTICAL => map (fun c => n i c) (seq 0 cols) end.
Definition entry (d : orient) (s i : nat) : T := match d with HORIZONTAL => n s i | VERTICAL => n i s end.
Lemma rev_map_seq (f : nat -> T) N k : k <= N -> rev (map (fun j => f (N - 1 - j)) (seq 0 k)) = map f (seq (N - k) k).
Proof.
  induction k as [|k IH]; intros H; [reflexivity|]. rewrite seq_S, map_app, rev_app_distr. cbn [map rev app].
  rewrite IH by lia. simpl. replace (N - 1 - k) with (N - S k) by lia. f_equal. f_equal. f_equal. lia.
Qed.
Lemma split_line (f : nat -> T) N s : s < N ->
  map f (seq 0 s) ++ f s :: rev (map (fun j => f (N - 1 - j)) (seq 0 (N - 1 - s))) = map f (seq 0 N).
Proof.
  intros H. rewrite rev_map_seq by lia. replace (N - (N - 1 - s)) with (S s) by lia.
  assert (E : seq 0 N = seq 0 s ++ s :: seq (S s) (N - 1 - s)).
  { assert (E : N = s + S (N - 1 - s)) by lia. rewrite E at 1. rewrite seq_app. reflexivity. }
  rewrite E, map_app. reflexivity.
Qed.
Lemma split_line2 (f : nat -> T) N s : s + 1 < N ->
  map f (seq 0 s) ++ f s :: f (s + 1) :: rev (map (fun j => f (N - 1 - j)) (seq 0 (N - 1 - (s + 1)))) = map f (seq 0 N).
Proof.
  intros H. rewrite rev_map_seq by lia. replace (N - (N - 1 - (s + 1))) with (S (S s)) by lia.
  assert (E : seq 0 N = seq 0 s ++ s :: S s :: seq (S (S s)) (N - 1 - (s + 1))).
  { assert (E : N = s + S (S (N - 1 - (s + 1)))) by lia. rewrite E at 1. rewrite seq_app. reflexivity. }
  rewrite E, map_app. replace (s + 1) with (S s) at 1 by lia. reflexivity.
Qed.
Lemma crossing_split d s i : s < nsl rows cols (side1 d) -> i < wid rows cols (side1 d) ->
  facing exact_ops rows cols n (side1 d) s i ++ entry d s i :: rev (facing exact_ops rows cols n (side2 d) s i) = crossing d i.
Proof.
  intros Hs Hi. rewrite !facing_list by (destruct d; exact Hi).
  destruct d; simpl in *; [apply (split_line (fun r => n r i)); exact Hs|apply (split_line (fun c => n i c)); exact Hs].
Qed.
Lemma crossing_split2 d s i : s + 1 < nsl rows cols (side1 d) -> i < wid rows cols (side1 d) ->
  facing exact_ops rows cols n (side1 d) s i ++ entry d s i :: entry d (s + 1) i :: rev (facing exact_ops rows cols n (side2 d) (s + 1) i)
  = crossing d i.
Proof.
  intros Hs Hi. rewrite !facing_list by (destruct d; exact Hi).
  destruct d; simpl in *; [apply (split_line2 (fun r => n r i)); exact Hs|apply (split_line2 (fun c => n i c)); exact Hs].
Qed.
Lemma near_list d s k : s < nsl rows cols (side1 d) -> k <= wid rows cols (side1 d) ->
  env_from exact_ops rows cols n (near d) s k = map (crossing d) (seq 0 k).
Proof.
  intros Hs. induction k as [|k IH]; intros Hk; [destruct d; reflexivity|].
  cbn [env_from]. rewrite seq_S, map_app, <- IH by lia. cbn [map plus]. rewrite <- (crossing_split d s k Hs) by lia.
  destruct d; reflexivity.
Qed.
Lemma far_list d s k : s < nsl rows cols (side1 d) -> k <= wid rows cols (side1 d) ->
  env_from exact_ops rows cols n (far d) s k = map (fun i => crossing d (wid rows cols (side1 d) - 1 - i)) (seq 0 k).
Proof.
  intros Hs. induction k as [|k IH]; intros Hk; [destruct d; reflexivity|].
  cbn [env_from]. rewrite seq_S, map_app, <- IH by lia. cbn [map plus].
  rewrite <- (crossing_split d s (wid rows cols (side1 d) - 1 - k) Hs) by lia.
  destruct d; unfold facing; simpl in *.
  - replace (cols - 1 - (cols - 1 - k)) with k by lia. reflexivity.
  - replace (rows - 1 - (rows - 1 - k)) with k by lia. reflexivity.
Qed.
Lemma near_list2 d s k : s + 1 < nsl rows cols (side1 d) -> k <= wid rows cols (side1 d) ->
  env2_from exact_ops rows cols n (near d) s k = map (crossing d) (seq 0 k).
Proof.
  intros Hs. induction k as [|k IH]; intros Hk; [destruct d; reflexivity|].
  cbn [env2_from]. rewrite seq_S, map_app, <- IH by lia. cbn [map plus]. rewrite <- (crossing_split2 d s k Hs) by lia.
  destruct d; reflexivity.
Qed.
Lemma far_list2 d s k : s + 1 < nsl rows cols (side1 d) -> k <= wid rows cols (side1 d) ->
  env2_from exact_ops rows cols n (far d) s k = map (fun i => crossing d (wid rows cols (side1 d) - 1 - i)) (seq 0 k).
Proof.
  intros Hs. induction k as [|k IH]; intros Hk; [destruct d; reflexivity|].
  cbn [env2_from]. rewrite seq_S, map_app, <- IH by lia. cbn [map plus].
  rewrite <- (crossing_split2 d s (wid rows cols (side1 d) - 1 - k) Hs) by lia.
  destruct d; unfold facing; simpl in *.
  - replace (cols - 1 - (cols - 1 - k)) with k by lia. reflexivity.
  - replace (rows - 1 - (rows - 1 - k)) with k by lia. reflexivity.
Qed.

Definition same_lattice (a b : nat -> nat -> T) : Prop := forall r c, r < rows -> c < cols -> a r c = b r c.
Lemma assemble_all d : same_lattice (assemble d (map (crossing d) (seq 0 (wid rows cols (side1 d))))) n.
Proof.
  intros r c Hr Hc.
  assert (N : forall i, i < wid rows cols (side1 d) ->
     nth i (map (crossing d) (seq 0 (wid rows cols (side1 d)))) [] = crossing d i).
  { intros i Hi. rewrite (nth_indep _ [] (crossing d 0)) by (now rewrite map_length, seq_length).
    rewrite map_nth, seq_nth by exact Hi. reflexivity. }
  destruct d; simpl; simpl in N; rewrite N by assumption; unfold crossing;
  [apply (nth_map_seq (fun r => n r c)); exact Hr|apply (nth_map_seq (fun c => n r c)); exact Hc].
Qed.
Lemma combine_map {X A B} (f : X -> A) (g : X -> B) l : combine (map f l) (map g l) = map (fun x => (f x, g x)) l.
Proof. induction l; simpl; congruence. Qed.
Lemma chain_entries d x k : map (fun y => n (fst y) (snd y)) (chain d x k) = map (entry d (across d x)) (seq (along d x) k).
Proof.
  unfold chain. rewrite map_map. rewrite <- (seq_shift_gen k (along d x)). rewrite map_map. apply map_ext.
  intros i. destruct d; simpl; f_equal; lia.
Qed.
Lemma layer_entries d x k : layer_pairs exact_ops n d x k = map (fun i => (entry d (across d x) i, entry d (across d x + 1) i)) (seq (along d x) k).
Proof.
  unfold layer_pairs. rewrite <- (seq_shift_gen k (along d x)). rewrite map_map. apply map_ext.
  intros i. destruct d; simpl; f_equal; f_equal; lia.
Qed.
Lemma lines_all {X} (f : nat -> X) a k N : a + k <= N ->
  map f (seq 0 a) ++ map f (seq a k) ++ rev (map (fun i => f (N - 1 - i)) (seq 0 (N - (a + k)))) = map f (seq 0 N).
Proof.
  intros H. assert (R : forall m, m <= N -> rev (map (fun j => f (N - 1 - j)) (seq 0 m)) = map f (seq (N - m) m)).
  { induction m as [|m IH]; intros Hm; [reflexivity|]. rewrite seq_S, map_app, rev_app_distr. cbn [map rev app].
    rewrite IH by lia. simpl. replace (N - 1 - m) with (N - S m) by lia. f_equal. f_equal. f_equal. lia. }
  rewrite R by lia. replace (N - (N - (a + k))) with (a + k) by lia.
  rewrite <- !map_app. f_equal. assert (E : N = a + (k + (N - (a + k)))) by lia. rewrite E at 2. rewrite !seq_app. reflexivity.
Qed.
Lemma corner_at d x k s : 1 <= k -> along d x + k <= wid rows cols (side1 d) -> s = across d x -> s < nsl rows cols (side1 d) ->
  forall g, corner d (map (fun i => (facing exact_ops rows cols n (side1 d) s i, g i)) (seq (along d x) k))
    (map (crossing d) (seq 0 (along d x))) = x.
Proof.
  intros Hk Ha -> Hs g. destruct k as [|k]; [lia|]. unfold corner. cbn [seq map nth fst].
  rewrite map_length, seq_length, facing_list by lia. rewrite map_length, seq_length.
  destruct d, x; reflexivity.
Qed.

Lemma trace_exact d x k : 1 <= k -> window_in rows cols d x k ->
  (forall q a b, same_lattice a b -> amp q a = amp q b) ->
  trace_at exact_ops rows cols n d x k = amp (Q1 d x k) n.
Proof.
  intros Hk Hin Hamp.
  assert (H1 : across d x < nsl rows cols (side1 d)) by (destruct d; simpl in *; lia).
  assert (H2 : along d x + k <= wid rows cols (side1 d)) by (destruct d; simpl in *; lia).
  unfold trace_at, window1_spec. cbn [tr1 exact_ops]. unfold tr1_exact.
  rewrite near_list, far_list by lia. rewrite (chain_entries d x k). rewrite map_length, seq_length.
  rewrite (corner_at d x k (across d x) Hk H2 eq_refl H1).
  rewrite combine_map, map_map. cbn [fst snd].
  rewrite (map_ext_in (fun i => _ ++ _ :: rev _) (crossing d) (seq (along d x) k)).
  - rewrite (lines_all (crossing d)) by exact H2. apply Hamp, assemble_all.
  - intros i Hi. apply in_seq in Hi. apply crossing_split; lia.
Qed.
Lemma trace2_exact d x k : 1 <= k -> window2_in rows cols d x k ->
  (forall q a b, same_lattice a b -> amp q a = amp q b) ->
  trace2_at exact_ops rows cols n d x k = amp (Q2 d x k) n.
Proof.
  intros Hk Hin Hamp.
  assert (H1 : across d x + 1 < nsl rows cols (side1 d)) by (destruct d; simpl in *; lia).
  assert (H2 : along d x + k <= wid rows cols (side1 d)) by (destruct d; simpl in *; lia).
  unfold trace2_at, window2_spec. cbn [tr2 exact_ops]. unfold tr2_exact.
  rewrite near_list2, far_list2 by lia. rewrite (layer_entries d x k). rewrite map_length, seq_length.
  rewrite (corner_at d x k (across d x) Hk H2 eq_refl) by lia.
  rewrite combine_map, map_map. cbn [fst snd].
  rewrite (map_ext_in (fun i => _ ++ _ :: _ :: rev _) (crossing d) (seq (along d x) k)).
  - rewrite (lines_all (crossing d)) by exact H2. apply Hamp, assemble_all.
  - intros i Hi. apply in_seq in Hi. apply crossing_split2; lia.
Qed.
End L.

Lemma exact_plugs rows cols : plugs exact_ops rows cols (fun h t => h t).
Proof. intros n d x t m1 m2 e1 e2 _ _. reflexivity. Qed.
End Exact.

(** A wave function read off the network, the same in every window. *)
Lemma exact_consistent (T : Type) (d0 : T) (psi : (nat -> nat -> T) -> C) rows cols :
  (forall a b, same_lattice T rows cols a b -> psi a = psi b) ->
  contraction_consistent (exact_ops T d0 (fun _ => psi)) rows cols psi /\
  contraction_consistent2 (exact_ops T d0 (fun _ => psi)) rows cols psi.
Proof.
  intros H. split.
  - intros n d x k Hk Hin. apply (trace_exact T d0 (fun _ => psi)); auto.
  - intros n d x k Hk Hin. apply (trace2_exact T d0 (fun _ => psi)); auto.
Qed.
