(** Proofs about the bond dimensions reported by a state. *)
From Coq Require Import List Arith Bool Lia.
From Verif Require Import Base BondDimModel BondDimSpec.
Import ListNotations.

Lemma in_sites rows cols r c : In (r, c) (sites rows cols) <-> r < rows /\ c < cols.
Proof.
  unfold sites. rewrite in_flat_map. split.
  - intros [x [Hx H]]. apply in_map_iff in H. destruct H as [y [E Hy]]. injection E as -> ->.
    apply in_seq in Hx. apply in_seq in Hy. lia.
  - intros [H1 H2]. exists r. split; [apply in_seq; lia|]. apply in_map_iff. exists c. split; [reflexivity|apply in_seq; lia].
Qed.

Lemma has_south_spec rows per r : r < rows -> (has_south rows per r = true <-> S r < rows \/ per = true).
Proof. intros H. unfold has_south. rewrite orb_true_iff, Nat.ltb_lt. split; intros [A|A]; auto; left; lia. Qed.

Lemma has_east_spec cols per c : c < cols -> (has_east cols per c = true <-> S c < cols \/ per = true).
Proof. intros H. unfold has_east. rewrite orb_true_iff, Nat.ltb_lt. split; intros [A|A]; auto; left; lia. Qed.

Lemma all_dims_ok rows cols per dim : rows + cols <= rows * cols ->
  exists l, all_dims rows cols per dim = Ok l /\ forall D, In D l <-> inner rows cols per dim D.
Proof.
  intros H. unfold all_dims. destruct (rows * cols <? rows + cols) eqn:E; [apply Nat.ltb_lt in E; lia|].
  eexists. split; [reflexivity|]. intros D. rewrite in_flat_map. unfold inner. split.
  - intros [[r c] [Hs HD]]. apply in_sites in Hs. destruct Hs as [Hr Hc]. cbn [fst snd] in HD. exists r, c. split; [exact Hr|]. split; [exact Hc|].
    apply in_app_or in HD. destruct HD as [HD|HD].
    + destruct (has_south rows per r) eqn:F; [|destruct HD]. destruct HD as [HD|[]]. left. split; [apply has_south_spec; auto|auto].
    + destruct (has_east cols per c) eqn:F; [|destruct HD]. destruct HD as [HD|[]]. right. split; [apply has_east_spec; auto|auto].
  - intros [r [c [Hr [Hc HD]]]]. exists (r, c). split; [apply in_sites; auto|]. cbn [fst snd]. apply in_or_app. destruct HD as [[A B]|[A B]].
    + left. apply has_south_spec in A; [|exact Hr]. rewrite A. left. auto.
    + right. apply has_east_spec in A; [|exact Hc]. rewrite A. left. auto.
Qed.

Lemma all_dims_throw rows cols per dim : rows = 1 \/ cols = 1 -> all_dims rows cols per dim = Fail Throw.
Proof. intros H. unfold all_dims. replace (rows * cols <? rows + cols) with true; [reflexivity|]. symmetry. apply Nat.ltb_lt. destruct H; subst; lia. Qed.

Lemma fold_min l : forall x, In (fold_left Nat.min l x) (x :: l) /\ forall y, In y (x :: l) -> fold_left Nat.min l x <= y.
Proof.
  induction l as [|a l IH]; intros x; cbn [fold_left].
  - split; [left; reflexivity|]. intros y [->|[]]. lia.
  - destruct (IH (Nat.min x a)) as [A B]. split.
    + destruct A as [A|A]; [|right; right; exact A]. rewrite <- A. destruct (Nat.min_spec x a) as [[_ E]|[_ E]]; rewrite E; [left|right; left]; reflexivity.
    + intros y [->|[->|Hy]].
      * specialize (B (Nat.min y a) (or_introl eq_refl)). lia.
      * specialize (B (Nat.min x y) (or_introl eq_refl)). lia.
      * apply B. right. exact Hy.
Qed.

Lemma fold_max l : forall x, In (fold_left Nat.max l x) (x :: l) /\ forall y, In y (x :: l) -> y <= fold_left Nat.max l x.
Proof.
  induction l as [|a l IH]; intros x; cbn [fold_left].
  - split; [left; reflexivity|]. intros y [->|[]]. lia.
  - destruct (IH (Nat.max x a)) as [A B]. split.
    + destruct A as [A|A]; [|right; right; exact A]. rewrite <- A. destruct (Nat.max_spec x a) as [[_ E]|[_ E]]; rewrite E; [right; left|left]; reflexivity.
    + intros y [->|[->|Hy]].
      * specialize (B (Nat.max y a) (or_introl eq_refl)). lia.
      * specialize (B (Nat.max x y) (or_introl eq_refl)). lia.
      * apply B. right. exact Hy.
Qed.

Lemma min_max rows cols per dim : 2 <= rows -> 2 <= cols -> exists a b,
  get_min rows cols per dim = Ok a /\ get_min_max rows cols per dim = Ok (a, b) /\
  inner rows cols per dim a /\ inner rows cols per dim b /\ forall D, inner rows cols per dim D -> a <= D <= b.
Proof.
  intros Hr Hc. destruct (all_dims_ok rows cols per dim) as [l [E Hl]]; [nia|]. unfold get_min, get_min_max. rewrite E. cbn [bind].
  assert (I : inner rows cols per dim (dim 0 0 South)). { exists 0, 0. split; [lia|]. split; [lia|]. left. split; [left; lia|reflexivity]. }
  destruct l as [|x l]; [apply Hl in I; destruct I|]. cbn [least largest bind]. destruct (fold_min l x) as [A B]. destruct (fold_max l x) as [A' B'].
  exists (fold_left Nat.min l x), (fold_left Nat.max l x). split; [reflexivity|]. split; [reflexivity|]. split; [apply Hl; exact A|].
  split; [apply Hl; exact A'|]. intros D HD. apply Hl in HD. split; [apply B|apply B']; exact HD.
Qed.

Lemma fold_dmax (dim : nat -> nat -> leg -> nat) (l : list (nat * nat)) : forall x, let m := fold_left (fun dmax s => Nat.max (Nat.max dmax (dim (fst s) (snd s) West)) (dim (fst s) (snd s) South)) l x in
  x <= m /\ (forall r c, In (r, c) l -> dim r c West <= m /\ dim r c South <= m) /\
  (m = x \/ exists r c, In (r, c) l /\ (m = dim r c West \/ m = dim r c South)).
Proof.
  induction l as [|[r0 c0] l IH]; intros x; cbn [fold_left fst snd].
  - cbn zeta. split; [lia|]. split; [intros r c []|left; reflexivity].
  - destruct (IH (Nat.max (Nat.max x (dim r0 c0 West)) (dim r0 c0 South))) as [A [B C]]. cbn zeta in *. split; [lia|]. split.
    + intros r c [E|H]; [injection E as <- <-; lia|apply B; exact H].
    + destruct C as [C|[r [c [H C]]]].
      * rewrite C. destruct (Nat.max_spec (Nat.max x (dim r0 c0 West)) (dim r0 c0 South)) as [[_ E]|[_ E]]; rewrite E.
        -- right. exists r0, c0. split; [left; reflexivity|right; reflexivity].
        -- destruct (Nat.max_spec x (dim r0 c0 West)) as [[_ F]|[_ F]]; rewrite F; [right; exists r0, c0; split; [left; reflexivity|left; reflexivity]|left; reflexivity].
      * right. exists r, c. split; [right; exact H|exact C].
Qed.

(** the west leg of a site is the right end of a bond, or leaves the lattice *)
Lemma west_leg rows cols per dim r c : matching rows cols per dim -> r < rows -> c < cols ->
  inner rows cols per dim (dim r c West) \/ (per = false /\ c = 0).
Proof.
  intros M Hr Hc. destruct c as [|c].
  - destruct per eqn:P; [left|right; auto]. exists r, (cols - 1). split; [exact Hr|]. split; [lia|]. right. split; [right; reflexivity|].
    assert (Hl : cols - 1 < cols) by lia. destruct (M r (cols - 1) Hr Hl) as [_ B]. specialize (B (or_intror eq_refl)). rewrite <- B.
    replace (S (cols - 1)) with cols by lia. rewrite Nat.mod_same by lia. reflexivity.
  - left. assert (Hl : c < cols) by lia. exists r, c. split; [exact Hr|]. split; [exact Hl|]. right. split; [left; exact Hc|].
    destruct (M r c Hr Hl) as [_ B]. specialize (B (or_introl Hc)). rewrite <- B. rewrite Nat.mod_small by exact Hc. reflexivity.
Qed.

Lemma north_leg rows cols per dim r c : matching rows cols per dim -> r < rows -> c < cols ->
  inner rows cols per dim (dim r c North) \/ (per = false /\ r = 0).
Proof.
  intros M Hr Hc. destruct r as [|r].
  - destruct per eqn:P; [left|right; auto]. exists (rows - 1), c. split; [lia|]. split; [exact Hc|]. left. split; [right; reflexivity|].
    assert (Hl : rows - 1 < rows) by lia. destruct (M (rows - 1) c Hl Hc) as [B _]. specialize (B (or_intror eq_refl)). rewrite <- B.
    replace (S (rows - 1)) with rows by lia. rewrite Nat.mod_same by lia. reflexivity.
  - left. assert (Hl : r < rows) by lia. exists r, c. split; [exact Hl|]. split; [exact Hc|]. left. split; [left; exact Hr|].
    destruct (M r c Hl Hc) as [B _]. specialize (B (or_introl Hr)). rewrite <- B. rewrite Nat.mod_small by exact Hr. reflexivity.
Qed.

(** every bond is seen at its west or north end *)
Lemma east_leg rows cols per dim r c : matching rows cols per dim -> r < rows -> c < cols -> S c < cols \/ per = true ->
  S c mod cols < cols /\ (S c mod cols <> 0 \/ per = true) /\ dim r c East = dim r (S c mod cols) West.
Proof.
  intros M Hr Hc H. split; [apply Nat.mod_upper_bound; lia|]. split.
  - destruct H as [H|H]; [left; rewrite Nat.mod_small by exact H; lia|right; exact H].
  - symmetry. apply (M r c Hr Hc). exact H.
Qed.
Lemma south_leg rows cols per dim r c : matching rows cols per dim -> r < rows -> c < cols -> S r < rows \/ per = true ->
  S r mod rows < rows /\ (S r mod rows <> 0 \/ per = true) /\ dim r c South = dim (S r mod rows) c North.
Proof.
  intros M Hr Hc H. split; [apply Nat.mod_upper_bound; lia|]. split.
  - destruct H as [H|H]; [left; rewrite Nat.mod_small by exact H; lia|right; exact H].
  - symmetry. apply (M r c Hr Hc). exact H.
Qed.

Lemma max_bond rows cols per dim : matching rows cols per dim -> outer_trivial rows cols per dim -> (exists D, inner rows cols per dim D) ->
  inner rows cols per dim (get_max rows cols dim) /\ forall D, inner rows cols per dim D -> D <= get_max rows cols dim.
Proof.
  intros M [O1 O2] [D0 H0]. unfold get_max. destruct (fold_dmax dim (sites rows cols) 0) as [_ [B C]]. cbn zeta in *.
  set (m := fold_left _ _ _) in *.
  assert (U : forall D, inner rows cols per dim D -> 1 <= D <= m).
  { intros D [r [c [Hr [Hc [[H ->]|[H ->]]]]]].
    - split; [apply O1; assumption|]. apply (B r c). apply in_sites. auto.
    - split; [apply O1; assumption|]. destruct (east_leg rows cols per dim r c M Hr Hc H) as [L [_ ->]]. apply (B r (S c mod cols)). apply in_sites. auto. }
  split; [|intros D HD; apply U; exact HD].
  assert (One : m = 1 -> inner rows cols per dim m). { intros E. specialize (U D0 H0). replace m with D0 by lia. exact H0. }
  destruct C as [C|[r [c [Hs C]]]]; [specialize (U D0 H0); lia|]. apply in_sites in Hs. destruct Hs as [Hr Hc]. destruct C as [C|C].
  - destruct (west_leg rows cols per dim r c M Hr Hc) as [I|[P Z]]; [rewrite C; exact I|]. apply One. rewrite C. subst c.
    apply (proj1 (O2 P) r Hr).
  - destruct (le_lt_dec rows (S r)) as [L|L].
    + destruct per eqn:P; [rewrite C; exists r, c; auto 6|]. apply One. rewrite C. replace r with (rows - 1) by lia. apply (proj2 (O2 eq_refl) c Hc).
    + rewrite C. exists r, c. split; [exact Hr|]. split; [exact Hc|]. left. split; [left; exact L|reflexivity].
Qed.

Lemma guard (h : bool) d e : negb (h && negb (d =? e)) = true <-> (h = true -> d = e).
Proof. destruct h; cbn; [rewrite negb_involutive, Nat.eqb_eq; tauto|split; [discriminate|reflexivity]]. Qed.

Lemma even_ok rows cols per dim : 0 < rows -> 0 < cols -> 2 <= rows \/ per = true ->
  (is_even rows cols per dim = true <-> all_equal rows cols per dim).
Proof.
  intros Hr0 Hc0 H. assert (I : inner rows cols per dim (dim 0 0 South)).
  { exists 0, 0. split; [lia|]. split; [lia|]. left. split; [destruct H; [left; lia|right; assumption]|reflexivity]. }
  unfold is_even. cbn zeta. rewrite forallb_forall. split.
  - intros A. assert (K : forall D, inner rows cols per dim D -> dim 0 0 South = D).
    { intros D [r [c [Hr [Hc HD]]]]. assert (Hs : In (r, c) (sites rows cols)) by (apply in_sites; auto). specialize (A _ Hs). cbn [fst snd] in A.
      apply andb_true_iff in A. destruct A as [A1 A2]. rewrite guard in A1, A2. destruct HD as [[G ->]|[G ->]].
      - apply A1. apply has_south_spec; assumption.
      - apply A2. apply has_east_spec; assumption. }
    intros D D' HD HD'. rewrite <- (K D HD). apply K. exact HD'.
  - intros A [r c] Hs. apply in_sites in Hs. destruct Hs as [Hr Hc]. cbn [fst snd]. apply andb_true_iff. rewrite !guard. split; intros G; apply A; try exact I;
      exists r, c; (split; [exact Hr|split; [exact Hc|]]).
    + left. split; [apply has_south_spec; assumption|reflexivity].
    + right. split; [apply has_east_spec; assumption|reflexivity].
Qed.

Lemma uniform_ok rows cols per dim : 0 < rows -> 0 < cols -> 2 <= rows \/ per = true -> matching rows cols per dim ->
  (is_uniform rows cols per dim = true <-> all_equal rows cols per dim).
Proof.
  intros Hr0 Hc0 H M. assert (I : inner rows cols per dim (dim 0 0 South)).
  { exists 0, 0. split; [lia|]. split; [lia|]. left. split; [destruct H; [left; lia|right; assumption]|reflexivity]. }
  assert (G0 : forall k, negb (k =? 0) || per = true <-> k <> 0 \/ per = true).
  { intros k. rewrite orb_true_iff, negb_true_iff, Nat.eqb_neq. tauto. }
  unfold is_uniform. cbn zeta. rewrite forallb_forall. split.
  - intros A. assert (K : forall D, inner rows cols per dim D -> dim 0 0 South = D).
    { intros D [r [c [Hr [Hc [[G ->]|[G ->]]]]]].
      - destruct (south_leg rows cols per dim r c M Hr Hc G) as [L [N ->]].
        assert (Hs : In (S r mod rows, c) (sites rows cols)) by (apply in_sites; auto). specialize (A _ Hs). cbn [fst snd] in A.
        apply andb_true_iff in A. destruct A as [A1 _]. rewrite guard in A1. apply A1. apply G0. exact N.
      - destruct (east_leg rows cols per dim r c M Hr Hc G) as [L [N ->]].
        assert (Hs : In (r, S c mod cols) (sites rows cols)) by (apply in_sites; auto). specialize (A _ Hs). cbn [fst snd] in A.
        apply andb_true_iff in A. destruct A as [_ A2]. rewrite guard in A2. apply A2. apply G0. exact N. }
    intros D D' HD HD'. rewrite <- (K D HD). apply K. exact HD'.
  - intros A [r c] Hs. apply in_sites in Hs. destruct Hs as [Hr Hc]. cbn [fst snd]. apply andb_true_iff. rewrite !guard, !G0.
    split; intros G; apply A; try exact I.
    + destruct (north_leg rows cols per dim r c M Hr Hc) as [J|[P Z]]; [exact J|]. destruct G; congruence.
    + destruct (west_leg rows cols per dim r c M Hr Hc) as [J|[P Z]]; [exact J|]. destruct G; congruence.
Qed.

Lemma len_flat {A B} (f : A -> list B) l : length (flat_map f l) = list_sum (map (fun x => length (f x)) l).
Proof. induction l as [|x l IH]; [reflexivity|]. cbn. rewrite app_length, IH. reflexivity. Qed.

Lemma sum_row (a b : nat -> nat) (r : nat) (l : list nat) : list_sum (map (fun s : nat * nat => a (fst s) + b (snd s)) (map (fun c => (r, c)) l)) = length l * a r + list_sum (map b l).
Proof. induction l as [|c l IH]; [reflexivity|]. cbn [map list_sum fold_right fst snd length]. unfold list_sum in *. cbn [fold_right]. rewrite IH. lia. Qed.

Lemma sum_sites (a b : nat -> nat) (lc lr : list nat) : list_sum (map (fun s : nat * nat => a (fst s) + b (snd s)) (flat_map (fun r => map (fun c => (r, c)) lc) lr)) =
  length lc * list_sum (map a lr) + length lr * list_sum (map b lc).
Proof.
  induction lr as [|r lr IH]; [cbn; lia|]. cbn [flat_map]. rewrite map_app, list_sum_app, IH, sum_row. cbn [map length].
  change (list_sum (a r :: map a lr)) with (a r + list_sum (map a lr)). lia.
Qed.

Lemma sum_ones (f : nat -> nat) (l : list nat) : (forall x, In x l -> f x = 1) -> list_sum (map f l) = length l.
Proof.
  induction l as [|x l IH]; intros H; [reflexivity|]. cbn [map length]. change (list_sum (f x :: map f l)) with (f x + list_sum (map f l)).
  rewrite IH by (intros y Hy; apply H; right; exact Hy). rewrite H by (left; reflexivity). lia.
Qed.

Lemma sum_has n (per : bool) : 0 < n -> list_sum (map (fun r => if (r <? n - 1) || per then 1 else 0) (seq 0 n)) = if per then n else n - 1.
Proof.
  intros H. destruct per.
  - rewrite sum_ones; [apply seq_length|]. intros x _. rewrite orb_true_r. reflexivity.
  - destruct n as [|n]; [lia|]. rewrite seq_S, map_app, list_sum_app. rewrite sum_ones.
    + rewrite seq_length. replace (S n - 1) with n by lia. cbn [map Nat.add]. rewrite Nat.ltb_irrefl. unfold list_sum. cbn [orb fold_right]. lia.
    + intros x Hx. apply in_seq in Hx. replace (x <? S n - 1) with true; [reflexivity|]. symmetry. apply Nat.ltb_lt. lia.
Qed.

Lemma dims_listed rows cols per dim : 2 <= rows -> 2 <= cols -> exists l, all_dims rows cols per dim = Ok l /\
  (forall D, In D l <-> inner rows cols per dim D) /\ length l = if per then 2 * (rows * cols) else (rows - 1) * cols + rows * (cols - 1).
Proof.
  intros Hr Hc. destruct (all_dims_ok rows cols per dim) as [l [E Hl]]; [nia|]. exists l. split; [exact E|]. split; [exact Hl|].
  unfold all_dims in E. destruct (rows * cols <? rows + cols); [discriminate|]. injection E as <-. rewrite len_flat.
  rewrite (map_ext _ (fun s : nat * nat => (fun r => if has_south rows per r then 1 else 0) (fst s) + (fun c => if has_east cols per c then 1 else 0) (snd s))).
  2: { intros [r c]. cbn [fst snd]. rewrite app_length. destruct (has_south rows per r), (has_east cols per c); reflexivity. }
  unfold sites. etransitivity.
  { exact (sum_sites (fun r => if has_south rows per r then 1 else 0) (fun c => if has_east cols per c then 1 else 0) (seq 0 cols) (seq 0 rows)). }
  rewrite !seq_length. unfold has_south, has_east. rewrite !sum_has by lia. destruct per; lia.
Qed.
