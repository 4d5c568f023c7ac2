(** The MinSR matrix is the centred Gram matrix; its solution is the natural gradient. *)
From Coq Require Import List Arith Bool Reals Lia Lra FunctionalExtensionality Permutation.
From Verif Require Import Base Cplx Rsum OptModel OptProofs LbModel CgModel CgSpec CgProofs ExactProofs StatMain SrProofs MinsrModel MinsrSpec RingProofs RingMain.
Import ListNotations.
Local Open Scope R_scope.

Section T.
Variable dim : nat.
Notation dot := (vdot dim).
Lemma write_snd oi b : forall col row, snd (write_batch dim oi b col row) = (snd row + sumC (dot oi) b)%C.
Proof. induction b as [|x b IH]; intros col row; cbn [write_batch]; [rewrite sumC_nil; ring|]. rewrite IH, sumC_cons. cbn [snd]. ring. Qed.
Lemma write_fst oi b : forall col row j, fst (write_batch dim oi b col row) j =
  if ((col <=? j) && (j <? col + length b))%nat then dot oi (nth (j - col) b vzero) else fst row j.
Proof.
  induction b as [|x b IH]; intros col row j; cbn [write_batch length].
  - destruct (Nat.leb_spec col j), (Nat.ltb_spec j (col + 0)); cbn [andb]; try reflexivity; lia.
  - rewrite IH. cbn [fst]. unfold upd. destruct (Nat.leb_spec (S col) j), (Nat.ltb_spec j (S col + length b)), (Nat.leb_spec col j), (Nat.ltb_spec j (col + S (length b))), (Nat.eqb_spec j col); cbn [andb]; try lia; try reflexivity.
    + replace (j - col)%nat with (S (j - S col)) by lia. reflexivity.
    + subst. rewrite Nat.sub_diag. reflexivity.
Qed.
Lemma nth_concat {X} (ls : list (list X)) s d : (forall l, In l ls -> length l = s) -> forall j, (j < length ls * s)%nat ->
  nth j (concat ls) d = nth (j mod s) (nth (j / s) ls []) d.
Proof.
  intros Hl j Hj. assert (Hs : (0 < s)%nat) by (destruct s; lia). revert j Hj. induction ls as [|a ls IH]; intros j Hj; [cbn in Hj; lia|]. assert (La : length a = s) by (apply Hl; now left). cbn [concat length] in *.
  destruct (le_lt_dec s j) as [L|L].
  - rewrite app_nth2 by lia. rewrite La, IH by (try (intros; apply Hl; now right); lia). replace j with (j - s + 1 * s)%nat at 3 4 by lia. rewrite Nat.mod_add, Nat.div_add by lia. rewrite Nat.add_1_r. reflexivity.
  - rewrite app_nth1 by lia. rewrite Nat.mod_small, Nat.div_small by lia. reflexivity.
Qed.
Lemma concat_length {X} (ls : list (list X)) s : (forall l, In l ls -> length l = s) -> length (concat ls) = (length ls * s)%nat.
Proof. induction ls as [|a ls IH]; intros Hl; [reflexivity|]. cbn [concat length]. rewrite app_length, IH, (Hl a) by (intros; try apply Hl; auto with datatypes). lia. Qed.

Variables (s : nat) (ranks : list (list vec)).
Hypothesis Hs : (0 < s)%nat.
Hypothesis Hl : forall l, In l ranks -> length l = s.
Let P := length ranks.
Let os := concat ranks.
Definition exchanged (r : nat) : list (list vec) := map (fun k => nth (before (length ranks) r k) ranks []) (seq 1 (length ranks - 1)).
Lemma rank_len q : (q < P)%nat -> length (nth q ranks []) = s.
Proof. intros H. apply Hl, nth_In, H. Qed.
Lemma rounds_fst r oi n : (r < P)%nat -> forall k row j, (0 < k)%nat -> (k + n <= P)%nat -> (j < P * s)%nat ->
  ((exists k', (k <= k' < k + n)%nat /\ before P r k' = (j / s)%nat) -> fst (write_rounds dim P s r oi k (map (fun k => nth (before P r k) ranks []) (seq k n)) row) j = dot oi (nth j os vzero)) /\
  ((forall k', (k <= k' < k + n)%nat -> before P r k' <> (j / s)%nat) -> fst (write_rounds dim P s r oi k (map (fun k => nth (before P r k) ranks []) (seq k n)) row) j = fst row j).
Proof.
  intros Hr. induction n as [|n IH]; intros k row j Hk Hn Hj; cbn [seq map write_rounds]; [split; [intros (k' & H & _); lia|reflexivity]|].
  rewrite (source_before P r k Hr) by lia. destruct (IH (S k) (write_batch dim oi (nth (before P r k) ranks []) (before P r k * s) row) j ltac:(lia) ltac:(lia) Hj) as (I1 & I2). clear IH.
  assert (Hb : (before P r k < P)%nat) by (apply before_lt; lia).
  assert (Dj : j = (s * (j / s) + j mod s)%nat) by (apply Nat.div_mod; lia). assert (Mj : (j mod s < s)%nat) by (apply Nat.mod_upper_bound; lia).
  assert (Wr : before P r k = (j / s)%nat -> fst (write_batch dim oi (nth (before P r k) ranks []) (before P r k * s) row) j = dot oi (nth j os vzero)).
  { intros E. rewrite write_fst, E, rank_len by (rewrite <- E; exact Hb). destruct (Nat.leb_spec (j / s * s) j), (Nat.ltb_spec j (j / s * s + s)); cbn [andb]; try nia. f_equal. unfold os. rewrite (nth_concat ranks s vzero Hl j Hj). f_equal. nia. }
  assert (Wn : before P r k <> (j / s)%nat -> fst (write_batch dim oi (nth (before P r k) ranks []) (before P r k * s) row) j = fst row j).
  { intros N. rewrite write_fst, rank_len by exact Hb. destruct (Nat.leb_spec (before P r k * s) j), (Nat.ltb_spec j (before P r k * s + s)); cbn [andb]; try reflexivity. exfalso. apply N. apply Nat.div_unique with (r := (j - before P r k * s)%nat); lia. }
  split.
  - intros (k' & Hk' & E). destruct (in_dec Nat.eq_dec (j / s)%nat (map (before P r) (seq (S k) n))) as [Y|N].
    + apply in_map_iff in Y. destruct Y as (k2 & E2 & Hi). apply in_seq in Hi. apply I1. exists k2. split; [lia|exact E2].
    + rewrite I2; [|intros k2 H2 E2; apply N; apply in_map_iff; exists k2; split; [exact E2|apply in_seq; lia]]. apply Wr. destruct (Nat.eq_dec k' k) as [->|N']; [exact E|]. exfalso. apply N. apply in_map_iff. exists k'. split; [exact E|apply in_seq; lia].
  - intros N. rewrite I2 by (intros; apply N; lia). apply Wn. apply N. lia.
Qed.
Lemma rounds_snd r oi : forall l k row, snd (write_rounds dim P s r oi k l row) = (snd row + sumC (sumC (dot oi)) l)%C.
Proof. induction l as [|b l IH]; intros k row; cbn [write_rounds]; [rewrite sumC_nil; ring|]. rewrite IH, write_snd, sumC_cons. ring. Qed.
Lemma sum_concat {X} (f : X -> C) (ls : list (list X)) : sumC f (concat ls) = sumC (sumC f) ls.
Proof. induction ls as [|a l IH]; [reflexivity|]. cbn [concat]. now rewrite sumC_app, sumC_cons, IH. Qed.
Lemma sum_nth {X} (f : X -> C) l d : sumC f l = sumC (fun i => f (nth i l d)) (seq 0 (length l)).
Proof. rewrite <- (sumC_map f (fun i => nth i l d)). now rewrite map_seq_nth. Qed.
Lemma gram_row_value r oi : (r < P)%nat -> let row := gram_row dim P s r (nth r ranks []) (exchanged r) oi in
  (forall j, (j < P * s)%nat -> fst row j = dot oi (nth j os vzero)) /\ snd row = sumC (dot oi) os.
Proof.
  intros Hr row. unfold row, gram_row, exchanged. fold P. split.
  - intros j Hj. assert (Hq : (j / s < P)%nat) by (apply Nat.div_lt_upper_bound; lia).
    destruct (rounds_fst r oi (P - 1) Hr 1 (write_batch dim oi (nth r ranks []) (r * s) (fun _ => RtoC 0, RtoC 0)) j ltac:(lia) ltac:(lia) Hj) as (I1 & I2).
    destruct (before_onto P r (j / s) Hr Hq) as (k & Hk & E). destruct k as [|k]; [|apply I1; exists (S k); split; [lia|exact E]]. rewrite before_zero in E by exact Hr.
    rewrite I2; [|intros k' Hk' E'; rewrite <- (before_zero P r Hr) in E; rewrite <- E in E'; apply before_inj in E'; lia].
    rewrite write_fst, rank_len by exact Hr. assert (Dj : j = (s * (j / s) + j mod s)%nat) by (apply Nat.div_mod; lia). assert (Mj : (j mod s < s)%nat) by (apply Nat.mod_upper_bound; lia).
    destruct (Nat.leb_spec (r * s) j), (Nat.ltb_spec j (r * s + s)); cbn [andb]; try nia. f_equal. unfold os. rewrite (nth_concat ranks s vzero Hl j Hj), <- E. f_equal. nia.
  - rewrite rounds_snd, write_snd. cbn [snd]. rewrite sumC_map. unfold os. rewrite sum_concat, (sum_nth _ ranks []). fold P.
    rewrite <- (sumC_perm (fun x => sumC (dot oi) (nth x ranks [])) _ _ (before_perm P r Hr)). rewrite sumC_map. replace P with (S (P - 1)) at 2 by lia. cbn [seq]. rewrite sumC_cons, before_zero by exact Hr. ring.
Qed.
Lemma rows_value : Forall2 (fun row oi => (forall j, (j < P * s)%nat -> fst row j = dot oi (nth j os vzero)) /\ snd row = sumC (dot oi) os) (t_rows dim s ranks exchanged) os.
Proof.
  unfold t_rows. fold P. assert (Eo : flat_map (fun i => nth i ranks []) (seq 0 P) = os) by (rewrite flat_map_concat_map; unfold P; now rewrite map_seq_nth).
  assert (K : forall l, (forall r, In r l -> (r < P)%nat) -> Forall2 (fun row oi => (forall j, (j < P * s)%nat -> fst row j = dot oi (nth j os vzero)) /\ snd row = sumC (dot oi) os)
    (flat_map (fun r => map (gram_row dim P s r (nth r ranks []) (exchanged r)) (nth r ranks [])) l) (flat_map (fun i => nth i ranks []) l)).
  { induction l as [|r l IH]; intros Hr; [constructor|]. cbn [flat_map]. apply Forall2_app; [|apply IH; intros; apply Hr; now right]. specialize (Hr r (or_introl eq_refl)).
    assert (M : forall u, Forall2 (fun row oi => (forall j, (j < P * s)%nat -> fst row j = dot oi (nth j os vzero)) /\ snd row = sumC (dot oi) os) (map (gram_row dim P s r (nth r ranks []) (exchanged r)) u) u).
    { induction u as [|x u IHu]; [constructor|]. cbn [map]. constructor; [apply (gram_row_value r x Hr)|exact IHu]. } apply M. }
  pose proof (K (seq 0 P)) as Q. rewrite Eo in Q. apply Q. intros r H. apply in_seq in H. lia.
Qed.
Hypothesis Hr : ranks <> [].
Lemma os_len : length os = (P * s)%nat.
Proof. apply concat_length, Hl. Qed.
Lemma os_pos : (0 < length os)%nat.
Proof. rewrite os_len. unfold P. destruct ranks; [congruence|cbn; lia]. Qed.
Lemma os_ne : os <> [].
Proof. intros E. pose proof os_pos as H. rewrite E in H. cbn in H. lia. Qed.
Lemma n_inv : Cinv (RtoC (INR (length os))) = RtoC (/ INR (length os)).
Proof. apply Cinv_unique. apply len_inv, os_ne. Qed.
Lemma dot_mean u : dot u (mean_of os) = (RtoC (/ INR (length os)) * sumC (dot u) os)%C.
Proof.
  rewrite dot_conj, mean_dot, Cconj_mul, Cconj_R. f_equal.
  induction os as [|a l IH]; [rewrite !sumC_nil; apply Cconj_R|]. rewrite !sumC_cons, Cconj_add, IH. f_equal. symmetry. apply dot_conj.
Qed.
Theorem t_value i j : (i < length os)%nat -> (j < length os)%nat -> t_matrix dim s ranks exchanged i j = centred_gram dim os i j.
Proof.
  intros Hi Hj. pose proof rows_value as V. unfold t_matrix, centred. set (rows := t_rows dim s ranks exchanged) in *. pose proof (Forall2_len _ _ _ V) as L. rewrite L.
  set (N := RtoC (INR (length os))).
  assert (Em : map (fun row => Cdiv (snd row) N) rows = map (fun oi => dot oi (mean_of os)) os).
  { clear -V Hr Hs Hl. assert (K : forall rows l, Forall2 (fun (row : (nat -> C) * C) oi => (forall j, (j < P * s)%nat -> fst row j = dot oi (nth j os vzero)) /\ snd row = sumC (dot oi) os) rows l -> map (fun row => Cdiv (snd row) N) rows = map (fun oi => dot oi (mean_of os)) l).
    { induction 1 as [|row oi rs l (H1 & H2) F IH]; [reflexivity|]. cbn [map]. rewrite IH, H2, dot_mean. f_equal. unfold Cdiv. unfold N. rewrite n_inv. ring. } now apply K. }
  rewrite Em. destruct (Forall2_nth' _ _ _ (fun _ => RtoC 0, RtoC 0) vzero V i ltac:(lia)) as (F1 & _). rewrite F1 by (rewrite <- os_len; exact Hj).
  rewrite !(nth_indep _ (RtoC 0) (dot vzero (mean_of os))) by (rewrite map_length; assumption). rewrite !(map_nth (fun oi => dot oi (mean_of os))), sumC_map.
  unfold Cdiv, N. rewrite n_inv. unfold centred_gram, deviation. rewrite !dot_sub_l, !dot_sub_r, <- dot_conj.
  rewrite (mean_dot dim os (mean_of os)). unfold Csub. ring.
Qed.
End T.
