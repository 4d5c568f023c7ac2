(** On the triangular lattice the operators of each half of a sweep add up to the Hamiltonian. *)
From Coq Require Import List Arith Bool Reals Lia Lra Permutation.
From Verif Require Import Base Cplx SumModel SumSpec SumProofs NetSum PbcProofs TrgTensor BmpsSum ProjModel ProjSpec ProjWave ProjTri ProjSteps ExpModel ExpSpec ExpAlg ExpOp ExpMain ExpTotal TriSweepModel TriSweepSpec TriSweepSeries TriSweepTerm TriSweepMain TriSweepTotal TriSweepRun.
Import ListNotations.
Local Open Scope nat_scope.

Lemma sum_first (f : nat -> C) n : sumC f (seq 0 (S n)) = Cadd (f 0) (sumC (fun i => f (S i)) (seq 0 n)).
Proof. cbn [seq]. rewrite sumC_cons. f_equal. rewrite <- seq_shift, sumC_map. apply sumC_ext. intros i _. reflexivity. Qed.
Lemma sum_last (f : nat -> C) n : sumC f (seq 0 (S n)) = (sumC f (seq 0 n) + f n)%C.
Proof. rewrite seq_S, sumC_app, sumC_cons, sumC_nil. cbn [Nat.add]. ring. Qed.

Section Halves.
Context (e : tri_executor) (P : peps) (HR : 1 <= p_rows P) (HK : 1 <= p_cols P) (psi : basis -> C) (s : basis) (RP : respects psi) (Hs : proper P s).
Context (TF : tri_fit e P) (TP : three_pairs e) (EX : exchangeable (y_nn e)).
Notation d z := (phys P (fst z) (snd z)).
Definition pr x y : C := term (y_nn e) [d x; d y] [x; y] psi s.
Definition site_ok (x : nat * nat) : Prop := fst x < p_rows P /\ snd x < p_cols P.
Lemma turn x y : site_ok x -> site_ok y -> x <> y -> pr x y = pr y x.
Proof. intros [X1 X2] [Y1 Y2] N. destruct TF as (d0 & HD & _). unfold pr. rewrite (HD (fst x) (snd x)), (HD (fst y) (snd y)) by assumption. apply exchange; assumption. Qed.
Lemma tri_pairs a b c : site_ok a -> site_ok b -> site_ok c -> a <> b -> b <> c -> a <> c -> piece_operator e P (Tri a b c) psi s = (pr a b + pr b c + pr a c)%C.
Proof.
  intros [A1 A2] [B1 B2] [C1 C2] Nab Nbc Nac. destruct TF as (d0 & HD & _). cbn [piece_operator]. unfold pr. rewrite !(HD (fst a) (snd a)), !(HD (fst b) (snd b)), !(HD (fst c) (snd c)) by assumption.
  assert (Va : s (fst a) (snd a) < d0) by (rewrite <- (HD _ _ A1 A2); apply Hs; assumption). assert (Vb : s (fst b) (snd b) < d0) by (rewrite <- (HD _ _ B1 B2); apply Hs; assumption). assert (Vc : s (fst c) (snd c) < d0) by (rewrite <- (HD _ _ C1 C2); apply Hs; assumption).
  rewrite (three_term s psi RP a b c Nab Nbc Nac d0 Va Vb Vc (y_tri e) (fun i k => (RtoC 1 * entry (y_nn e) [i; s (fst a) (snd a); k; s (fst c) (snd c)])%C) (fun i j => (RtoC 1 * entry (y_nn e) [i; s (fst a) (snd a); j; s (fst b) (snd b)])%C) (fun j k => (RtoC 1 * entry (y_nn e) [j; s (fst b) (snd b); k; s (fst c) (snd c)])%C) (fun _ => RtoC 0) (fun _ => RtoC 0) (fun _ => RtoC 0)).
  - rewrite !(two_S2 s psi d0 (y_nn e)). rewrite !(sumC_zero (fun i => (RtoC 0 * _)%C)) by (intros; ring). ring.
  - intros i j k. rewrite (TP i (s (fst a) (snd a)) j (s (fst b) (snd b)) k (s (fst c) (snd c))). unfold dl. ring.
Qed.
Definition hor (r c : nat) := pr (r, c) (r, c + 1).
Definition ver (r c : nat) := pr (r, c) (r + 1, c).
Definition dia (r c : nat) := pr (r + 1, c) (r, c + 1).
Lemma edge_h r c : c + 1 < p_cols P -> piece_operator e P (Edge (Hor r c)) psi s = hor r c.
Proof. intros H. cbn [piece_operator ends]. rewrite (Nat.mod_small (c + 1)) by exact H. reflexivity. Qed.
Lemma edge_v r c : r + 1 < p_rows P -> piece_operator e P (Edge (Ver r c)) psi s = ver r c.
Proof. intros H. cbn [piece_operator ends]. rewrite (Nat.mod_small (r + 1)) by exact H. reflexivity. Qed.
Ltac at_sites := unfold site_ok; cbn [fst snd]; lia.
Ltac apart := let Q := fresh in intros Q; apply pair_equal_spec in Q; lia.
Lemma lower_right r c : r + 1 < p_rows P -> c + 1 < p_cols P -> piece_operator e P (Tri (r, c + 1) (r + 1, c + 1) (r + 1, c)) psi s = (ver r (S c) + hor (S r) c + dia r c)%C.
Proof.
  intros H1 H2. rewrite tri_pairs by (at_sites || apart). rewrite (turn (r + 1, c + 1) (r + 1, c)) by (at_sites || apart). rewrite (turn (r, c + 1) (r + 1, c)) by (at_sites || apart). unfold hor, ver, dia. rewrite <- ?(Nat.add_1_r r), <- ?(Nat.add_1_r c). reflexivity.
Qed.
Lemma upper_left r c : r + 1 < p_rows P -> c + 1 < p_cols P -> piece_operator e P (Tri (r, c + 1) (r, c) (r + 1, c)) psi s = (hor r c + ver r c + dia r c)%C.
Proof.
  intros H1 H2. rewrite tri_pairs by (at_sites || apart). rewrite (turn (r, c + 1) (r, c)) by (at_sites || apart). rewrite (turn (r, c + 1) (r + 1, c)) by (at_sites || apart). unfold hor, ver, dia. rewrite <- ?(Nat.add_1_r r), <- ?(Nat.add_1_r c). reflexivity.
Qed.
Lemma total : triangular_hamiltonian e P psi s =
  (sumC (fun c => sumC (fun r => hor r c) (seq 0 (p_rows P))) (seq 0 (p_cols P - 1)) + sumC (fun c => sumC (fun r => ver r c) (seq 0 (p_rows P - 1))) (seq 0 (p_cols P)) +
   sumC (fun c => sumC (fun r => dia r c) (seq 0 (p_rows P - 1))) (seq 0 (p_cols P - 1)))%C.
Proof.
  unfold triangular_hamiltonian, bonds. rewrite sumC_app, !sumC_map. unfold grid. rewrite !sumC_prod. cbn [ends].
  rewrite (sumC_swap (fun c r => hor r c)), (sumC_swap (fun c r => ver r c)), (sumC_swap (fun c r => dia r c)). apply (f_equal2 Cadd); [apply (f_equal2 Cadd)|reflexivity].
  - apply sumC_ext. intros r _. apply sumC_ext. intros c Hc. apply in_seq in Hc. rewrite (Nat.mod_small (c + 1)) by lia. reflexivity.
  - apply sumC_ext. intros r Hr. apply in_seq in Hr. apply sumC_ext. intros c _. rewrite (Nat.mod_small (r + 1)) by lia. reflexivity.
Qed.
Theorem first_total : sumC (fun q => piece_operator e P q psi s) (first_pieces (p_rows P) (p_cols P)) = triangular_hamiltonian e P psi s.
Proof.
  rewrite total. unfold first_pieces. rewrite sumC_app, sumC_map, sumC_flat_map.
  rewrite (sumC_ext _ (fun r => ver r 0)) by (intros r Hr; apply in_seq in Hr; apply edge_v; lia).
  rewrite (sumC_ext (fun c => sumC _ _) (fun c => (hor 0 c + (sumC (fun r => ver r (S c)) (seq 0 (p_rows P - 1)) + sumC (fun r => hor (S r) c) (seq 0 (p_rows P - 1)) + sumC (fun r => dia r c) (seq 0 (p_rows P - 1))))%C)).
  2:{ intros c Hc. apply in_seq in Hc. rewrite sumC_cons, sumC_map, edge_h by lia. f_equal. rewrite <- !sumC_add. apply sumC_ext. intros r Hr. apply in_seq in Hr. apply lower_right; lia. }
  replace (seq 0 (p_cols P)) with (seq 0 (S (p_cols P - 1))) by (f_equal; lia). replace (seq 0 (p_rows P)) with (seq 0 (S (p_rows P - 1))) by (f_equal; lia).
  rewrite sum_first, !sumC_add. rewrite (sumC_ext (fun c => sumC (fun r => hor r c) (seq 0 (S (p_rows P - 1)))) (fun c => (hor 0 c + sumC (fun r => hor (S r) c) (seq 0 (p_rows P - 1)))%C)) by (intros c _; exact (sum_first (fun r => hor r c) _)).
  rewrite sumC_add. ring.
Qed.
Theorem second_total : sumC (fun q => piece_operator e P q psi s) (second_pieces (p_rows P) (p_cols P)) = triangular_hamiltonian e P psi s.
Proof.
  rewrite total. unfold second_pieces. rewrite sumC_app, sumC_map, sumC_flat_map.
  rewrite (sumC_ext (fun r => piece_operator _ _ _ _ _) (fun r => ver r (p_cols P - 1))) by (intros r Hr; apply in_seq in Hr; apply edge_v; lia).
  rewrite (sumC_ext (fun c => sumC _ _) (fun c => ((sumC (fun r => hor r c) (seq 0 (p_rows P - 1)) + sumC (fun r => ver r c) (seq 0 (p_rows P - 1)) + sumC (fun r => dia r c) (seq 0 (p_rows P - 1))) + hor (p_rows P - 1) c)%C)).
  2:{ intros c Hc. apply in_seq in Hc. rewrite sumC_app, sumC_map, sumC_cons, sumC_nil, edge_h by lia. rewrite <- !sumC_add. transitivity (sumC (fun r => (hor r c + ver r c + dia r c)%C) (seq 0 (p_rows P - 1)) + hor (p_rows P - 1) c)%C; [|reflexivity].
      transitivity (sumC (fun r => (hor r c + ver r c + dia r c)%C) (seq 0 (p_rows P - 1)) + (hor (p_rows P - 1) c + RtoC 0))%C; [|ring]. f_equal. apply sumC_ext. intros r Hr. apply in_seq in Hr. apply upper_left; lia. }
  replace (seq 0 (p_cols P)) with (seq 0 (S (p_cols P - 1))) by (f_equal; lia). replace (seq 0 (p_rows P)) with (seq 0 (S (p_rows P - 1))) by (f_equal; lia).
  rewrite sum_last, !sumC_add. rewrite (sumC_ext (fun c => sumC (fun r => hor r c) (seq 0 (S (p_rows P - 1)))) (fun c => (sumC (fun r => hor r c) (seq 0 (p_rows P - 1)) + hor (p_rows P - 1) c)%C)) by (intros c _; exact (sum_last (fun r => hor r c) _)).
  rewrite sumC_add. ring.
Qed.
End Halves.
Theorem halves_total e P : 1 <= p_rows P -> 1 <= p_cols P -> forall psi s, respects psi -> proper P s -> tri_fit e P -> three_pairs e -> exchangeable (y_nn e) ->
  sumC (fun q => piece_operator e P q psi s) (first_pieces (p_rows P) (p_cols P)) = triangular_hamiltonian e P psi s /\
  sumC (fun q => piece_operator e P q psi s) (second_pieces (p_rows P) (p_cols P)) = triangular_hamiltonian e P psi s.
Proof. intros HR HK psi s RP Hs TF TP EX. split; [exact (first_total e P HR HK psi s RP Hs TF TP EX)|exact (second_total e P HR HK psi s RP Hs TF TP EX)]. Qed.
