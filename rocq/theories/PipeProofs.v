(** The sampled tensors give the wave function of the PEPS. *)
From Coq Require Import List Arith Bool Reals Lia Lra.
From Verif Require Import Base Cplx SumModel SumSpec SumProofs NetSum TrgTensor BmpsModel BmpsSpec BmpsMain ProjModel ProjSpec ProjAlg ProjPatch ProjGrid ProjTps PipeModel PipeSpec.
Import ListNotations.
Local Open Scope nat_scope.

Section Pad.
Context {V : Type} (dec : forall x y : V, {x = y} + {x <> y}).
Lemma gsum_zero vs d f a : (forall a', (forall v, ~ In v vs -> a' v = a v) -> f a' = RtoC 0) -> gsum dec vs d f a = RtoC 0.
Proof.
  intros H. rewrite (gsum_ext dec vs d f (fun _ => RtoC 0)); [|intros a' E _; apply H; exact E]. clear H. revert a.
  induction vs as [|v vs IH]; intros a; [reflexivity|]. cbn [gsum]. apply sumC_zero. intros i _. apply IH.
Qed.
Lemma gsum_pad vs (d d' : V -> nat) f : NoDup vs -> (forall v, In v vs -> d v <= d' v) -> (forall a v, In v vs -> d v <= a v -> f a = RtoC 0) -> forall a, gsum dec vs d' f a = gsum dec vs d f a.
Proof.
  induction vs as [|v vs IH]; intros ND L Z a; [reflexivity|]. apply NoDup_cons_iff in ND. destruct ND as [NI ND]. cbn [gsum].
  replace (d' v) with (d v + (d' v - d v)) by (specialize (L v (or_introl eq_refl)); lia). rewrite seq_app, sumC_app, Nat.add_0_l.
  rewrite (sumC_zero _ (seq (d v) (d' v - d v))).
  - transitivity (sumC (fun i => gsum dec vs d' f (upd dec a v i)) (seq 0 (d v))); [ring|]. apply sumC_ext. intros i _. apply IH; [exact ND|intros w Hw; apply L; right; exact Hw|intros a' w Hw; apply Z; right; exact Hw].
  - intros i Hi. apply in_seq in Hi. apply gsum_zero. intros a' E. apply (Z a' v (or_introl eq_refl)). rewrite (E v NI), upd_same. lia.
Qed.
End Pad.

Lemma from_tps_shape T w s e n d i : shape T = [w; s; e; n; d] -> shape (from_tps T i) = [w; s; e; n].
Proof. destruct T as [sh f]. cbn [shape]. intros ->. reflexivity. Qed.
Lemma from_tps_entry T w s e n d i a b c x : shape T = [w; s; e; n; d] -> i < d -> entry (from_tps T i) [a; b; c; x] = entry T [a; b; c; x; i].
Proof.
  destruct T as [sh f]. cbn [shape]. intros -> Hi.
  transitivity (sumC (fun z => (f [a; b; c; x; z] * (if z =? i then RtoC 1 else RtoC 0))%C) (seq 0 d)); [reflexivity|].
  apply (sumC_pick (fun z => f [a; b; c; x; z]) d i Hi).
Qed.

Section Split.
Context (tol : R) (P : peps) (SO : sound tol P) (PER : p_per P = false) (D : nat) (BD : bonds_at_most D P).
Let F : fitted tol P := proj1 (sound_fitted tol P) SO.
Lemma tshape r c : r < p_rows P -> c < p_cols P -> shape (tps_tensor P r c) = [length (west P r c); length (south P r c); length (east P r c); length (north P r c); phys P r c].
Proof. intros Hr Hc. destruct F as (_ & SH & _). apply (tps_shape P r c); [apply SH; assumption|reflexivity..]. Qed.
Lemma sampled_in r c i a0 a1 a2 a3 : r < p_rows P -> c < p_cols P -> i < phys P r c ->
  a0 < length (west P r c) -> a1 < length (south P r c) -> a2 < length (east P r c) -> a3 < length (north P r c) ->
  sampled P r c i [a0; a1; a2; a3] = entry (tps_tensor P r c) [a0; a1; a2; a3; i].
Proof.
  intros Hr Hc Hi H0 H1 H2 H3. unfold sampled, elements, to_split_index. rewrite (from_tps_shape _ _ _ _ _ _ _ (tshape r c Hr Hc)). cbn [combine forallb fst snd].
  rewrite (proj2 (Nat.ltb_lt _ _) H0), (proj2 (Nat.ltb_lt _ _) H1), (proj2 (Nat.ltb_lt _ _) H2), (proj2 (Nat.ltb_lt _ _) H3). cbn [andb].
  apply (from_tps_entry _ _ _ _ _ _ _ _ _ _ _ (tshape r c Hr Hc) Hi).
Qed.
Lemma sampled_out r c i a0 a1 a2 a3 : r < p_rows P -> c < p_cols P -> length (south P r c) <= a1 \/ length (east P r c) <= a2 -> sampled P r c i [a0; a1; a2; a3] = RtoC 0.
Proof.
  intros Hr Hc H. unfold sampled, elements, to_split_index. rewrite (from_tps_shape _ _ _ _ _ _ _ (tshape r c Hr Hc)). cbn [combine forallb fst snd].
  destruct H as [H|H]; rewrite (proj2 (Nat.ltb_ge _ _) H), ?andb_false_r; cbn [andb]; rewrite ?andb_false_r; reflexivity.
Qed.
Lemma split_sum s : proper P s -> open_sum D (p_rows P) (p_cols P) (fun r c => sampled P r c (s r c)) = amplitude (to_tps P) s.
Proof.
  intros PR. pose proof F as (_ & SH & _ & OP). unfold open_sum, amplitude. cbn [to_tps l_rows l_cols l_per]. rewrite PER, !sum_over_gsum.
  assert (DM : forall b, In b (bonds (p_rows P) (p_cols P) false) -> bond_dim (to_tps P) b = length (lam_of P b)).
  { intros b Hb. assert (Hb' : In b (bs P)) by (rewrite PER; exact Hb). pose proof (proj1 (bonds_in _ _ _ _) Hb) as HB. destruct b as [r c|r c]; cbn in HB; cbn [bond_dim to_tps l_ten dim dims]; unfold dim; cbn [dims]; rewrite tshape by lia; cbn [firstn nth].
    - change (east P r c) with (wt P r c 2). rewrite (wt_bond P r c 2 (Hor r c)); [reflexivity|lia|lia|lia|apply end_left; exact Hb'].
    - change (south P r c) with (wt P r c 1). rewrite (wt_bond P r c 1 (Ver r c)); [reflexivity|lia|lia|lia|apply end_up; exact Hb']. }
  rewrite (gsum_pad bond_eq_dec _ (bond_dim (to_tps P))).
  - apply gsum_ext. intros a _ RG. unfold weight. cbn [to_tps l_rows l_cols l_per l_ten ent]. rewrite PER. apply prodC_ext. intros [r c] Hrc. apply grid_in in Hrc. destruct Hrc as [Hr Hc]. cbn [fst snd map app].
    assert (HA : forall l, l < 4 -> leg_value (p_rows P) (p_cols P) false a r c l < length (wt P r c l)).
    { intros l Hl. unfold leg_value. destruct (leg_bond (p_rows P) (p_cols P) false r c l) as [b|] eqn:Q.
      - rewrite (wt_bond P r c l b) by (try assumption; rewrite PER; exact Q). assert (Hb : In b (bonds (p_rows P) (p_cols P) false)) by (apply (leg_in _ _ _ r c l); assumption). rewrite <- (DM b Hb). apply RG. exact Hb.
      - rewrite (OP r c l Hr Hc Hl) by (rewrite PER; exact Q). cbn. lia. }
    apply sampled_in; [exact Hr|exact Hc|apply PR; assumption|exact (HA 0 ltac:(lia))|exact (HA 1 ltac:(lia))|exact (HA 2 ltac:(lia))|exact (HA 3 ltac:(lia))].
  - apply bonds_nodup.
  - intros b Hb. rewrite (DM b Hb). apply BD. rewrite PER. exact Hb.
  - intros a b Hb L. rewrite (DM b Hb) in L. assert (Hb' : In b (bs P)) by (rewrite PER; exact Hb). pose proof (proj1 (bonds_in _ _ _ _) Hb) as HB. destruct b as [r c|r c]; cbn in HB.
    + apply (prodC_zero _ _ (r, c)); [apply grid_in; lia|]. cbn [fst snd map]. apply sampled_out; [lia|lia|right].
      pose proof (end_left P r c Hb') as Q. rewrite PER in Q. unfold leg_value at 1. rewrite Q. change (east P r c) with (wt P r c 2). rewrite (wt_bond P r c 2 (Hor r c)); [exact L|lia|lia|lia|apply end_left; exact Hb'].
    + apply (prodC_zero _ _ (r, c)); [apply grid_in; lia|]. cbn [fst snd map]. apply sampled_out; [lia|lia|left].
      pose proof (end_up P r c Hb') as Q. rewrite PER in Q. unfold leg_value at 1. rewrite Q. change (south P r c) with (wt P r c 1). rewrite (wt_bond P r c 1 (Ver r c)); [exact L|lia|lia|lia|apply end_up; exact Hb'].
Qed.
Theorem split_wave s : nonnegative P -> proper P s -> open_sum D (p_rows P) (p_cols P) (fun r c => sampled P r c (s r c)) = wave P s.
Proof. intros W PR. rewrite (split_sum s PR). apply (to_tps_wave tol P s SO). exact W. Qed.
End Split.
