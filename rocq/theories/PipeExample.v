(** Lattices and evolutions that meet the conditions. *)
From Coq Require Import List Arith Bool Reals Lia Lra.
From Verif Require UpdaterChain.
From Verif Require Import Base Cplx UpdaterSpec UpdaterChain EnergySpec ExactSpec SumModel SumSpec SumProofs TrgTensor BmpsSpec BmpsMain ProjModel ProjSpec ProjNullSpec ProjExample ProjNullExample PipeModel PipeSpec.
Import ListNotations.
Local Open Scope nat_scope.

Lemma plain_nonnegative : svd_nonnegative ProjExample.plain_svd.
Proof. intros n T. cbn [ProjExample.plain_svd fst snd]. apply Forall_forall. intros x Hx. apply repeat_spec in Hx. subst. lra. Qed.
Lemma two_nonnegative : nonnegative two.
Proof.
  intros b Hb. apply bonds_in in Hb. cbn in Hb. destruct b as [r c|r c]; cbn [lam_of two lam_h lam_v p_rows p_cols].
  - assert (c = 0) by lia. subst. cbn [Nat.add]. change (1 mod 2) with 1. destruct r as [|r]; repeat constructor; lra.
  - repeat constructor; lra.
Qed.
Lemma two_spins : spins two.
Proof. intros r c Hr Hc. cbn in Hr, Hc. destruct r as [|[|r]]; [| |lia]; (destruct c as [|[|c]]; [| |lia]); reflexivity. Qed.
Lemma mixed_good : good_evolution ProjExample.plain_qr ProjExample.plain_svd (1/2) mixed two.
Proof.
  split; [exact ProjExample.plain_qr_exact|]. split; [exact plain_nonnegative|]. split; [exact two_sound|]. split; [reflexivity|]. split; [exact two_nonnegative|]. split; [exact mixed_fit|].
  split; [exists 64; split; [apply ProjExample.plain_svd_exact|exact mixed_uncut]|exact mixed_nonzero].
Qed.
(** there always is a D *)
Lemma some_bond P : exists D, 1 <= D /\ bonds_at_most D P.
Proof.
  unfold bonds_at_most. induction (bonds (p_rows P) (p_cols P) (p_per P)) as [|b l (D & D1 & H)]; [exists 1; split; [lia|intros b []]|].
  exists (Nat.max D (length (lam_of P b))). split; [lia|]. intros b' [<-|Hb]; [lia|]. specialize (H b' Hb). lia.
Qed.
Lemma some_contraction D rows cols : 1 <= D -> good_contraction D BmpsMain.plain_qr BmpsMain.plain_svd rows cols.
Proof. intros D1. split; [exact D1|]. split; [exact BmpsMain.plain_qr_exact|]. exists (D ^ (Nat.max rows cols - 1)). split; [apply BmpsMain.plain_svd_keeps|lia]. Qed.

(** four sites, each in the sum of its two states; a gate that permutes basis states *)
Definition plus : peps := Peps 2 2 false (fun _ _ => Tn [1; 1; 1; 1; 2] (fun _ => RtoC 1)) (fun _ _ => [1%R]) (fun _ _ => [1%R]).
Definition flip : list (call * tensor * option tensor) := [(Row 0 0, cnot, None)].
Lemma plus_wave s : wave plus s = RtoC 1.
Proof. unfold wave. cbn -[Cmul Cadd RtoC C]. unfold prodC. cbn -[Cmul Cadd RtoC C]. apply injective_projections; cbn; ring. Qed.
Lemma plus_sound : sound (1/2) plus.
Proof.
  split; [lra|]. assert (K1 : kept (1/2) [1%R]) by (intros x [<-|[]]; right; rewrite Rabs_pos_eq; lra). split.
  - intros r c _ _. split; [reflexivity|]. repeat split; exact K1.
  - intros _ r c _ _. repeat split.
Qed.
Lemma plus_spins : spins plus.
Proof. intros r c _ _. reflexivity. Qed.
Lemma flip_value s : proper plus s -> acts 2 2 flip (wave plus) s = RtoC 1.
Proof.
  intros PR. cbn [acts flip]. unfold act. cbn [sites_of]. unfold gate2. cbn [fst snd cnot dimat shape nth seq entry]. unfold next. change ((0 + 1) mod 2) with 1.
  pose proof (PR 0 0 ltac:(cbn; lia) ltac:(cbn; lia)) as A. pose proof (PR 0 1 ltac:(cbn; lia) ltac:(cbn; lia)) as B. cbn in A, B.
  destruct (s 0 0) as [|[|x]]; [| |lia]; (destruct (s 0 1) as [|[|y]]; [| |lia]); rewrite !sumC_cons, !sumC_nil; rewrite ?plus_wave; cbn [Nat.eqb andb Nat.add Nat.modulo Nat.divmod fst snd Nat.sub]; apply injective_projections; cbn; ring.
Qed.
Lemma flip_good : good_evolution ProjExample.plain_qr ProjExample.plain_svd (1/2) flip plus.
Proof.
  split; [exact ProjExample.plain_qr_exact|]. split; [exact plain_nonnegative|]. split; [exact plus_sound|]. split; [reflexivity|]. split.
  { intros [r c|r c] _; cbn; repeat constructor; lra. }
  split.
  { intros o g h [Q|[]]; injection Q as <- <- <-. split; [|reflexivity]. split; [|cbn; repeat constructor; cbn; intuition congruence]. intros b [<-|[]]; apply bonds_in; cbn; lia. }
  split.
  - exists 64. split; [apply ProjExample.plain_svd_exact|]. cbn [uncut flip]. split; [cbn; lia|]. split; [|exact I]. intros b [<-|[]]. all_ones.
  - exists (fun _ _ => 0). assert (PR : proper plus (fun _ _ => 0)) by (intros r c _ _; cbn; lia). split; [exact PR|]. cbn [plus p_rows p_cols]. fold plus. rewrite (flip_value _ PR). intros Q. apply (f_equal fst) in Q. cbn in Q. lra.
Qed.
Lemma flip_everywhere S : In S (all_configs 2 4) -> row_by_row 2 (acts 2 2 flip (wave plus)) S <> RtoC 0.
Proof.
  intros I. unfold row_by_row. rewrite flip_value.
  - intros Q. apply (f_equal fst) in Q. cbn in Q. lra.
  - intros r c Hr Hc. cbn in Hr, Hc. change (nth (r * 2 + c) S 0 < 2). apply all_configs_in in I. destruct I as [L F]. rewrite Forall_forall in F. apply F. apply nth_In. lia.
Qed.
Lemma all_sector jz jxy jz2 jxy2 p : sector 2 4 (H_xxz 2 2 jz jxy jz2 jxy2 p) (all_configs 2 4).
Proof. split; [discriminate|]. split; [apply UpdaterChain.all_configs_nodup|]. split; [apply incl_refl|]. intros S S' _ H N. contradiction. Qed.
