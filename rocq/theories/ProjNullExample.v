(** Cases that meet the hypotheses of the theorems about norms. *)
From Coq Require Import List Arith Bool Reals Lia Lra.
From Verif Require Import Base Cplx SumModel SumSpec SumProofs TrgTensor ContractorModel BmpsModel BmpsMain ProjModel ProjSpec ProjExample ProjNullSpec.
Import ListNotations.
Local Open Scope nat_scope.

(** decompositions that lose nothing and have no more columns than needed: one factor is an identity *)
Definition short_qr (T : tensor) : tensor * tensor :=
  let f := [dimat T 0; dimat T 1; dimat T 2] in
  if dimat T 3 * dimat T 4 <=? size f then plain_qr T
  else (Tn (f ++ [size f]) (fun ix => if nth 3 ix 0 =? join f (firstn 3 ix) then RtoC 1 else RtoC 0),
        Tn [size f; dimat T 3; dimat T 4] (fun ix => entry T (cut f (nth 0 ix 0) ++ tl ix))).
Definition short_svd (n : nat) (T : tensor) : tensor * list R * tensor :=
  let f := firstn n (shape T) in let sh := skipn n (shape T) in
  if size sh <=? size f then plain_svd n T
  else (Tn (f ++ [size f]) (fun ix => if nth n ix 0 =? join f (firstn n ix) then RtoC 1 else RtoC 0), repeat 1%R (size f), Tn (size f :: sh) (fun ix => entry T (cut f (nth 0 ix 0) ++ tl ix))).
Lemma short_qr_exact : qr_exact short_qr.
Proof.
  intros T L. unfold short_qr. destruct (_ <=? _) eqn:E; [exact (plain_qr_exact T L)|]. apply Nat.leb_gt in E. set (f := [dimat T 0; dimat T 1; dimat T 2]) in *. exists (size f). split; [reflexivity|]. split; [reflexivity|]. split; [lia|]. intros a b c x y Ha Hb Hc Hx Hy.
  assert (IF : inside f [a; b; c]) by (repeat constructor; assumption). cbn [entry nth firstn tl].
  transitivity (entry T (cut f (join f [a; b; c]) ++ [x; y])); [rewrite (cut_join _ _ IF); reflexivity|].
  rewrite <- (sumC_pick (fun z => entry T (cut f z ++ [x; y])) (size f) (join f [a; b; c]) (join_lt _ _ IF)). apply sumC_ext. intros z _. destruct (z =? _); ring.
Qed.
Lemma short_svd_exact m : svd_up_to m short_svd.
Proof.
  intros n T L M. unfold short_svd. destruct (_ <=? _) eqn:E; [exact (plain_svd_exact m n T L M)|]. set (f := firstn n (shape T)) in *. set (sh := skipn n (shape T)) in *. rewrite repeat_length. split; [reflexivity|]. split; [reflexivity|]. intros ix jx Hi Hj. cbn [entry].
  pose proof (inside_length _ _ Hi) as LI. assert (LF : length f = n) by (apply firstn_length_le; exact L). rewrite LF in LI.
  transitivity (entry T (cut f (join f ix) ++ jx)); [rewrite (cut_join _ _ Hi); reflexivity|].
  rewrite <- (sumC_pick (fun z => entry T (cut f z ++ jx)) (size f) (join f ix) (join_lt _ _ Hi)). apply sumC_ext. intros x Hx. apply in_seq in Hx. cbn [nth tl].
  assert (E1 : nth x (repeat 1%R (size f)) 0%R = 1%R) by (rewrite (nth_indep _ 0%R 1%R) by (rewrite repeat_length; lia); apply nth_repeat).
  rewrite E1. rewrite firstn_app, app_nth2 by lia. replace (n - length ix) with 0 by lia. cbn [nth firstn]. rewrite app_nil_r, firstn_all2 by lia. destruct (x =? _); ring.
Qed.

(** gates on three sites and on two *)
Definition mixed : list (call * tensor * option tensor) := [(UpperRight 0 1, cnot3, None); (Row 1 0, cnot, None)].
Lemma mixed_fit : calls_fit two mixed.
Proof.
  intros o g h [Q|[Q|[]]]; injection Q as <- <- <-; (split; [|reflexivity]); (split; [cbn [bonds_of sites_of]|cbn; repeat constructor; cbn; intuition congruence]).
  - intros b [<-|[<-|[]]]; apply bonds_in; cbn; lia.
  - intros b [<-|[]]; apply bonds_in; cbn; lia.
Qed.
Lemma mixed_uncut : uncut plain_qr plain_svd (1/2) 64 two mixed.
Proof.
  cbn [uncut mixed]. split; [cbn; lia|]. split; [intros b [<-|[<-|[]]]; all_ones|]. split; [vm_compute; lia|]. split; [|exact I]. intros b [<-|[]].
  match goal with |- kept _ ?s => let n := eval lazy in (length s) in change s with (repeat 1%R n); apply ones; lra end.
Qed.
Lemma mixed_nonzero : exists s, proper two s /\ acts 2 2 mixed (wave two) s <> RtoC 0.
Proof.
  exists (fun _ _ => 0). split.
  - intros r c Hr Hc. cbn in Hr, Hc. destruct r as [|[|r]]; [| |lia]; (destruct c as [|[|c]]; [| |lia]); cbn; lia.
  - apply one_nonzero. go.
Qed.
(** a projector on |11>; the lower sites are in the state |00> *)
Definition both : tensor := Tn [2; 2; 2; 2] (fun ix => if forallb (Nat.eqb 1) ix then RtoC 1 else RtoC 0).
Lemma both_gone : valid two (Row 1 0) /\ gate_fits two (Row 1 0) both /\ r_norm (project short_qr short_svd (1/2) two (Row 1 0) both None) = 0%R.
Proof.
  split; [split; [intros b [<-|[]]; apply bonds_in; cbn; lia|cbn; repeat constructor; cbn; intuition congruence]|]. split; [reflexivity|].
  transitivity (sqrt 0); [|apply sqrt_0]. cbn [project]. change (r_norm _) with (tnorm (contract (cyc (contract (snd (short_qr (eat3 two 1 0 RIGHT))) [2] (diag [1%R]) [0]) 2 (snd (short_qr (eat3 two 1 1 LEFT))) 2 1) [1; 3] both [0; 1])). unfold tnorm. apply f_equal. vm_compute. ring.
Qed.
