(** ToTPS gives the same state. *)
From Coq Require Import List Arith Bool Reals Lia Lra Permutation.
From Verif Require Import Base Cplx Rsum SumModel SumSpec SumProofs NetSum TrgTensor BmpsModel BmpsAlg ProjModel ProjSpec ProjAlg ProjPatch ProjGrid.
Import ListNotations.
Local Open Scope nat_scope.

Section Prod.
Context (h : nat -> C).
Lemma prod_shift n k : prodC (fun c => h (c - 1)) (seq (S k) n) = prodC h (seq k n).
Proof. revert k. induction n as [|n IH]; intros k; [reflexivity|]. cbn [seq]. rewrite !prodC_cons, IH. f_equal. f_equal. lia. Qed.
Lemma prod_next n (per : bool) : prodC (fun c => if (c + 1 <? n) || per then h c else RtoC 1) (seq 0 n) = prodC h (seq 0 (if per then n else n - 1)).
Proof.
  destruct per.
  - apply prodC_ext. intros c _. rewrite orb_true_r. reflexivity.
  - destruct n as [|n]; [reflexivity|]. rewrite seq_S, prodC_app. replace (S n - 1) with n by lia. rewrite prodC_cons. cbn [prodC fold_right]. replace (0 + n + 1 <? S n) with false by (symmetry; apply Nat.ltb_ge; lia). cbn [orb].
    rewrite (prodC_ext _ h); [ring|]. intros c Hc. apply in_seq in Hc. replace (c + 1 <? S n) with true by (symmetry; apply Nat.ltb_lt; lia). reflexivity.
Qed.
Lemma prod_prev n (per : bool) : prodC (fun c => if 0 <? c then h (c - 1) else if per then h (n - 1) else RtoC 1) (seq 0 n) = prodC h (seq 0 (if per then n else n - 1)).
Proof.
  destruct n as [|n]; [destruct per; reflexivity|]. cbn [seq]. rewrite prodC_cons. rewrite (prodC_ext _ (fun c => h (c - 1)) (seq 1 n)).
  2:{ intros c Hc. apply in_seq in Hc. replace (0 <? c) with true by (symmetry; apply Nat.ltb_lt; lia). reflexivity. }
  rewrite prod_shift. cbn [Nat.ltb Nat.leb]. replace (S n - 1) with n by lia. destruct per; [|ring]. change (0 :: seq 1 n) with (seq 0 (S n)). rewrite seq_S, prodC_app, prodC_cons. cbn [prodC fold_right Nat.add]. ring.
Qed.
End Prod.
Lemma prod_grid f R K : prodC f (grid R K) = prodC (fun r => prodC (fun c => f (r, c)) (seq 0 K)) (seq 0 R).
Proof. unfold grid. induction (seq 0 R) as [|r l IH]; [reflexivity|]. cbn [list_prod]. rewrite prodC_app, prodC_cons, IH, prodC_map. reflexivity. Qed.
Lemma prod_one {X} (l : list X) : prodC (fun _ => RtoC 1) l = RtoC 1.
Proof. induction l as [|x l IH]; [reflexivity|]. rewrite prodC_cons, IH. ring. Qed.
Lemma prod_swap {X Y} (f : X -> Y -> C) (l : list X) (l' : list Y) : prodC (fun x => prodC (fun y => f x y) l') l = prodC (fun y => prodC (fun x => f x y) l) l'.
Proof.
  induction l as [|x l IH]; [cbn; symmetry; apply prod_one|]. rewrite prodC_cons, IH, <- prodC_mul. apply prodC_ext. intros y _. rewrite prodC_cons. reflexivity.
Qed.
Definition half (R K : nat) (per : bool) (h : bond -> C) (r c l : nat) : C := match leg_bond R K per r c l with Some b => h b | None => RtoC 1 end.
(** every bond has two ends *)
Lemma two_ends R K per h :
  prodC (fun rc => half R K per h (fst rc) (snd rc) 0 * half R K per h (fst rc) (snd rc) 1 * half R K per h (fst rc) (snd rc) 2 * half R K per h (fst rc) (snd rc) 3)%C (grid R K)
  = prodC (fun b => h b * h b)%C (bonds R K per).
Proof.
  rewrite !prodC_mul. unfold bonds. rewrite !prodC_app, !prodC_map. unfold half. cbn [leg_bond].
  assert (E0 : prodC (fun rc => match (if 0 <? snd rc then Some (Hor (fst rc) (snd rc - 1)) else if per then Some (Hor (fst rc) (K - 1)) else None) with Some b => h b | None => RtoC 1 end) (grid R K) = prodC (fun rc => h (Hor (fst rc) (snd rc))) (grid R (if per then K else K - 1))).
  { rewrite !prod_grid. apply prodC_ext. intros r _. cbn [fst snd]. rewrite <- (prod_prev (fun c => h (Hor r c)) K per). apply prodC_ext. intros c _. destruct (0 <? c), per; reflexivity. }
  assert (E2 : prodC (fun rc => match (if (snd rc + 1 <? K) || per then Some (Hor (fst rc) (snd rc)) else None) with Some b => h b | None => RtoC 1 end) (grid R K) = prodC (fun rc => h (Hor (fst rc) (snd rc))) (grid R (if per then K else K - 1))).
  { rewrite !prod_grid. apply prodC_ext. intros r _. cbn [fst snd]. rewrite <- (prod_next (fun c => h (Hor r c)) K per). apply prodC_ext. intros c _. destruct (_ || _); reflexivity. }
  assert (E1 : prodC (fun rc => match (if (fst rc + 1 <? R) || per then Some (Ver (fst rc) (snd rc)) else None) with Some b => h b | None => RtoC 1 end) (grid R K) = prodC (fun rc => h (Ver (fst rc) (snd rc))) (grid (if per then R else R - 1) K)).
  { rewrite !prod_grid, prod_swap, (prod_swap (fun r c => h (Ver (fst (r, c)) (snd (r, c))))). apply prodC_ext. intros c _. cbn [fst snd]. rewrite <- (prod_next (fun r => h (Ver r c)) R per). apply prodC_ext. intros r _. destruct (_ || _); reflexivity. }
  assert (E3 : prodC (fun rc => match (if 0 <? fst rc then Some (Ver (fst rc - 1) (snd rc)) else if per then Some (Ver (R - 1) (snd rc)) else None) with Some b => h b | None => RtoC 1 end) (grid R K) = prodC (fun rc => h (Ver (fst rc) (snd rc))) (grid (if per then R else R - 1) K)).
  { rewrite !prod_grid, prod_swap, (prod_swap (fun r c => h (Ver (fst (r, c)) (snd (r, c))))). apply prodC_ext. intros c _. cbn [fst snd]. rewrite <- (prod_prev (fun r => h (Ver r c)) R per). apply prodC_ext. intros r _. destruct (0 <? r), per; reflexivity. }
  rewrite E0, E1, E2, E3. ring.
Qed.

Section Root.
Context (P : peps) (r c W S E N d : nat).
Context (Sh : shape (gamma P r c) = [W; S; E; N; d]).
Context (LW : length (west P r c) = W) (LS : length (south P r c) = S) (LE : length (east P r c) = E) (LN : length (north P r c) = N).
Let rt (s : list R) := map sqrt s.
Ltac open_ := revert Sh; destruct (gamma P r c) as [sh g]; cbn [shape entry] in *; intros ->.
Lemma tps_shape : shape (tps_tensor P r c) = [W; S; E; N; d].
Proof. unfold tps_tensor. open_. rewrite <- LW, <- LS, <- LE, <- LN, <- (map_length sqrt (west P r c)), <- (map_length sqrt (south P r c)), <- (map_length sqrt (east P r c)), <- (map_length sqrt (north P r c)). reflexivity. Qed.
Lemma tps_entry w s e n p : w < W -> s < S -> e < E -> n < N ->
  entry (tps_tensor P r c) [w; s; e; n; p] = (entry (gamma P r c) [w; s; e; n; p] * el (rt (north P r c)) n * el (rt (east P r c)) e * el (rt (south P r c)) s * el (rt (west P r c)) w)%C.
Proof.
  intros Hw Hs He Hn. unfold tps_tensor. open_. set (rw := map sqrt (west P r c)). set (rs := map sqrt (south P r c)). set (re := map sqrt (east P r c)). set (rn := map sqrt (north P r c)).
  transitivity (sm (length rw) (fun w' => (dl rw w w' * sm (length rs) (fun s' => (dl rs s' s * sm (length re) (fun e' => (dl re e' e * sm (length rn) (fun n' => (dl rn n n' * g [w'; s'; e'; n'; p])%C))%C))%C))%C)); [reflexivity|].
  assert (length rw = W /\ length rs = S /\ length re = E /\ length rn = N) as (-> & -> & -> & ->) by (unfold rw, rs, re, rn; rewrite !map_length; auto).
  rewrite at_sm' by exact Hw. rewrite at_sm by exact Hs. rewrite at_sm by exact He. rewrite at_sm' by exact Hn. reflexivity.
Qed.
End Root.

Lemma sqrt_el s i : Forall (fun x => (0 <= x)%R) s -> i < length s -> (el (map sqrt s) i * el (map sqrt s) i)%C = el s i.
Proof.
  intros F H. unfold el. rewrite <- RtoC_mul. f_equal. rewrite (nth_indep (map sqrt s) 0%R (sqrt 0)) by (rewrite map_length; exact H). rewrite map_nth. apply sqrt_sqrt. rewrite Forall_forall in F. apply F. apply nth_In. exact H.
Qed.
Theorem to_tps_wave tol P s : sound tol P -> (forall b, In b (bs P) -> Forall (fun x => (0 <= x)%R) (lam_of P b)) -> amplitude (to_tps P) s = wave P s.
Proof.
  intros F PO. apply sound_fitted in F. pose proof F as (T & SH & KE & OP).
  unfold amplitude, wave. cbn [to_tps l_rows l_cols l_per]. rewrite !sum_over_gsum.
  transitivity (gs (bs P) (fun b => length (lam_of P b)) (weight (to_tps P) s) (fun _ => 0)).
  - apply gsum_dims. intros b Hb. pose proof (proj1 (bonds_in _ _ _ _) Hb) as HB. destruct b as [r c|r c]; cbn in HB; cbn [bond_dim to_tps l_ten dim dims].
    + destruct HB as [Hr Hc0]. destruct (next_row _ _ _ Hc0) as (Hc & _). rewrite (tps_shape P r c _ _ _ _ _ (SH r c Hr Hc) eq_refl eq_refl eq_refl eq_refl). cbn [firstn nth]. rewrite (wt_bond P r c 2 (Hor r c)); [reflexivity|assumption|assumption|lia|apply end_left; exact Hb].
    + destruct HB as [Hr0 Hc]. destruct (next_row _ _ _ Hr0) as (Hr & _). rewrite (tps_shape P r c _ _ _ _ _ (SH r c Hr Hc) eq_refl eq_refl eq_refl eq_refl). cbn [firstn nth]. rewrite (wt_bond P r c 1 (Ver r c)); [reflexivity|assumption|assumption|lia|apply end_up; exact Hb].
  - apply gsum_ext. intros a _ RG. unfold weight. cbn [to_tps l_rows l_cols l_per l_ten ent].
    set (h := fun b => el (map sqrt (lam_of P b)) (a b)).
    assert (HA : forall r c l, r < p_rows P -> c < p_cols P -> l < 4 -> lv P a r c l < length (wt P r c l) /\ el (map sqrt (wt P r c l)) (lv P a r c l) = half (p_rows P) (p_cols P) (p_per P) h r c l).
    { intros r c l Hr Hc Hl. unfold half, leg_value. destruct (lb P r c l) as [b|] eqn:Q.
      - rewrite (wt_bond P r c l b) by assumption. split; [|reflexivity]. apply RG. apply (leg_in _ _ _ r c l); assumption.
      - rewrite (OP r c l Hr Hc Hl Q). cbn. split; [lia|]. unfold el. cbn [nth map]. rewrite sqrt_1. reflexivity. }
    transitivity (prodC (fun rc => site_of P s a rc * (half (p_rows P) (p_cols P) (p_per P) h (fst rc) (snd rc) 0 * half (p_rows P) (p_cols P) (p_per P) h (fst rc) (snd rc) 1 * half (p_rows P) (p_cols P) (p_per P) h (fst rc) (snd rc) 2 * half (p_rows P) (p_cols P) (p_per P) h (fst rc) (snd rc) 3))%C (grid (p_rows P) (p_cols P))).
    + apply prodC_ext. intros [r c] Hrc. apply grid_in in Hrc. destruct Hrc as [Hr Hc]. cbn [fst snd map app]. rewrite (tps_entry P r c _ _ _ _ _ (SH r c Hr Hc) eq_refl eq_refl eq_refl eq_refl); [|exact (proj1 (HA r c 0 Hr Hc ltac:(lia)))|exact (proj1 (HA r c 1 Hr Hc ltac:(lia)))|exact (proj1 (HA r c 2 Hr Hc ltac:(lia)))|exact (proj1 (HA r c 3 Hr Hc ltac:(lia)))].
      rewrite <- (proj2 (HA r c 0 Hr Hc ltac:(lia))), <- (proj2 (HA r c 1 Hr Hc ltac:(lia))), <- (proj2 (HA r c 2 Hr Hc ltac:(lia))), <- (proj2 (HA r c 3 Hr Hc ltac:(lia))). unfold site_of, index_at. cbn [fst snd map app wt]. ring.
    + rewrite prodC_mul. unfold site_of. f_equal. rewrite two_ends. apply prodC_ext. intros b Hb. unfold h. apply sqrt_el; [apply PO; exact Hb|apply RG; exact Hb].
Qed.
Theorem tps_same : forall tol P, sound tol P -> (forall b, In b (bs P) -> Forall (fun x => (0 <= x)%R) (lam_of P b)) -> forall s, amplitude (to_tps P) s = wave P s.
Proof. intros tol P S W s. apply (to_tps_wave tol); assumption. Qed.
