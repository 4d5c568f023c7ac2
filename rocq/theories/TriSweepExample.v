(** Cases that meet the hypotheses, and on-site terms that do not add up. *)
From Coq Require Import List Arith Bool Reals Lia Lra.
From Verif Require Import Base Cplx Rsum SumModel SumSpec SumProofs TrgTensor ContractorModel BmpsModel BmpsMain ProjModel ProjSpec ProjWave ProjExample ProjNullSpec ProjNull ProjNullExample ExpModel ExpSpec ExpAlg ExpOp ExpMain ExpExample TriSweepModel TriSweepSpec TriSweepSeries TriSweepTerm TriSweepMain TriSweepTotal TriSweepRun.
Import ListNotations.
Local Open Scope nat_scope.

Definition none : basis := fun _ _ => 0.
Lemma none_proper : proper two none.
Proof. intros r c Hr Hc. cbn in Hr, Hc. destruct r as [|[|r]]; [| |lia]; (destruct c as [|[|c]]; [| |lia]); vm_compute; lia. Qed.
(** gates that keep |00> or |000> *)
Definition keeps2 (g : tensor) : Prop := shape g = [2; 2; 2; 2] /\ forall i j, i < 2 -> j < 2 -> entry g [i; j; 0; 0] = if (i =? 0) && (j =? 0) then RtoC 1 else RtoC 0.
Definition keeps3 (g : tensor) : Prop := shape g = [2; 2; 2; 2; 2; 2] /\ forall i j k, i < 2 -> j < 2 -> k < 2 -> entry g [i; j; k; 0; 0; 0] = if (i =? 0) && (j =? 0) && (k =? 0) then RtoC 1 else RtoC 0.
Definition keeps_at (o : call) (g : tensor) : Prop := match o with Row _ _ | Col _ _ => keeps2 g | _ => keeps3 g end.
Lemma still_none x : forall r c, at_site none x 0 r c = none r c.
Proof. intros r c. unfold at_site, none. destruct (_ && _); reflexivity. Qed.
Lemma act_none R K o g psi : respects psi -> keeps_at o g -> act R K o g psi none = psi none.
Proof.
  intros RP KP.
  assert (Two : forall x y, keeps2 g -> gate2 g x y psi none = psi none).
  { intros x y [SG E]. unfold gate2. rewrite !(dimat_shape g _ _ SG). cbn [nth seq]. rewrite !sumC_cons, !sumC_nil. change (none (fst x) (snd x)) with 0. change (none (fst y) (snd y)) with 0. rewrite !E by lia. cbn [Nat.eqb andb].
    rewrite (RP (at_site (at_site none x 0) y 0) none); [ring|]. intros r c. unfold at_site, none. destruct (_ && _); [reflexivity|]. destruct (_ && _); reflexivity. }
  assert (Three : forall x y z, keeps3 g -> gate3 g x y z psi none = psi none).
  { intros x y z [SG E]. unfold gate3. rewrite !(dimat_shape g _ _ SG). cbn [nth seq]. rewrite !sumC_cons, !sumC_nil. change (none (fst x) (snd x)) with 0. change (none (fst y) (snd y)) with 0. change (none (fst z) (snd z)) with 0. rewrite !E by lia. cbn [Nat.eqb andb].
    rewrite (RP (at_site (at_site (at_site none x 0) y 0) z 0) none); [ring|]. intros r c. unfold at_site, none. destruct (_ && _); [reflexivity|]. destruct (_ && _); [reflexivity|]. destruct (_ && _); reflexivity. }
  destruct o; cbn [act sites_of keeps_at] in *; unfold act; cbn [sites_of]; [apply Two|apply Two|apply Three|apply Three|apply Three|apply Three]; exact KP.
Qed.
Lemma acts_none R K : forall l psi, respects psi -> (forall o g h, In (o, g, h) l -> keeps_at o g) -> acts R K l psi none = psi none.
Proof.
  induction l as [|[[o g] h] l IH]; intros psi RP H; [reflexivity|]. cbn [acts]. rewrite IH; [apply act_none; [exact RP|apply (H o g h); left; reflexivity]|apply act_resp; exact RP|]. intros o' g' h' I'. apply (H o' g' h'). right. exact I'.
Qed.
Lemma two_none : wave two none = RtoC 1.
Proof. go. Qed.
Lemma valid_tri Q o : p_rows Q = 2 -> p_cols Q = 2 -> p_per Q = false -> In o [UpperRight 0 1; LowerRight 0 1; LowerLeft 0 0; UpperLeft 0 0] -> valid Q o.
Proof.
  intros E1 E2 E3 Ho. cbn [In] in Ho. unfold valid. rewrite E1, E2, E3.
  repeat destruct Ho as [<-|Ho]; [..|destruct Ho]; cbn [bonds_of sites_of]; (split; [intros b [<-|[<-|[]]]; apply bonds_in; cbn; lia|]); cbn; repeat constructor; cbn; intuition congruence.
Qed.
Ltac small := match goal with |- kept _ ?s => let n := eval lazy in (length s) in change s with (repeat 1%R n); apply ones; lra end.
Lemma triangles_uncut g1 g2 g3 g4 h1 h2 h3 h4 : shape g1 = [2; 2; 2; 2; 2; 2] -> shape g2 = [2; 2; 2; 2; 2; 2] -> shape g3 = [2; 2; 2; 2; 2; 2] -> shape g4 = [2; 2; 2; 2; 2; 2] ->
  uncut short_qr short_svd (1/2) 32 two [(UpperRight 0 1, g1, h1); (LowerRight 0 1, g2, h2); (LowerLeft 0 0, g3, h3); (UpperLeft 0 0, g4, h4)].
Proof.
  destruct g1 as [s1 f1], g2 as [s2 f2], g3 as [s3 f3], g4 as [s4 f4]. cbn [shape]. intros -> -> -> ->. cbn [uncut].
  repeat (split; [lazy; lia|split; [intros b [<-|[<-|[]]]; small|]]). exact I.
Qed.
Lemma pieces_uncut g1 g2 g3 g4 g5 g6 h1 h2 h3 h4 h5 h6 : shape g1 = [2; 2; 2; 2] -> shape g2 = [2; 2; 2; 2] -> shape g3 = [2; 2; 2; 2; 2; 2] -> shape g4 = [2; 2; 2; 2; 2; 2] -> shape g5 = [2; 2; 2; 2] -> shape g6 = [2; 2; 2; 2] ->
  uncut short_qr short_svd (1/2) 32 two [(Col 0 0, g1, h1); (Row 0 0, g2, h2); (LowerRight 0 1, g3, h3); (UpperLeft 0 0, g4, h4); (Row 1 0, g5, h5); (Col 0 1, g6, h6)].
Proof.
  destruct g1 as [s1 f1], g2 as [s2 f2], g3 as [s3 f3], g4 as [s4 f4], g5 as [s5 f5], g6 as [s6 f6]. cbn [shape]. intros -> -> -> -> -> ->. cbn [uncut].
  split; [lazy; lia|split; [intros b [<-|[]]; small|]]. split; [lazy; lia|split; [intros b [<-|[]]; small|]].
  split; [lazy; lia|split; [intros b [<-|[<-|[]]]; small|]]. split; [lazy; lia|split; [intros b [<-|[<-|[]]]; small|]].
  split; [lazy; lia|split; [intros b [<-|[]]; small|]]. split; [lazy; lia|split; [intros b [<-|[]]; small|]]. exact I.
Qed.
(** a term that gives 0 on |00> or |000> makes a gate that keeps it *)
Lemma gate_keeps2 eps tau h : shape h = [2; 2; 2; 2] -> (forall i j, i < 2 -> j < 2 -> entry h [i; 0; j; 0] = RtoC 0) -> keeps2 (taylor_exp eps tau h).
Proof.
  intros SH Z. destruct (taylor_ok eps tau [2; 2] h SH) as (K & _ & SG & E & _). split; [exact SG|]. intros i j Hi Hj. assert (I : In [i; j] (choices [2; 2])) by (apply in_choices2; assumption).
  specialize (E [i; j] [0; 0] I ltac:(cbn; auto)). cbn [app] in E. rewrite E.
  rewrite zero_column; [|cbn; auto| |exact I].
  - destruct i as [|[|i]]; [| |lia]; (destruct j as [|[|j]]; [| |lia]); reflexivity.
  - intros l Hl. cbn in Hl. unfold matrix_of. repeat destruct Hl as [<-|Hl]; [..|destruct Hl]; apply Z; lia.
Qed.
Lemma gate_keeps3 eps tau h : shape h = [2; 2; 2; 2; 2; 2] -> (forall i j k, i < 2 -> j < 2 -> k < 2 -> entry h [i; 0; j; 0; k; 0] = RtoC 0) -> keeps3 (taylor_exp eps tau h).
Proof.
  intros SH Z. destruct (taylor_ok eps tau [2; 2; 2] h SH) as (K & _ & SG & E & _). split; [exact SG|]. intros i j k Hi Hj Hk.
  assert (I : In [i; j; k] (choices [2; 2; 2])) by (destruct i as [|[|i]]; [| |lia]; (destruct j as [|[|j]]; [| |lia]); (destruct k as [|[|k]]; [| |lia]); cbn; tauto).
  specialize (E [i; j; k] [0; 0; 0] I ltac:(cbn; auto)). cbn [app] in E. rewrite E.
  rewrite zero_column; [|cbn; auto| |exact I].
  - destruct i as [|[|i]]; [| |lia]; (destruct j as [|[|j]]; [| |lia]); (destruct k as [|[|k]]; [| |lia]); reflexivity.
  - intros l Hl. cbn in Hl. unfold matrix_of. repeat destruct Hl as [<-|Hl]; [..|destruct Hl]; apply Z; lia.
Qed.

(** *** Nearest and next-nearest neighbours on two by two sites *)
Definition cross : nnn_executor := NExec zz zz None (1/10).
Lemma two_phys r c : r < 2 -> c < 2 -> phys two r c = 2.
Proof. intros Hr Hc. destruct r as [|[|r]]; [| |lia]; (destruct c as [|[|c]]; [| |lia]); reflexivity. Qed.
Lemma cross_fits : nnn_fit cross two /\ plain_onsite cross two /\ exchangeable zz.
Proof.
  split; [exists 2; repeat split; exact two_phys|]. split; [exact I|]. intros i i' j j'. cbn [zz entry nth]. rewrite (Nat.eqb_sym i j), (andb_comm (i =? i')). reflexivity.
Qed.
Lemma cross_ham b p : let h := tri_ham cross 2 2 false b p in shape h = [2; 2; 2; 2; 2; 2] /\ forall i j k, i < 2 -> j < 2 -> k < 2 -> entry h [i; 0; j; 0; k; 0] = RtoC 0.
Proof.
  cbv zeta. pose proof (tri_entry cross 2 2 false b p 2 eq_refl eq_refl I) as H. cbv zeta in H. destruct (if upper p then _ else _) as [x y]. destruct H as [H1 H2]. split; [exact H1|]. intros i j k Hi Hj Hk. rewrite H2. cbn [x_onsite x_nn x_nnn cross]. unfold dl, zz. cbn [entry nth].
  destruct i as [|[|i]]; [| |lia]; (destruct j as [|[|j]]; [| |lia]); (destruct k as [|[|k]]; [| |lia]); cbn [Nat.eqb andb negb]; ring.
Qed.
Lemma one_is_not_zero : RtoC 1 <> RtoC 0.
Proof. intros Q. apply (f_equal fst) in Q. cbn in Q. lra. Qed.
Lemma cross_calls eps : exists g1 g2 g3 g4 h1 h2 h3 h4, nnn_calls cross 2 2 false eps = [(UpperRight 0 1, g1, h1); (LowerRight 0 1, g2, h2); (LowerLeft 0 0, g3, h3); (UpperLeft 0 0, g4, h4)] /\
  keeps3 g1 /\ keeps3 g2 /\ keeps3 g3 /\ keeps3 g4.
Proof.
  do 8 eexists. split; [rewrite calls_listed; unfold triangle_order; cbn [Nat.sub seq flat_map map app]; reflexivity|].
  repeat split; apply gate_keeps3; apply cross_ham.
Qed.
Lemma cross_lossless eps : lossless_nnn eps short_qr short_svd (1/2) 32 cross 1 two.
Proof.
  split; [|exact I]. cbn [p_rows p_cols p_per two]. destruct (cross_calls eps) as (g1 & g2 & g3 & g4 & h1 & h2 & h3 & h4 & -> & K1 & K2 & K3 & K4).
  apply (nonzero_lossless short_qr short_svd (1/2) short_qr_exact 32 (short_svd_exact 32)).
  - exact two_sound.
  - intros o g h Q. cbn [In] in Q. repeat destruct Q as [Q|Q]; [..|destruct Q]; injection Q as <- <- <-; (split; [apply valid_tri; try reflexivity; cbn; auto|]); unfold gate_fits; [rewrite (proj1 K1)|rewrite (proj1 K2)|rewrite (proj1 K3)|rewrite (proj1 K4)]; reflexivity.
  - apply triangles_uncut; [apply K1|apply K2|apply K3|apply K4].
  - exists none. split; [exact none_proper|]. rewrite acts_none; [rewrite two_none; exact one_is_not_zero|apply wave_respects|].
    intros o g h Q. cbn [In] in Q. repeat destruct Q as [Q|Q]; [..|destruct Q]; injection Q as <- <- <-; assumption.
Qed.
(** the Hamiltonian changes the state *)
Lemma cross_acts : let s := fun r c => if r =? 0 then 1 else 0 in proper two s /\ nnn_hamiltonian cross two (wave two) s = RtoC (3/4 * 4).
Proof.
  cbv zeta. split.
  - intros r c Hr Hc. cbn in Hr, Hc. destruct r as [|[|r]]; [| |lia]; (destruct c as [|[|c]]; [| |lia]); cbn; lia.
  - vm_compute. apply injective_projections; cbn [fst snd]; field.
Qed.

(** *** The triangular lattice *)
Definition zz3 : tensor :=
  Tn [2; 2; 2; 2; 2; 2] (fun ix => let i := nth 0 ix 0 in let i' := nth 1 ix 0 in let j := nth 2 ix 0 in let j' := nth 3 ix 0 in let k := nth 4 ix 0 in let k' := nth 5 ix 0 in
    (entry zz [i; i'; j; j'] * dl k k' + dl i i' * entry zz [j; j'; k; k'] + entry zz [i; i'; k; k'] * dl j j')%C).
Definition slanted : tri_executor := TExec zz zz3 (1/10).
Lemma slanted_fits : tri_fit slanted two /\ three_pairs slanted /\ exchangeable (y_nn slanted).
Proof. split; [exists 2; repeat split; exact two_phys|]. split; [|apply cross_fits]. intros i i' j j' k k'. reflexivity. Qed.
Lemma slanted_lossless eps : lossless_tri eps short_qr short_svd (1/2) 32 slanted two.
Proof.
  assert (K2 : keeps2 (taylor_exp eps (1/10) zz)).
  { apply gate_keeps2; [reflexivity|]. intros i j Hi Hj. destruct i as [|[|i]]; [| |lia]; (destruct j as [|[|j]]; [| |lia]); reflexivity. }
  assert (K3 : keeps3 (taylor_exp eps (1/10) zz3)).
  { apply gate_keeps3; [reflexivity|]. intros i j k Hi Hj Hk. destruct i as [|[|i]]; [| |lia]; (destruct j as [|[|j]]; [| |lia]); (destruct k as [|[|k]]; [| |lia]); cbn [zz3 zz dl entry nth Nat.eqb andb negb]; unfold dl; cbn [Nat.eqb]; ring. }
  unfold lossless_tri, first_half, second_half. cbn [p_rows p_cols two Nat.sub seq flat_map map app y_tau y_nn y_tri slanted].
  set (g2 := taylor_exp eps (1/10) zz) in *. set (g3 := taylor_exp eps (1/10) zz3) in *. clearbody g2 g3.
  apply (nonzero_lossless short_qr short_svd (1/2) short_qr_exact 32 (short_svd_exact 32)).
  - exact two_sound.
  - intros o g h Q. cbn [In] in Q. repeat destruct Q as [Q|Q]; [..|destruct Q]; injection Q as <- <- <-; (split; [first [apply valid22; try reflexivity; cbn; auto; fail|apply valid_tri; try reflexivity; cbn; auto; fail]|]); unfold gate_fits; rewrite ?(proj1 K2), ?(proj1 K3); reflexivity.
  - apply pieces_uncut; first [apply K2|apply K3].
  - exists none. split; [exact none_proper|]. rewrite acts_none; [rewrite two_none; exact one_is_not_zero|apply wave_respects|].
    intros o g h Q. cbn [In] in Q. repeat destruct Q as [Q|Q]; [..|destruct Q]; injection Q as <- <- <-; assumption.
Qed.
Lemma slanted_acts : let s := fun r c => if r =? 0 then 1 else 0 in proper two s /\ triangular_hamiltonian slanted two (wave two) s = RtoC (3/4 * 3).
Proof.
  cbv zeta. split.
  - intros r c Hr Hc. cbn in Hr, Hc. destruct r as [|[|r]]; [| |lia]; (destruct c as [|[|c]]; [| |lia]); cbn; lia.
  - vm_compute. apply injective_projections; cbn [fst snd]; field.
Qed.

(** *** An on-site term on the lower right of four sites *)
Definition plus22 : peps := Peps 2 2 false (fun _ _ => Tn [1; 1; 1; 1; 2] (fun _ => RtoC 1)) (fun _ _ => [1%R]) (fun _ _ => [1%R]).
Definition in_corner : nnn_executor := NExec zz zz (Some (fun r c => if (r =? 1) && (c =? 1) then ones_at else Tn [2; 2] (fun _ => RtoC 0))) (1/10).
Lemma plus22_sound : sound (1/2) plus22.
Proof.
  split; [lra|]. split.
  - intros r c _ _. assert (K1 : kept (1/2) [1%R]) by (intros x [<-|[]]; right; rewrite Rabs_pos_eq; lra). split; [reflexivity|]. repeat split; assumption.
  - intros _ r c _ _. repeat split; reflexivity.
Qed.
Lemma in_corner_fits : nnn_fit in_corner plus22.
Proof. exists 2. repeat split. intros r c _ _. cbn. destruct (_ && _); reflexivity. Qed.
Lemma in_corner_short eps : let s := fun _ _ => 1 in proper plus22 s /\ evolved plus22 (nnn_calls in_corner 2 2 false eps) (wave plus22) s = RtoC (2/3) /\ nnn_hamiltonian in_corner plus22 (wave plus22) s = RtoC 1.
Proof.
  cbv zeta. split; [intros r c _ _; cbn; lia|]. split.
  - unfold evolved. rewrite calls_listed, sumC_map. cbn [fst snd]. unfold triangle_order. cbn [Nat.sub seq flat_map map app]. vm_compute. apply injective_projections; cbn [fst snd]; field.
  - vm_compute. apply injective_projections; cbn [fst snd]; field.
Qed.
Lemma onsite_refuted : exists e P psi s, sound (1/2) P /\ 2 <= p_rows P /\ 2 <= p_cols P /\ nnn_fit e P /\ exchangeable (x_nn e) /\ respects psi /\ proper P s /\
  forall eps, evolved P (nnn_calls e (p_rows P) (p_cols P) (p_per P) eps) psi s <> nnn_hamiltonian e P psi s.
Proof.
  exists in_corner, plus22, (wave plus22), (fun _ _ => 1). split; [exact plus22_sound|]. split; [apply le_n|]. split; [apply le_n|]. split; [exact in_corner_fits|]. split; [apply cross_fits|]. split; [apply wave_respects|].
  destruct (in_corner_short 0%R) as [H1 _]. split; [exact H1|]. intros eps Q. destruct (in_corner_short eps) as (_ & H2 & H3). cbn [p_rows p_cols p_per plus22] in *. rewrite H2, H3 in Q. apply (f_equal fst) in Q. cbn [fst RtoC] in Q. lra.
Qed.
