(** The holes of a contractor. *)
From Coq Require Import List Arith Lia Bool Reals Lra Permutation.
From Verif Require Import Base Cplx SumModel SumSpec SumProofs NetSum TrgModel TrgSpec TrgTensor TrgProofs TrgTopo TrgMain TrgExactSpec TrgSums TrgFinal TrgExact TrgHoleSpec TrgHoleAlg TrgHoleLoop TrgHoleMain.
Import ListNotations.
Local Open Scope nat_scope.

Lemma built_shape o : forall w sc, built o w sc -> forall sc', Forall2 (same_shape o) sc sc' -> built o w sc'.
Proof.
  induction 1 as [w top Hw L|m fine mid coarse rest M L0 L1 C1 C2 B IH]; intros sc' F.
  - inversion F as [|? a ? l (E1 & _) F1]; subst. inversion F1; subst. constructor; [exact Hw|congruence].
  - inversion F as [|? a ? l (E1 & _) F1]; subst. inversion F1 as [|? b ? l1 (G1 & _ & G3) F2]; subst. inversion F2 as [|? c ? l2 (H1 & _ & H3) F3]; subst.
    constructor; [exact M|congruence|congruence|rewrite <- G3; exact C1|rewrite <- H3; exact C2|]. apply IH. constructor; [|exact F3]. inversion F2; assumption.
Qed.
Section Top.
Context (svd : trunc -> tensor -> tensor * list R * tensor) (p : trunc) (n : nat) (Hn : trg_size n).
Notation o := (tensor_ops svd).
Notation dims X := (fun v => match v with Bond b => torus_dim X b | Site _ _ => 0 end).
Lemma sd_type_made' st x : sd_type (make_split o p st x) = st.
Proof. exact (sd_type_made o p st x). Qed.
Lemma cached_all (G : trunc -> tensor -> tensor -> list R -> tensor -> Prop) sc : forall s X, coherent o p (ty n) s sc X ->
  (forall a, In a sc -> forall i T d, i < alen (tens a) -> i < alen (splits a) -> aval (tens a) i = Some T -> aval (splits a) i = Some d ->
    let '(u, s, vt) := svd p (matrix_of (sd_type d) T) in G p (matrix_of (sd_type d) T) u s vt) -> all_svd svd p n G s sc X.
Proof.
  induction sc as [|a sc IH]; intros s X H E; [exact I|]. destruct sc as [|b sc]; [exact I|]. destruct H as (H1 & (H2 & H3) & H4). split; [|apply IH; [exact H4|intros c Hc; apply E; right; exact Hc]].
  intros i Hi. assert (Q := E a (or_introl eq_refl) i _ _ Hi ltac:(lia) (H1 i Hi) (H3 i Hi)). rewrite (sd_type_made' (ty n s i)) in Q. unfold svd_of. destruct (svd p (matrix_of (ty n s i) (X i))) as [[? ?] ?]. exact Q.
Qed.
Lemma all_cached (G : trunc -> tensor -> tensor -> list R -> tensor -> Prop) sc : forall s X, coherent o p (ty n) s sc X -> top_splits o sc -> all_svd svd p n G s sc X ->
  forall a, In a sc -> forall i T d, i < alen (tens a) -> i < alen (splits a) -> aval (tens a) i = Some T -> aval (splits a) i = Some d ->
    let '(u, s, vt) := svd p (matrix_of (sd_type d) T) in G p (matrix_of (sd_type d) T) u s vt.
Proof.
  induction sc as [|b sc IH]; intros s X H TS A a Ha i T d Hi Hs ET ES; [contradiction|]. destruct sc as [|c sc].
  - destruct Ha as [<-|[]]. destruct TS as (pre & top & Q & SP). destruct pre as [|? pre]; [|destruct pre; discriminate]. injection Q as <-. rewrite SP in Hs. cbn in Hs. lia.
  - destruct H as (H1 & (H2 & H3) & H4), A as [A0 A]. destruct Ha as [<-|Ha]; [|exact (IH (S s) _ H4 (top_splits_tl _ _ _ _ TS) A a Ha i T d Hi Hs ET ES)].
    rewrite H1 in ET by exact Hi. rewrite H3 in ES by exact Hi. injection ET as <-. injection ES as <-. rewrite (sd_type_made' (ty n s i)). specialize (A0 i Hi). unfold svd_of in A0. destruct (svd p (matrix_of (ty n s i) (X i))) as [[? ?] ?]. exact A0.
Qed.
Lemma singular_legs sc : forall s X, all_svd svd p n singular s sc X -> all_svd svd p n (fun _ => svd_legs) s sc X.
Proof.
  induction sc as [|a sc IH]; intros s X H; [exact I|]. destruct sc as [|b sc]; [exact I|]. destruct H as [H0 H]. split; [|exact (IH _ _ H)].
  intros i Hi. specialize (H0 i Hi). unfold svd_of in *. destruct (svd p _) as [[? ?] ?]. exact (proj1 H0).
Qed.
(** every tensor of the layers has four legs *)
Lemma singular_kept : forall w sc, built o w sc -> forall s X d, s mod 2 = 0 -> width n s = w -> even_fits d w (by_site svd w X) -> all_svd svd p n singular s sc X -> all_kept svd p n s sc X.
Proof.
  induction 1 as [w top Hw L|m fine mid coarse rest M L0 L1 C1 C2 B IH]; intros s X d P W F A; [exact I|].
  pose proof (singular_legs _ _ _ A) as AL. destruct A as [A0 [A1 A]], AL as [AL0 [AL1 AL]]. destruct (width_next svd p n s m P W) as [W1 Wm].
  destruct (even_routes svd p n s m mid X d M P W C1 F) as (d1 & F1 & _); [intros i Hi; apply AL0; rewrite L0; exact Hi|].
  destruct (odd_routes svd p n (S s) m coarse (up o p (ty n) s mid X) d1 M ltac:(lia) W1 C2 F1) as (d2 & F2 & _); [intros i Hi; apply AL1; rewrite L1; exact Hi|].
  split; [intros i Hi; apply singular_keeps; [rewrite L0 in Hi; exact (even_rank svd p d (2 * m) X i F Hi)|exact (A0 i Hi)]|].
  split; [intros i Hi; apply singular_keeps; [rewrite L1 in Hi; exact (odd_rank svd p d1 m _ i F1 Hi)|exact (A1 i Hi)]|]. exact (IH (S (S s)) _ d2 ltac:(lia) Wm F2 A).
Qed.
Lemma site_lt r c : r < n -> c < n -> r * n + c < n * n.
Proof. intros. apply code_lt; assumption. Qed.
Lemma flat_at X r c : r < n -> c < n -> flat o n X (r * n + c) = X r c.
Proof. intros Hr Hc. unfold flat. rewrite code_div, code_mod by assumption. reflexivity. Qed.
(** *** Side 2 and 3 *)
Lemma put_sum X r c Y : r < n -> c < n -> shape Y = shape (X r c) ->
  even_sum (dims X) n (put_at (fun rc => X (fst rc) (snd rc)) (r, c) Y) = torus_sum n (put_site X r c Y).
Proof.
  intros Hr Hc SY. rewrite torus_even. apply even_sum_ext.
  - intros v Hv. apply in_map_iff in Hv. destruct Hv as (b & <- & _). destruct b as [i j|i j]; cbn [torus_dim]; unfold put_site, dimat; (destruct ((i =? r) && (j =? c)) eqn:Q; [|reflexivity]);
      apply andb_true_iff in Q; destruct Q as [Q1 Q2]; apply Nat.eqb_eq in Q1, Q2; subst i j; rewrite SY; reflexivity.
  - intros [i j] _. reflexivity.
Qed.
Lemma small_holes X t z : n = 2 \/ n = 3 -> closes n X -> fresh o p (torus o n X) = Ok (t, z) ->
  exists H, punch_all_holes o t (torus o n X) = Ok H /\ alen H = n * n /\ forall r c, r < n -> c < n -> shape (aval H (r * n + c)) = shape (X r c) /\
    forall Y, shape Y = shape (X r c) -> pair Y (aval H (r * n + c)) = torus_sum n (put_site X r c Y).
Proof.
  intros S HX E. destruct (shape_exists o p n Hn X) as (sub & sc0 & HI & HT & HB & HS). destruct (fresh_keeps o p n sub sc0 HI HT HB HS X) as (t' & z' & E' & A & sc & Et & F & CO & TS).
  rewrite E in E'. assert (t' = t) as -> by congruence. rewrite Et. unfold punch_all_holes. cbn [t_periodic t_rows t_cols torus n_periodic n_ten negb]. pose proof (closes_fits n X HX) as FX.
  destruct S as [S2|S3].
  - revert FX. rewrite S2. intros FX. eexists. split; [reflexivity|]. split; [reflexivity|]. intros r c Hr Hc. assert (Hi : r * 2 + c < 4) by lia. cbn [aval].
    assert (Q : four (fun rc => X (fst rc) (snd rc)) 2 (r * 2 + c) = X r c) by (unfold four; cbn [fst snd]; replace ((r * 2 + c) / 2) with r by lia; replace ((r * 2 + c) mod 2) with c by lia; reflexivity).
    split.
    + destruct (hole2_pair (dims X) _ (X r c) (r * 2 + c) FX Hi ltac:(rewrite Q; reflexivity)) as [_ G]. rewrite Q in G. exact G.
    + intros Y SY. destruct (hole2_pair (dims X) _ Y (r * 2 + c) FX Hi ltac:(rewrite Q; exact SY)) as [G _]. replace ((r * 2 + c) / 2) with r in G by lia. replace ((r * 2 + c) mod 2) with c in G by lia.
      transitivity (even_sum (dims X) 2 (put_at (fun rc => X (fst rc) (snd rc)) (r, c) Y)); [exact G|]. rewrite <- S2 in Hr, Hc |- *. apply put_sum; assumption.
  - revert FX. rewrite S3. intros FX. eexists. split; [reflexivity|]. split; [reflexivity|]. intros r c Hr Hc. assert (Hi : r * 3 + c < 9) by lia. cbn [aval].
    assert (Q : four (fun rc => X (fst rc) (snd rc)) 3 (r * 3 + c) = X r c) by (unfold four; cbn [fst snd]; replace ((r * 3 + c) / 3) with r by lia; replace ((r * 3 + c) mod 3) with c by lia; reflexivity).
    split.
    + destruct (hole3_pair (dims X) _ (X r c) (r * 3 + c) FX Hi ltac:(rewrite Q; reflexivity)) as [_ G]. rewrite Q in G. exact G.
    + intros Y SY. destruct (hole3_pair (dims X) _ Y (r * 3 + c) FX Hi ltac:(rewrite Q; exact SY)) as [G _]. replace ((r * 3 + c) / 3) with r in G by lia. replace ((r * 3 + c) mod 3) with c in G by lia.
      transitivity (even_sum (dims X) 3 (put_at (fun rc => X (fst rc) (snd rc)) (r, c) Y)); [exact G|]. rewrite <- S3 in Hr, Hc |- *. apply put_sum; assumption.
Qed.
Lemma put_same X r c : torus_sum n (put_site X r c (X r c)) = torus_sum n X.
Proof.
  assert (Q : forall i j, put_site X r c (X r c) i j = X i j).
  { intros i j. unfold put_site. destruct (Nat.eqb_spec i r) as [->|]; [|reflexivity]. destruct (Nat.eqb_spec j c) as [->|]; reflexivity. }
  rewrite !torus_even. apply even_sum_ext; [intros v _; destruct v as [[i j|i j]|]; cbn [torus_dim]; rewrite ?Q; reflexivity|]. intros [i j] _. apply Q.
Qed.
(** *** Side 4 and more *)
Lemma large_holes X t z : 3 < n -> closes n X -> fresh o p (torus o n X) = Ok (t, z) -> cached_svds svd (fun _ => svd_legs) t ->
  exists H, punch_all_holes o t (torus o n X) = Ok H /\ alen H = n * n /\ forall r c, r < n -> c < n -> shape (aval H (r * n + c)) = shape (X r c) /\
    (cached_svds svd singular t -> pair (X r c) (aval H (r * n + c)) = z) /\
    forall Y, shape Y = shape (X r c) -> orthogonal svd p (site_type r c) (X r c) Y -> pair Y (aval H (r * n + c)) = RtoC 0.
Proof.
  intros L HX E CL. destruct (shape_exists o p n Hn X) as (sub & sc0 & HI & HT & HB & HS). destruct (fresh_keeps o p n sub sc0 HI HT HB HS X) as (t' & z' & E' & A & sc & Et & F & CO & TS).
  rewrite E in E'. assert (t' = t) as -> by congruence. assert (z' = z) as -> by congruence.
  pose proof (built_shape o n sc0 HB sc F) as B. pose proof (topo_shape o sub (ty n) sc0 sc 0 F HT) as T.
  assert (AL : all_svd svd p n (fun _ => svd_legs) 0 sc (flat o n X)) by (apply cached_all; [exact CO|]; intros a Ha; apply (CL p); [rewrite Et; reflexivity|rewrite Et; exact Ha]).
  destruct (holes_layers svd p n sub n sc B 0 (flat o n X) (dims X) ltac:(lia) eq_refl (width0 n) T CO (flat_fits svd n X HX) AL) as (H & EH & LH & SH & PV & PK).
  exists H. split; [|split; [exact LH|]].
  - rewrite Et. unfold punch_all_holes. cbn [t_periodic t_rows t_cols torus n_periodic t_ready t_scales negb]. destruct (Nat.eqb_spec n 2); [lia|]. destruct (Nat.eqb_spec n 3); [lia|]. cbn [andb]. rewrite Nat.eqb_refl.
    assert (SO : size_ok n = true) by (apply size_ok_iff; exact Hn). rewrite SO. exact EH.
  - intros r c Hr Hc. pose proof (site_lt r c Hr Hc) as Hi. pose proof (flat_at X r c Hr Hc) as FX. split; [rewrite (SH _ Hi), FX; reflexivity|]. split.
    + intros CS. rewrite <- FX. apply PV; [|rewrite <- (top_of_shape o p n sc0 sc 0 _ F), <- (top_len_shape o sc0 sc F); exact A|exact Hi].
      apply (singular_kept n sc B 0 (flat o n X) (dims X) eq_refl (width0 n) (flat_fits svd n X HX)). apply cached_all; [exact CO|]. intros a Ha. apply (CS p); [rewrite Et; reflexivity|rewrite Et; exact Ha].
    + intros Y SY OY. apply PK; [exact L|exact Hi|rewrite FX; exact SY|]. apply orthogonal_kills.
      * exact (even_rank svd p (dims X) n (flat o n X) _ (flat_fits svd n X HX) Hi).
      * inversion B; subst; [lia|]. destruct AL as [AL _]. apply AL. lia.
      * rewrite FX. exact SY.
      * rewrite FX. replace (ty n 0 (r * n + c)) with (site_type r c); [exact OY|]. unfold ty, site_type. cbn [Nat.even]. rewrite width0, code_div, code_mod, even_mod by assumption. reflexivity.
Qed.
(** *** Every side *)
Lemma holes_own X t z : 2 <= n -> closes n X -> fresh o p (torus o n X) = Ok (t, z) -> cached_svds svd singular t ->
  exists H, punch_all_holes o t (torus o n X) = Ok H /\ alen H = n * n /\ forall r c, r < n -> c < n ->
    shape (aval H (r * n + c)) = shape (X r c) /\ pair (X r c) (aval H (r * n + c)) = z.
Proof.
  intros N HX E CS. destruct (Nat.lt_ge_cases 3 n) as [L|L].
  - destruct (large_holes X t z L HX E) as (H & EH & LH & V).
    + intros p' Ep a Ha i T d Hi Hs ET ES. specialize (CS p' Ep a Ha i T d Hi Hs ET ES). destruct (svd p' _) as [[? ?] ?]. exact (proj1 CS).
    + exists H. split; [exact EH|]. split; [exact LH|]. intros r c Hr Hc. destruct (V r c Hr Hc) as (V1 & V2 & _). split; [exact V1|exact (V2 CS)].
  - destruct (small_holes X t z ltac:(lia) HX E) as (H & EH & LH & V). destruct (fresh_small svd p n Hn X L HX) as (t' & E'). rewrite E in E'. assert (z = torus_sum n X) as -> by congruence.
    exists H. split; [exact EH|]. split; [exact LH|]. intros r c Hr Hc. destruct (V r c Hr Hc) as (V1 & V2). split; [exact V1|]. rewrite (V2 _ eq_refl). apply put_same.
Qed.
Lemma cached_same G t t1 : same_contractor o t t1 -> cached_svds svd G t -> cached_svds svd G t1.
Proof.
  intros (_ & _ & _ & _ & EP & _ & F) H p' Ep a Ha i T d Hi Hs ET ES. rewrite <- EP in Ep. specialize (H p' Ep). clear -F H Ha Hi Hs ET ES. induction F as [|b b1 l l1 (S1 & _ & _ & S2) F IH]; [contradiction|].
  destruct Ha as [->|Ha]; [|apply IH; [intros c Hc; apply H; right; exact Hc|exact Ha]]. destruct S1 as [L1 V1], S2 as [L2 V2].
  refine (H b (or_introl eq_refl) i T d _ _ _ _); [exact (eq_ind_r (fun k => i < k) Hi L1)|exact (eq_ind_r (fun k => i < k) Hs L2)| |].
  - refine (eq_trans (V1 i _) ET). exact (eq_ind_r (fun k => i < k) Hi L1).
  - refine (eq_trans (V2 i _) ES). exact (eq_ind_r (fun k => i < k) Hs L2).
Qed.
Lemma holes_moves X moves : 2 <= n -> Forall (on_lattice o n) moves -> let Y := fold_left (with_replacements o) moves X in closes n Y ->
  exists t0 z0 t z, fresh o p (torus o n X) = Ok (t0, z0) /\ accept_all o t0 moves = Ok t /\ trace o t (torus o n Y) = Ok (t, z) /\
    (cached_svds svd singular t -> exists H, punch_all_holes o t (torus o n Y) = Ok H /\ alen H = n * n /\ forall r c, r < n -> c < n ->
       shape (aval H (r * n + c)) = shape (Y r c) /\ pair (Y r c) (aval H (r * n + c)) = z).
Proof.
  intros N HM Y HY. destruct (trials_fresh o p n Hn X moves HM) as (t0 & z0 & t & E0 & E & t1 & z1 & E1 & SC & T & PU & _). fold Y in E1.
  exists t0, z0, t, z1. split; [exact E0|]. split; [exact E|]. split; [apply T; reflexivity|]. intros CS. rewrite PU. exact (holes_own Y t1 z1 N HY E1 (cached_same _ t t1 SC CS)).
Qed.
Lemma holes_blind X t z : 3 < n -> closes n X -> fresh o p (torus o n X) = Ok (t, z) -> cached_svds svd (fun _ => svd_legs) t ->
  exists H, punch_all_holes o t (torus o n X) = Ok H /\ alen H = n * n /\ forall r c, r < n -> c < n ->
    forall Y, shape Y = shape (X r c) -> orthogonal svd p (site_type r c) (X r c) Y -> pair Y (aval H (r * n + c)) = RtoC 0.
Proof.
  intros L HX E CL. destruct (large_holes X t z L HX E CL) as (H & EH & LH & V). exists H. split; [exact EH|]. split; [exact LH|]. intros r c Hr Hc. apply (V r c Hr Hc).
Qed.
End Top.
