(** Tensor renormalisation of a torus without truncation: each layer of cores has the same sum. *)
From Coq Require Import List Arith Lia Bool Reals Permutation.
From Verif Require Import Base Cplx SumModel SumSpec SumProofs NetSum TrgModel TrgTensor TrgTopo TrgExactSpec.
Import ListNotations.
Local Open Scope nat_scope.

(** the indices that are summed: bonds of a layer of whole sites, corners of a layer of plaquettes *)
Inductive var := Bond (b : bond) | Site (r c : nat).
Definition var_dec (x y : var) : {x = y} + {x <> y}.
Proof. decide equality; try apply Nat.eq_dec. apply bond_eq_dec. Defined.
Notation upd := (upd var_dec).
Notation gsum := (gsum var_dec).
Notation indep := (indep var_dec).
Definition zero : var -> nat := fun _ => 0.

Lemma map_upd a v i vs : ~ In v vs -> map (upd a v i) vs = map a vs.
Proof. intros H. apply map_ext_in. intros w Hw. apply upd_other. intros ->. contradiction. Qed.
Lemma entry_indep T vs us : (forall v, In v us -> ~ In v vs) -> indep (fun a => entry T (map a vs)) us.
Proof. intros H a v i Hv. cbv beta. rewrite map_upd by (apply H; exact Hv). reflexivity. Qed.
Lemma indep_mul f g us : indep f us -> indep g us -> indep (fun a => (f a * g a)%C) us.
Proof. intros A B a v i H. cbv beta. rewrite (A a v i H), (B a v i H). reflexivity. Qed.

(** *** Pieces *)
Definition quad := (var * var * var * var)%type.
Definition qlist (q : quad) : list var := let '(((a, b), c), d) := q in [a; b; c; d].
Definition pvars (st : stype) (q : quad) (x : var) : list var :=
  let '(((l, d), r), u) := q in match st with Type0 => [l; u; x] | Type1 => [x; r; u] end.
Definition qvars (st : stype) (q : quad) (x : var) : list var :=
  let '(((l, d), r), u) := q in match st with Type0 => [x; d; r] | Type1 => [l; d; x] end.
Definition pval st q x (P : tensor) (a : var -> nat) : C := entry P (map a (pvars st q x)).
Definition qval st q x (Q : tensor) (a : var -> nat) : C := entry Q (map a (qvars st q x)).
(** a tensor with the legs [q] is cut into two pieces along the new leg [x] *)
Definition cut (d : var -> nat) st q x (T P Q : tensor) : Prop :=
  shape P = map d (pvars st q x) /\ shape Q = map d (qvars st q x) /\
  forall a, ranged (qlist q) d a -> entry T (map a (qlist q)) = gsum [x] d (fun a => (pval st q x P a * qval st q x Q a)%C) a.
Lemma recombines_cut st T P Q (q : quad) x d : recombines st T P Q -> shape T = map d (qlist q) -> ~ In x (qlist q) ->
  d x = match st with Type0 => dimat P 2 | Type1 => dimat P 0 end -> cut d st q x T P Q.
Proof.
  destruct q as [[[l dn] r] u]. intros (k & SH & E) ST NX DX. cbn [qlist map] in *. unfold dimat in SH, E, DX. rewrite ST in SH, E. cbn [nth] in SH, E.
  assert (DK : d x = k) by (destruct st; destruct SH as [S1 S2]; rewrite ?S1, ?S2 in DX; cbn [nth] in DX; exact DX).
  unfold cut. split; [|split].
  - destruct st; destruct SH as [S1 S2]; cbn [pvars map]; rewrite ?S1, ?S2, DK; reflexivity.
  - destruct st; destruct SH as [S1 S2]; cbn [qvars map]; rewrite ?S1, ?S2, DK; reflexivity.
  - intros a Ra. assert (M : forall v, In v [l; dn; r; u] -> a v < d v) by exact Ra. cbn [In] in NX. cbn [qlist map]. rewrite E by (apply M; cbn; tauto). cbn [NetSum.gsum]. rewrite DK. apply sumC_ext. intros i _.
    unfold pval, qval. destruct st; cbn [pvars qvars map]; rewrite !upd_same, !upd_other by (intros ->; tauto); [reflexivity|ring].
Qed.

(** *** The cores *)
Lemma sum2 (f g : nat -> C) m n : sumC (fun i => sumC (fun j => (f i * g j)%C) (seq 0 n)) (seq 0 m) = (sumC f (seq 0 m) * sumC g (seq 0 n))%C.
Proof.
  transitivity (sumC (fun i => (sumC g (seq 0 n) * f i)%C) (seq 0 m)); [|rewrite sumC_scal; ring]. apply sumC_ext. intros i _. rewrite sumC_scal. ring.
Qed.
Lemma plaquette_shape Q0 Q1 P1 P0 a0 a1 a2 a3 h0 h1 v0 v1 : shape Q0 = [a0; v0; h0] -> shape Q1 = [h0; v1; a1] -> shape P1 = [a2; h1; v0] -> shape P0 = [h1; v1; a3] ->
  shape (plaquette_core Q0 Q1 P1 P0) = [a0; a1; a3; a2].
Proof. destruct Q0 as [s0 e0], Q1 as [s1 e1], P1 as [s2 e2], P0 as [s3 e3]. cbn [shape]. intros -> -> -> ->. reflexivity. Qed.
Lemma plaquette_entry Q0 Q1 P1 P0 a0 a1 a2 a3 h0 h1 v0 v1 x0 x1 x2 x3 : shape Q0 = [a0; v0; h0] -> shape Q1 = [h0; v1; a1] -> shape P1 = [a2; h1; v0] -> shape P0 = [h1; v1; a3] ->
  entry (plaquette_core Q0 Q1 P1 P0) [x0; x1; x3; x2] =
  sumC (fun i => sumC (fun j => sumC (fun p => sumC (fun q => ((entry P1 [x2; p; i] * entry P0 [p; j; x3]) * (entry Q1 [q; j; x1] * entry Q0 [x0; i; q]))%C) (seq 0 h0)) (seq 0 h1)) (seq 0 v1)) (seq 0 v0).
Proof.
  destruct Q0 as [s0 e0], Q1 as [s1 e1], P1 as [s2 e2], P0 as [s3 e3]. cbn [shape entry]. intros -> -> -> ->. cbn. apply sumC_ext. intros i _. apply sumC_ext. intros j _. rewrite sum2. reflexivity.
Qed.
Lemma diamond_shape Np Ep Sq Wq b0 b1 b2 b3 c0 c1 c2 c3 : shape Np = [b0; c1; c0] -> shape Ep = [c1; c3; b1] -> shape Sq = [c2; c3; b2] -> shape Wq = [b3; c0; c2] ->
  shape (diamond_core Np Ep Sq Wq) = [b3; b2; b1; b0].
Proof. destruct Np as [s0 e0], Ep as [s1 e1], Sq as [s2 e2], Wq as [s3 e3]. cbn [shape]. intros -> -> -> ->. reflexivity. Qed.
Lemma diamond_entry Np Ep Sq Wq b0 b1 b2 b3 c0 c1 c2 c3 x0 x1 x2 x3 : shape Np = [b0; c1; c0] -> shape Ep = [c1; c3; b1] -> shape Sq = [c2; c3; b2] -> shape Wq = [b3; c0; c2] ->
  entry (diamond_core Np Ep Sq Wq) [x3; x2; x1; x0] =
  sumC (fun i => sumC (fun j => sumC (fun p => sumC (fun q => ((entry Sq [p; i; x2] * entry Wq [x3; j; p]) * (entry Np [x0; q; j] * entry Ep [q; i; x1]))%C) (seq 0 c1)) (seq 0 c2)) (seq 0 c0)) (seq 0 c3).
Proof.
  destruct Np as [s0 e0], Ep as [s1 e1], Sq as [s2 e2], Wq as [s3 e3]. cbn [shape entry]. intros -> -> -> ->. cbn. apply sumC_ext. intros i _. apply sumC_ext. intros j _. rewrite sum2. reflexivity.
Qed.

(** *** Sites of both colours *)
Definition evens (w : nat) : list (nat * nat) := filter (fun rc => Nat.even (fst rc + snd rc)) (grid w w).
Definition odds (w : nat) : list (nat * nat) := filter (fun rc => negb (Nat.even (fst rc + snd rc))) (grid w w).
Lemma in_evens w r c : In (r, c) (evens w) <-> r < w /\ c < w /\ (r + c) mod 2 = 0.
Proof. unfold evens. rewrite filter_In, grid_in. cbn [fst snd]. rewrite even_mod. rewrite Nat.eqb_eq. tauto. Qed.
Lemma in_odds w r c : In (r, c) (odds w) <-> r < w /\ c < w /\ (r + c) mod 2 = 1.
Proof. unfold odds. rewrite filter_In, grid_in. cbn [fst snd]. rewrite even_mod. destruct (Nat.eqb_spec ((r + c) mod 2) 0); cbn [negb]; intuition (try lia; discriminate). Qed.
Lemma evens_nodup w : NoDup (evens w).
Proof. apply NoDup_filter, grid_nodup. Qed.
Lemma odds_nodup w : NoDup (odds w).
Proof. apply NoDup_filter, grid_nodup. Qed.
Lemma filter_both {X} (p : X -> bool) l : Permutation l (filter p l ++ filter (fun x => negb (p x)) l).
Proof.
  induction l as [|x l IH]; [constructor|]. cbn [filter]. destruct (p x); cbn [negb]; [cbn [app]; constructor; exact IH|]. apply Permutation_cons_app. exact IH.
Qed.
Lemma two_colours w : Permutation (grid w w) (evens w ++ odds w).
Proof. apply filter_both. Qed.
Lemma perm_map {X Y} (l : list X) (l' : list Y) (h : X -> Y) (h' : Y -> X) : NoDup l -> NoDup l' ->
  (forall x, In x l -> In (h x) l' /\ h' (h x) = x) -> (forall y, In y l' -> In (h' y) l /\ h (h' y) = y) -> Permutation l' (map h l).
Proof.
  intros N N' A B. apply NoDup_Permutation; [exact N'| |].
  - apply nodup_map_inj; [exact N|]. intros x y Hx Hy E. rewrite <- (proj2 (A x Hx)), <- (proj2 (A y Hy)), E. reflexivity.
  - intros y. rewrite in_map_iff. split.
    + intros Hy. exists (h' y). split; apply B; exact Hy.
    + intros (x & <- & Hx). apply A. exact Hx.
Qed.
Lemma down_up n x : x < n -> down1 n (up1 n x) = x.
Proof. intros H. rewrite up1_val by exact H. destruct (Nat.eqb_spec x (n - 1)); rewrite down1_val by lia; [rewrite Nat.eqb_refl; lia|]. destruct (Nat.eqb_spec (x + 1) 0); lia. Qed.
Section Shifts.
Context (m : nat).
Let w := 2 * m.
Lemma par_up c : c < w -> (up1 w c + c) mod 2 = 1.
Proof. apply up1_par. Qed.
Lemma par_down c : c < w -> (down1 w c + c) mod 2 = 1.
Proof. apply down1_par. Qed.
Lemma odds_right : Permutation (odds w) (map (fun rc => (fst rc, up1 w (snd rc))) (evens w)).
Proof.
  apply (perm_map _ _ _ (fun rc => (fst rc, down1 w (snd rc)))); [apply evens_nodup|apply odds_nodup| |]; intros [r c] H; cbn [fst snd].
  - apply in_evens in H. rewrite in_odds, down_up by tauto. pose proof (up1_lt w c). pose proof (par_up c). clearbody w. split; [|reflexivity]. split; [tauto|]. split; [tauto|]. lia.
  - apply in_odds in H. rewrite in_evens, up_down by tauto. pose proof (down1_lt w c). pose proof (par_down c). clearbody w. split; [|reflexivity]. split; [tauto|]. split; [tauto|]. lia.
Qed.
Lemma odds_down : Permutation (odds w) (map (fun rc => (up1 w (fst rc), snd rc)) (evens w)).
Proof.
  apply (perm_map _ _ _ (fun rc => (down1 w (fst rc), snd rc))); [apply evens_nodup|apply odds_nodup| |]; intros [r c] H; cbn [fst snd].
  - apply in_evens in H. rewrite in_odds, down_up by tauto. pose proof (up1_lt w r). pose proof (par_up r). clearbody w. split; [|reflexivity]. split; [tauto|]. split; [tauto|]. lia.
  - apply in_odds in H. rewrite in_evens, up_down by tauto. pose proof (down1_lt w r). pose proof (par_down r). clearbody w. split; [|reflexivity]. split; [tauto|]. split; [tauto|]. lia.
Qed.
Lemma evens_diagonal : Permutation (evens w) (map (fun rc => (up1 w (fst rc), up1 w (snd rc))) (evens w)).
Proof.
  apply (perm_map _ _ _ (fun rc => (down1 w (fst rc), down1 w (snd rc)))); [apply evens_nodup|apply evens_nodup| |]; intros [r c] H; cbn [fst snd]; apply in_evens in H.
  - rewrite in_evens, !down_up by tauto. pose proof (up1_lt w r). pose proof (par_up r). pose proof (up1_lt w c). pose proof (par_up c). clearbody w. split; [|reflexivity]. split; [tauto|]. split; [tauto|]. lia.
  - rewrite in_evens, !up_down by tauto. pose proof (down1_lt w r). pose proof (par_down r). pose proof (down1_lt w c). pose proof (par_down c). clearbody w. split; [|reflexivity]. split; [tauto|]. split; [tauto|]. lia.
Qed.
End Shifts.

(** *** The two kinds of layers *)
Definition legs (w : nat) (rc : nat * nat) : quad :=
  let (r, c) := rc in (Bond (Hor r (down1 w c)), Bond (Ver r c), Bond (Hor r c), Bond (Ver (down1 w r) c)).
Definition corners (w : nat) (rc : nat * nat) : quad :=
  let (r, c) := rc in (Site r c, Site r (up1 w c), Site (up1 w r) (up1 w c), Site (up1 w r) c).
Definition bond_vars (w : nat) : list var := map Bond (bonds w w true).
Definition site_vars (w : nat) : list var := map (fun rc => Site (fst rc) (snd rc)) (grid w w).
Definition even_sum (d : var -> nat) (w : nat) (X : nat * nat -> tensor) : C :=
  gsum (bond_vars w) d (fun a => prodC (fun rc => entry (X rc) (map a (qlist (legs w rc)))) (grid w w)) zero.
Definition odd_sum (d : var -> nat) (w : nat) (O : nat * nat -> tensor) : C :=
  gsum (site_vars w) d (fun a => prodC (fun rc => entry (O rc) (map a (qlist (corners w rc)))) (evens w)) zero.
Definition even_fits (d : var -> nat) (w : nat) (X : nat * nat -> tensor) : Prop := forall rc, In rc (grid w w) -> shape (X rc) = map d (qlist (legs w rc)).
Definition odd_fits (d : var -> nat) (w : nat) (O : nat * nat -> tensor) : Prop := forall rc, In rc (evens w) -> shape (O rc) = map d (qlist (corners w rc)).
Lemma bond_vars_nodup w : NoDup (bond_vars w).
Proof. apply map_nodup; [congruence|apply bonds_nodup]. Qed.
Lemma site_vars_nodup w : NoDup (site_vars w).
Proof. apply map_nodup; [intros [] [] E; cbn in E; congruence|apply grid_nodup]. Qed.

(** *** From sites to plaquettes *)
Definition colour (rc : nat * nat) : stype := if (fst rc + snd rc) mod 2 =? 0 then Type0 else Type1.
Definition new_site (rc : nat * nat) : var := Site (fst rc) (snd rc).
Section Plaquettes.
Context (m : nat) (Hm : 1 <= m).
Let w := 2 * m.
Context (d : var -> nat) (X P Q : nat * nat -> tensor).
Hypothesis HC : forall rc, In rc (grid w w) -> cut d (colour rc) (legs w rc) (new_site rc) (X rc) (P rc) (Q rc).
Definition tr (rc : nat * nat) := (fst rc, up1 w (snd rc)).
Definition bl (rc : nat * nat) := (up1 w (fst rc), snd rc).
Definition br (rc : nat * nat) := (up1 w (fst rc), up1 w (snd rc)).
Definition plaq (rc : nat * nat) : tensor := plaquette_core (Q rc) (Q (tr rc)) (P (bl rc)) (P (br rc)).
Let pv rc := pval (colour rc) (legs w rc) (new_site rc) (P rc).
Let qv rc := qval (colour rc) (legs w rc) (new_site rc) (Q rc).
Let G (rc : nat * nat) (a : var -> nat) : C := ((pv (bl rc) a * pv (br rc) a) * (qv (tr rc) a * qv rc a))%C.
Let g (rc : nat * nat) : list var := [Bond (Ver (fst rc) (snd rc)); Bond (Ver (fst rc) (up1 w (snd rc))); Bond (Hor (up1 w (fst rc)) (snd rc)); Bond (Hor (fst rc) (snd rc))].
Lemma groups : Permutation (bond_vars w) (flat_map g (evens w)).
Proof.
  unfold g. rewrite flat4. unfold bond_vars, bonds. rewrite !map_app, !map_map.
  rewrite (Permutation_app_comm (map _ (grid w w))). rewrite (Permutation_map (fun x => Bond (Ver (fst x) (snd x))) (two_colours w)), (Permutation_map (fun x => Bond (Hor (fst x) (snd x))) (two_colours w)).
  rewrite !map_app. rewrite <- !app_assoc. apply Permutation_app_head.
  pose proof (Permutation_map (fun x => Bond (Ver (fst x) (snd x))) (odds_right m)) as E1. pose proof (Permutation_map (fun x => Bond (Hor (fst x) (snd x))) (odds_down m)) as E2. change (2 * m) with w in E1, E2. rewrite E1, E2. rewrite !map_map. cbn [fst snd]. apply Permutation_app_head. apply Permutation_app_comm.
Qed.
Lemma group_other q q' v : In q (evens w) -> In q' (evens w) -> q <> q' -> In v (g q) -> In v (g q') -> False.
Proof.
  intros Hq Hq' NE Hv Hv'. pose proof (Permutation_NoDup groups (bond_vars_nodup w)) as ND. clear -Hq Hq' NE Hv Hv' ND.
  induction (evens w) as [|x l IH]; [contradiction|]. cbn [flat_map] in ND.
  assert (D : NoDup (flat_map g l) /\ forall v, In v (g x) -> ~ In v (flat_map g l)).
  { clear -ND. induction (g x) as [|y t IHt]; cbn [app] in ND; [split; [exact ND|intros ? []]|]. inversion ND as [|? ? N1 N2]; subst. destruct (IHt N2) as [A B]. split; [exact A|].
    intros z [<-|Hz]; [intros E; apply N1, in_or_app; right; exact E|apply B; exact Hz]. }
  destruct D as [N' D]. destruct Hq as [->|Hq], Hq' as [->|Hq'].
  - contradiction.
  - apply (D v Hv). apply in_flat_map. exists q'. split; assumption.
  - apply (D v Hv'). apply in_flat_map. exists q. split; assumption.
  - exact (IH Hq Hq' N').
Qed.
Lemma names r c : In (r, c) (evens w) ->
  qvars (colour (r, c)) (legs w (r, c)) (new_site (r, c)) = [Site r c; Bond (Ver r c); Bond (Hor r c)] /\
  qvars (colour (tr (r, c))) (legs w (tr (r, c))) (new_site (tr (r, c))) = [Bond (Hor r c); Bond (Ver r (up1 w c)); Site r (up1 w c)] /\
  pvars (colour (bl (r, c))) (legs w (bl (r, c))) (new_site (bl (r, c))) = [Site (up1 w r) c; Bond (Hor (up1 w r) c); Bond (Ver r c)] /\
  pvars (colour (br (r, c))) (legs w (br (r, c))) (new_site (br (r, c))) = [Bond (Hor (up1 w r) c); Bond (Ver r (up1 w c)); Site (up1 w r) (up1 w c)].
Proof.
  intros H. apply in_evens in H. destruct H as (Hr & Hc & E). pose proof (par_up m r Hr) as U1. pose proof (par_up m c Hc) as U2. change (2 * m) with w in U1, U2.
  unfold colour, tr, bl, br, new_site, legs. cbn [fst snd]. rewrite !down_up by assumption. rewrite E.
  replace ((r + up1 w c) mod 2) with 1 by (clearbody w; lia). replace ((up1 w r + c) mod 2) with 1 by (clearbody w; lia). replace ((up1 w r + up1 w c) mod 2) with 0 by (clearbody w; lia).
  repeat split; reflexivity.
Qed.
Lemma four_sites rc : In rc (evens w) -> In rc (grid w w) /\ In (tr rc) (grid w w) /\ In (bl rc) (grid w w) /\ In (br rc) (grid w w).
Proof.
  destruct rc as [r c]. intros H. apply in_evens in H. unfold tr, bl, br. cbn [fst snd]. rewrite !grid_in. pose proof (up1_lt w r). pose proof (up1_lt w c). tauto.
Qed.
Lemma plaq_shapes r c : In (r, c) (evens w) ->
  shape (Q (r, c)) = map d [Site r c; Bond (Ver r c); Bond (Hor r c)] /\ shape (Q (tr (r, c))) = map d [Bond (Hor r c); Bond (Ver r (up1 w c)); Site r (up1 w c)] /\
  shape (P (bl (r, c))) = map d [Site (up1 w r) c; Bond (Hor (up1 w r) c); Bond (Ver r c)] /\ shape (P (br (r, c))) = map d [Bond (Hor (up1 w r) c); Bond (Ver r (up1 w c)); Site (up1 w r) (up1 w c)].
Proof.
  intros H. destruct (names r c H) as (<- & <- & <- & <-). destruct (four_sites (r, c) H) as (A & B & C0 & D).
  repeat split; [apply (HC _ A)|apply (HC _ B)|apply (HC _ C0)|apply (HC _ D)].
Qed.
Lemma plaq_fits : odd_fits d w plaq.
Proof.
  intros [r c] H. destruct (plaq_shapes r c H) as (S1 & S2 & S3 & S4). unfold plaq. cbn [map] in S1, S2, S3, S4. rewrite (plaquette_shape _ _ _ _ _ _ _ _ _ _ _ _ S1 S2 S3 S4). reflexivity.
Qed.
Lemma G_names r c a : In (r, c) (evens w) -> G (r, c) a =
  ((entry (P (bl (r, c))) (map a [Site (up1 w r) c; Bond (Hor (up1 w r) c); Bond (Ver r c)]) * entry (P (br (r, c))) (map a [Bond (Hor (up1 w r) c); Bond (Ver r (up1 w c)); Site (up1 w r) (up1 w c)])) *
   (entry (Q (tr (r, c))) (map a [Bond (Hor r c); Bond (Ver r (up1 w c)); Site r (up1 w c)]) * entry (Q (r, c)) (map a [Site r c; Bond (Ver r c); Bond (Hor r c)])))%C.
Proof. intros H. destruct (names r c H) as (N1 & N2 & N3 & N4). unfold G, pv, qv, pval, qval. rewrite N1, N2, N3, N4. reflexivity. Qed.
Lemma plaq_value r c a : In (r, c) (evens w) -> entry (plaq (r, c)) (map a (qlist (corners w (r, c)))) = gsum (g (r, c)) d (G (r, c)) a.
Proof.
  intros H. destruct (plaq_shapes r c H) as (S1 & S2 & S3 & S4). cbn [map] in S1, S2, S3, S4. unfold plaq. cbn [corners qlist map]. rewrite (plaquette_entry _ _ _ _ _ _ _ _ _ _ _ _ _ _ _ _ S1 S2 S3 S4).
  unfold g. cbn [NetSum.gsum fst snd]. apply in_evens in H. destruct H as (Hr & Hc & E).
  pose proof (up1_neq w r ltac:(unfold w; lia) Hr). pose proof (up1_neq w c ltac:(unfold w; lia) Hc).
  do 4 (apply sumC_ext; intros ? _). rewrite G_names by (apply in_evens; tauto). cbn [map].
  repeat first [rewrite upd_same | rewrite upd_other by congruence]. reflexivity.
Qed.
Lemma plaquettes : even_sum d w X = odd_sum d w plaq.
Proof.
  unfold even_sum, odd_sum.
  rewrite (renormalise var_dec (grid w w) (evens w) (bond_vars w) new_site g d (fun rc a => entry (X rc) (map a (qlist (legs w rc)))) (fun rc a => (pv rc a * qv rc a)%C) G).
  - apply gsum_ext_all. intros a. apply prodC_ext. intros [r c] H. symmetry. apply plaq_value. exact H.
  - apply grid_nodup.
  - apply evens_nodup.
  - apply bond_vars_nodup.
  - apply site_vars_nodup.
  - exact groups.
  - intros rc _ H. apply in_map_iff in H. destruct H as (b & E & _). discriminate.
  - intros rc a H Ra. apply HC; [exact H|]. intros v Hv. apply Ra. destruct rc as [r c]. apply grid_in in H. unfold legs in Hv. cbn [qlist In] in Hv. pose proof (down1_lt w r). pose proof (down1_lt w c).
    destruct Hv as [<-|[<-|[<-|[<-|[]]]]]; apply in_map, bonds_in; tauto.
  - intros [r c] [r' c'] _ _ NE. apply indep_mul; apply entry_indep; intros v [<-|[]] Hv; unfold legs, new_site in Hv; destruct (colour (r, c)); cbn in Hv; intuition (try discriminate; congruence).
  - intros a. rewrite prodC_mul. rewrite (prodC_perm (fun rc => pv rc a) _ _ (two_colours w)), (prodC_perm (fun rc => qv rc a) _ _ (two_colours w)), !prodC_app.
    pose proof (prodC_perm (fun rc => pv rc a) _ _ (odds_down m)) as E1. pose proof (prodC_perm (fun rc => qv rc a) _ _ (odds_right m)) as E2. pose proof (prodC_perm (fun rc => pv rc a) _ _ (evens_diagonal m)) as E3.
    change (2 * m) with w in E1, E2, E3. rewrite prodC_map in E1, E2, E3. unfold G. rewrite !prodC_mul, E1, E2. rewrite E3 at 1. unfold tr, bl, br. ring.
  - intros [r c] [r' c'] Hq Hq' NE a v i Hv. rewrite !G_names by exact Hq.
    assert (F : forall u, u <> v \/ In u (g (r, c)) -> u <> v) by (intros u [K|K]; [exact K|]; intros ->; exact (group_other _ _ _ Hq Hq' NE K Hv)).
    assert (N1 : forall x y, Site x y <> v) by (intros x y <-; cbn in Hv; intuition discriminate).
    rewrite !map_upd; [reflexivity| | | |]; cbn [In]; intros K; repeat (destruct K as [K|K]; [revert K; apply F; first [left; apply N1 | right; cbn; tauto]|]); exact K.
Qed.
End Plaquettes.

(** *** From plaquettes to sites *)
Definition row_type (rc : nat * nat) : stype := if fst rc mod 2 =? 1 then Type1 else Type0.
Definition new_bond (m : nat) (rc : nat * nat) : var :=
  if fst rc mod 2 =? 1 then Bond (Ver (fst rc / 2) (snd rc / 2)) else Bond (Hor (fst rc / 2) (down1 m (snd rc / 2))).
Section Diamonds.
Context (m : nat) (Hm : 1 <= m).
Let w := 2 * m.
Context (d : var -> nat) (X P Q : nat * nat -> tensor).
Hypothesis HC : forall rc, In rc (evens w) -> cut d (row_type rc) (corners w rc) (new_bond m rc) (X rc) (P rc) (Q rc).
Definition wn (ij : nat * nat) := (2 * fst ij, 2 * snd ij).
Definition sn (ij : nat * nat) := (2 * fst ij + 1, 2 * snd ij + 1).
Definition en (ij : nat * nat) := (2 * fst ij, up1 w (2 * snd ij + 1)).
Definition nn (ij : nat * nat) := (down1 w (2 * fst ij), 2 * snd ij + 1).
Definition diam (ij : nat * nat) : tensor := diamond_core (P (nn ij)) (P (en ij)) (Q (sn ij)) (Q (wn ij)).
Let pv rc := pval (row_type rc) (corners w rc) (new_bond m rc) (P rc).
Let qv rc := qval (row_type rc) (corners w rc) (new_bond m rc) (Q rc).
Let G (ij : nat * nat) (a : var -> nat) : C := ((qv (sn ij) a * qv (wn ij) a) * (pv (nn ij) a * pv (en ij) a))%C.
Let g (ij : nat * nat) : list var := [Site (2 * fst ij + 1) (up1 w (2 * snd ij + 1)); Site (2 * fst ij) (2 * snd ij + 1); Site (2 * fst ij + 1) (2 * snd ij + 1); Site (2 * fst ij) (up1 w (2 * snd ij + 1))].
Lemma up_odd j : j < m -> up1 w (2 * j + 1) = 2 * up1 m j.
Proof. intros H. rewrite !up1_val by (unfold w; lia). unfold w. destruct (Nat.eqb_spec (2 * j + 1) (2 * m - 1)), (Nat.eqb_spec j (m - 1)); lia. Qed.
Lemma up_even j : j < m -> up1 w (2 * j) = 2 * j + 1.
Proof. intros H. rewrite up1_val by (unfold w; lia). unfold w. destruct (Nat.eqb_spec (2 * j) (2 * m - 1)); lia. Qed.
Lemma down_even j : j < m -> down1 w (2 * j) = 2 * down1 m j + 1.
Proof. intros H. rewrite !down1_val by (unfold w; lia). unfold w. destruct (Nat.eqb_spec (2 * j) 0), (Nat.eqb_spec j 0); lia. Qed.
Lemma class_perm pr pc (h h' : nat * nat -> nat * nat) : (forall ij, In ij (grid m m) -> In (h ij) (grid w w) /\ fst (h ij) mod 2 = pr /\ snd (h ij) mod 2 = pc /\ h' (h ij) = ij) ->
  (forall rc, In rc (grid w w) -> fst rc mod 2 = pr -> snd rc mod 2 = pc -> In (h' rc) (grid m m) /\ h (h' rc) = rc) ->
  Permutation (filter (fun rc => snd rc mod 2 =? pc) (filter (fun rc => fst rc mod 2 =? pr) (grid w w))) (map h (grid m m)).
Proof.
  intros A B. apply (perm_map _ _ _ h'); [apply grid_nodup|apply NoDup_filter, NoDup_filter, grid_nodup| |].
  - intros ij H. destruct (A ij H) as (A1 & A2 & A3 & A4). split; [|exact A4]. rewrite !filter_In, !Nat.eqb_eq. tauto.
  - intros rc H. rewrite !filter_In, !Nat.eqb_eq in H. apply B; tauto.
Qed.
Lemma filter_other {Y} (f : Y -> nat) l : filter (fun x => negb (f x mod 2 =? 0)) l = filter (fun x => f x mod 2 =? 1) l.
Proof. apply filter_ext. intros x. destruct (Nat.eqb_spec (f x mod 2) 0), (Nat.eqb_spec (f x mod 2) 1); cbn [negb]; try reflexivity; lia. Qed.
Lemma class_split (l : list (nat * nat)) (f : nat * nat -> nat) : Permutation l (filter (fun x => f x mod 2 =? 0) l ++ filter (fun x => f x mod 2 =? 1) l).
Proof. rewrite (filter_both (fun x => f x mod 2 =? 0) l) at 1. rewrite filter_other. reflexivity. Qed.
Ltac inverse := intros [i j] H; unfold wn, sn, en, nn; cbn [fst snd]; apply grid_in in H; rewrite ?up_odd, ?down_even by tauto; pose proof (up1_lt m j); pose proof (down1_lt m i).
Lemma class00 : Permutation (filter (fun rc => snd rc mod 2 =? 0) (filter (fun rc => fst rc mod 2 =? 0) (grid w w))) (map wn (grid m m)).
Proof.
  apply (class_perm 0 0 wn (fun rc => (fst rc / 2, snd rc / 2))).
  - inverse. rewrite grid_in. unfold w. repeat split; try lia. f_equal; lia.
  - intros [r c] H E1 E2. apply grid_in in H. unfold wn in *. cbn [fst snd] in *. rewrite grid_in. unfold w in H. repeat split; try lia. f_equal; lia.
Qed.
Lemma class00e : Permutation (filter (fun rc => snd rc mod 2 =? 0) (filter (fun rc => fst rc mod 2 =? 0) (grid w w))) (map en (grid m m)).
Proof.
  apply (class_perm 0 0 en (fun rc => (fst rc / 2, down1 m (snd rc / 2)))).
  - inverse. rewrite grid_in. unfold w. replace (2 * up1 m j / 2) with (up1 m j) by lia. rewrite down_up by tauto. replace (2 * i / 2) with i by lia. repeat split; lia.
  - intros [r c] H E1 E2. apply grid_in in H. unfold en. cbn [fst snd] in *. rewrite grid_in. unfold w in H. pose proof (down1_lt m (c / 2)). rewrite up_odd, up_down by lia. repeat split; try lia. f_equal; lia.
Qed.
Lemma class11 : Permutation (filter (fun rc => snd rc mod 2 =? 1) (filter (fun rc => fst rc mod 2 =? 1) (grid w w))) (map sn (grid m m)).
Proof.
  apply (class_perm 1 1 sn (fun rc => (fst rc / 2, snd rc / 2))).
  - inverse. rewrite grid_in. unfold w. repeat split; try lia. f_equal; lia.
  - intros [r c] H E1 E2. apply grid_in in H. unfold sn. cbn [fst snd] in *. rewrite grid_in. unfold w in H. repeat split; try lia. f_equal; lia.
Qed.
Lemma class11n : Permutation (filter (fun rc => snd rc mod 2 =? 1) (filter (fun rc => fst rc mod 2 =? 1) (grid w w))) (map nn (grid m m)).
Proof.
  apply (class_perm 1 1 nn (fun rc => (up1 m (fst rc / 2), snd rc / 2))).
  - inverse. rewrite grid_in. unfold w. replace ((2 * down1 m i + 1) / 2) with (down1 m i) by lia. rewrite up_down by tauto. replace ((2 * j + 1) / 2) with j by lia. repeat split; lia.
  - intros [r c] H E1 E2. apply grid_in in H. unfold nn. cbn [fst snd] in *. rewrite grid_in. unfold w in H. pose proof (up1_lt m (r / 2)). rewrite down_even, down_up by lia. repeat split; try lia. f_equal; lia.
Qed.
Lemma class01 : Permutation (filter (fun rc => snd rc mod 2 =? 1) (filter (fun rc => fst rc mod 2 =? 0) (grid w w))) (map (fun ij => (2 * fst ij, 2 * snd ij + 1)) (grid m m)).
Proof.
  apply (class_perm 0 1 _ (fun rc => (fst rc / 2, snd rc / 2))).
  - inverse. rewrite grid_in. unfold w. repeat split; try lia. f_equal; lia.
  - intros [r c] H E1 E2. apply grid_in in H. cbn [fst snd] in *. rewrite grid_in. unfold w in H. repeat split; try lia. f_equal; lia.
Qed.
Lemma class10 : Permutation (filter (fun rc => snd rc mod 2 =? 0) (filter (fun rc => fst rc mod 2 =? 1) (grid w w))) (map (fun ij => (2 * fst ij + 1, up1 w (2 * snd ij + 1))) (grid m m)).
Proof.
  apply (class_perm 1 0 _ (fun rc => (fst rc / 2, down1 m (snd rc / 2)))).
  - inverse. rewrite grid_in. unfold w. replace (2 * up1 m j / 2) with (up1 m j) by lia. rewrite down_up by tauto. replace ((2 * i + 1) / 2) with i by lia. repeat split; lia.
  - intros [r c] H E1 E2. apply grid_in in H. cbn [fst snd] in *. rewrite grid_in. unfold w in H. pose proof (down1_lt m (c / 2)). rewrite up_odd, up_down by lia. repeat split; try lia. f_equal; lia.
Qed.
Lemma evens_classes : Permutation (evens w) (filter (fun rc => snd rc mod 2 =? 0) (filter (fun rc => fst rc mod 2 =? 0) (grid w w)) ++ filter (fun rc => snd rc mod 2 =? 1) (filter (fun rc => fst rc mod 2 =? 1) (grid w w))).
Proof.
  unfold evens. rewrite (class_split (filter _ (grid w w)) fst).
  assert (F : forall p, filter (fun x => fst x mod 2 =? p) (filter (fun rc => Nat.even (fst rc + snd rc)) (grid w w)) = filter (fun x => (fst x mod 2 =? p) && Nat.even (fst x + snd x)) (grid w w)).
  { intros p. induction (grid w w) as [|x l IH]; [reflexivity|]. cbn [filter]. destruct (Nat.even (fst x + snd x)); cbn [filter]; [rewrite andb_true_r|rewrite andb_false_r]; rewrite IH; reflexivity. }
  assert (F2 : forall p, filter (fun x => snd x mod 2 =? p) (filter (fun rc => fst rc mod 2 =? p) (grid w w)) = filter (fun x => (fst x mod 2 =? p) && (snd x mod 2 =? p)) (grid w w)).
  { clear F. intros p. induction (grid w w) as [|x l IH]; [reflexivity|]. cbn [filter]. destruct (fst x mod 2 =? p); cbn [filter andb]; rewrite IH; reflexivity. }
  rewrite !F, !F2. apply Permutation_app; (erewrite filter_ext; [reflexivity|]); intros [r c]; cbn [fst snd]; rewrite even_mod;
    [destruct (Nat.eqb_spec (r mod 2) 0)|destruct (Nat.eqb_spec (r mod 2) 1)]; cbn [andb]; try reflexivity; [destruct (Nat.eqb_spec ((r + c) mod 2) 0), (Nat.eqb_spec (c mod 2) 0)|destruct (Nat.eqb_spec ((r + c) mod 2) 0), (Nat.eqb_spec (c mod 2) 1)]; try reflexivity; lia.
Qed.
Lemma evens_ws : Permutation (evens w) (map wn (grid m m) ++ map sn (grid m m)).
Proof. rewrite evens_classes, class00, class11. reflexivity. Qed.
Lemma evens_en : Permutation (evens w) (map en (grid m m) ++ map nn (grid m m)).
Proof. rewrite evens_classes, class00e, class11n. reflexivity. Qed.
Lemma evens_es : Permutation (evens w) (map en (grid m m) ++ map sn (grid m m)).
Proof. rewrite evens_classes, class00e, class11. reflexivity. Qed.
Lemma all_sites_split : Permutation (grid w w) (map en (grid m m) ++ map (fun ij => (2 * fst ij, 2 * snd ij + 1)) (grid m m) ++ map (fun ij => (2 * fst ij + 1, up1 w (2 * snd ij + 1))) (grid m m) ++ map sn (grid m m)).
Proof.
  rewrite (class_split (grid w w) fst). rewrite (class_split (filter (fun x => fst x mod 2 =? 0) _) snd), (class_split (filter (fun x => fst x mod 2 =? 1) _) snd).
  rewrite class00e, class01, class10, class11, <- app_assoc. reflexivity.
Qed.
Lemma diamond_groups : Permutation (site_vars w) (flat_map g (grid m m)).
Proof.
  unfold g. rewrite flat4. unfold site_vars. rewrite all_sites_split, !map_app, !map_map. unfold en, sn. cbn [fst snd].
  rewrite Permutation_app_comm, <- !app_assoc. set (A := map _ _). set (B := map _ _). set (D := map _ _). set (E := map _ _).
  rewrite (app_assoc A B), (app_assoc B A). apply Permutation_app_tail, Permutation_app_comm.
Qed.
Lemma new_of ij : In ij (grid m m) -> new_bond m (wn ij) = Bond (Hor (fst ij) (down1 m (snd ij))) /\ new_bond m (sn ij) = Bond (Ver (fst ij) (snd ij)) /\
  new_bond m (en ij) = Bond (Hor (fst ij) (snd ij)) /\ new_bond m (nn ij) = Bond (Ver (down1 m (fst ij)) (snd ij)).
Proof.
  destruct ij as [i j]. intros H. apply grid_in in H. unfold new_bond, wn, sn, en, nn. cbn [fst snd]. rewrite up_odd, down_even by tauto.
  replace (2 * i mod 2) with 0 by lia. replace ((2 * i + 1) mod 2) with 1 by lia. replace ((2 * down1 m i + 1) mod 2) with 1 by lia. cbn [Nat.eqb].
  replace (2 * i / 2) with i by lia. replace (2 * j / 2) with j by lia. replace ((2 * i + 1) / 2) with i by lia. replace ((2 * j + 1) / 2) with j by lia.
  replace (2 * up1 m j / 2) with (up1 m j) by lia. replace ((2 * down1 m i + 1) / 2) with (down1 m i) by lia. rewrite down_up by tauto. repeat split.
Qed.
Lemma new_bonds : Permutation (map (new_bond m) (evens w)) (bond_vars m).
Proof.
  rewrite evens_es, map_app, !map_map. unfold bond_vars, bonds. rewrite map_app, !map_map. apply Permutation_app; (erewrite map_ext_in; [reflexivity|]); intros ij H; apply new_of; exact H.
Qed.
Lemma diamond_names i j : In (i, j) (grid m m) ->
  pvars (row_type (nn (i, j))) (corners w (nn (i, j))) (new_bond m (nn (i, j))) = [Bond (Ver (down1 m i) j); Site (2 * i) (up1 w (2 * j + 1)); Site (2 * i) (2 * j + 1)] /\
  pvars (row_type (en (i, j))) (corners w (en (i, j))) (new_bond m (en (i, j))) = [Site (2 * i) (up1 w (2 * j + 1)); Site (2 * i + 1) (up1 w (2 * j + 1)); Bond (Hor i j)] /\
  qvars (row_type (sn (i, j))) (corners w (sn (i, j))) (new_bond m (sn (i, j))) = [Site (2 * i + 1) (2 * j + 1); Site (2 * i + 1) (up1 w (2 * j + 1)); Bond (Ver i j)] /\
  qvars (row_type (wn (i, j))) (corners w (wn (i, j))) (new_bond m (wn (i, j))) = [Bond (Hor i (down1 m j)); Site (2 * i) (2 * j + 1); Site (2 * i + 1) (2 * j + 1)].
Proof.
  intros H. destruct (new_of (i, j) H) as (-> & -> & -> & ->). apply grid_in in H. unfold row_type, corners, wn, sn, en, nn. cbn [fst snd].
  rewrite up_down by (unfold w; lia). rewrite !(up_even i), !(up_even j) by tauto. rewrite down_even by tauto. replace (2 * i mod 2) with 0 by lia. replace ((2 * i + 1) mod 2) with 1 by lia. replace ((2 * down1 m i + 1) mod 2) with 1 by lia. cbn [Nat.eqb].
  repeat split.
Qed.
Lemma four_nodes ij : In ij (grid m m) -> In (nn ij) (evens w) /\ In (en ij) (evens w) /\ In (sn ij) (evens w) /\ In (wn ij) (evens w).
Proof.
  intros H. repeat split; [apply (Permutation_in _ (Permutation_sym evens_en)), in_or_app; right|apply (Permutation_in _ (Permutation_sym evens_en)), in_or_app; left
   |apply (Permutation_in _ (Permutation_sym evens_ws)), in_or_app; right|apply (Permutation_in _ (Permutation_sym evens_ws)), in_or_app; left]; apply in_map; exact H.
Qed.
Lemma diamond_shapes i j : In (i, j) (grid m m) ->
  shape (P (nn (i, j))) = map d [Bond (Ver (down1 m i) j); Site (2 * i) (up1 w (2 * j + 1)); Site (2 * i) (2 * j + 1)] /\
  shape (P (en (i, j))) = map d [Site (2 * i) (up1 w (2 * j + 1)); Site (2 * i + 1) (up1 w (2 * j + 1)); Bond (Hor i j)] /\
  shape (Q (sn (i, j))) = map d [Site (2 * i + 1) (2 * j + 1); Site (2 * i + 1) (up1 w (2 * j + 1)); Bond (Ver i j)] /\
  shape (Q (wn (i, j))) = map d [Bond (Hor i (down1 m j)); Site (2 * i) (2 * j + 1); Site (2 * i + 1) (2 * j + 1)].
Proof.
  intros H. destruct (diamond_names i j H) as (<- & <- & <- & <-). destruct (four_nodes (i, j) H) as (A & B & C0 & D).
  repeat split; [apply (HC _ A)|apply (HC _ B)|apply (HC _ C0)|apply (HC _ D)].
Qed.
Lemma diam_fits : even_fits d m diam.
Proof.
  intros [i j] H. destruct (diamond_shapes i j H) as (S1 & S2 & S3 & S4). unfold diam. cbn [map] in S1, S2, S3, S4. rewrite (diamond_shape _ _ _ _ _ _ _ _ _ _ _ _ S1 S2 S3 S4). reflexivity.
Qed.
Lemma DG_names i j a : In (i, j) (grid m m) -> G (i, j) a =
  ((entry (Q (sn (i, j))) (map a [Site (2 * i + 1) (2 * j + 1); Site (2 * i + 1) (up1 w (2 * j + 1)); Bond (Ver i j)]) * entry (Q (wn (i, j))) (map a [Bond (Hor i (down1 m j)); Site (2 * i) (2 * j + 1); Site (2 * i + 1) (2 * j + 1)])) *
   (entry (P (nn (i, j))) (map a [Bond (Ver (down1 m i) j); Site (2 * i) (up1 w (2 * j + 1)); Site (2 * i) (2 * j + 1)]) * entry (P (en (i, j))) (map a [Site (2 * i) (up1 w (2 * j + 1)); Site (2 * i + 1) (up1 w (2 * j + 1)); Bond (Hor i j)])))%C.
Proof. intros H. destruct (diamond_names i j H) as (N1 & N2 & N3 & N4). unfold G, pv, qv, pval, qval. rewrite N1, N2, N3, N4. reflexivity. Qed.
Lemma diam_value i j a : In (i, j) (grid m m) -> entry (diam (i, j)) (map a (qlist (legs m (i, j)))) = gsum (g (i, j)) d (G (i, j)) a.
Proof.
  intros H. destruct (diamond_shapes i j H) as (S1 & S2 & S3 & S4). cbn [map] in S1, S2, S3, S4. unfold diam. cbn [legs qlist map]. rewrite (diamond_entry _ _ _ _ _ _ _ _ _ _ _ _ _ _ _ _ S1 S2 S3 S4).
  unfold g. cbn [NetSum.gsum fst snd]. pose proof H as H'. apply grid_in in H'.
  assert (E : up1 w (2 * j + 1) <> 2 * j + 1) by (rewrite up_odd by tauto; lia). clear H'.
  do 4 (apply sumC_ext; intros ? _). rewrite DG_names by exact H. cbn [map]. clear S1 S2 S3 S4. generalize dependent (up1 w (2 * j + 1)). intros y E.
  repeat first [rewrite upd_same | rewrite upd_other by (first [discriminate | intros K; injection K; lia])]. reflexivity.
Qed.
Lemma diamond_other q q' v : In q (grid m m) -> In q' (grid m m) -> q <> q' -> In v (g q) -> In v (g q') -> False.
Proof.
  intros Hq Hq' NE Hv Hv'. pose proof (Permutation_NoDup diamond_groups (site_vars_nodup w)) as ND. clear -Hq Hq' NE Hv Hv' ND.
  induction (grid m m) as [|x l IH]; [contradiction|]. cbn [flat_map] in ND.
  assert (D : NoDup (flat_map g l) /\ forall v, In v (g x) -> ~ In v (flat_map g l)).
  { clear -ND. induction (g x) as [|y t IHt]; cbn [app] in ND; [split; [exact ND|intros ? []]|]. inversion ND as [|? ? N1 N2]; subst. destruct (IHt N2) as [A B]. split; [exact A|].
    intros z [<-|Hz]; [intros E; apply N1, in_or_app; right; exact E|apply B; exact Hz]. }
  destruct D as [N' D]. destruct Hq as [->|Hq], Hq' as [->|Hq'].
  - contradiction.
  - apply (D v Hv). apply in_flat_map. exists q'. split; assumption.
  - apply (D v Hv'). apply in_flat_map. exists q. split; assumption.
  - exact (IH Hq Hq' N').
Qed.
Lemma diamonds : odd_sum d w X = even_sum d m diam.
Proof.
  unfold even_sum, odd_sum.
  assert (NA : NoDup (map (new_bond m) (evens w))) by exact (Permutation_NoDup (Permutation_sym new_bonds) (bond_vars_nodup m)).
  rewrite (renormalise var_dec (evens w) (grid m m) (site_vars w) (new_bond m) g d (fun rc a => entry (X rc) (map a (qlist (corners w rc)))) (fun rc a => (pv rc a * qv rc a)%C) G).
  - rewrite (gsum_perm var_dec _ _ d _ new_bonds NA). apply gsum_ext_all. intros a. apply prodC_ext. intros [i j] H. symmetry. apply diam_value. exact H.
  - apply evens_nodup.
  - apply grid_nodup.
  - apply site_vars_nodup.
  - exact NA.
  - exact diamond_groups.
  - intros rc _ H. apply in_map_iff in H. destruct H as (b & E & _). unfold new_bond in E. destruct (fst rc mod 2 =? 1); discriminate.
  - intros rc a H Ra. apply HC; [exact H|]. intros v Hv. apply Ra. destruct rc as [r c]. apply in_evens in H. unfold corners in Hv. cbn [qlist In] in Hv. pose proof (up1_lt w r). pose proof (up1_lt w c).
    destruct Hv as [<-|[<-|[<-|[<-|[]]]]]; unfold site_vars; rewrite in_map_iff; eexists (_, _); (split; [reflexivity|]); apply grid_in; tauto.
  - intros rc rc' H H' NE. assert (NB : new_bond m rc' <> new_bond m rc).
    { intros E. apply NE. symmetry. revert E. clear -NA H H'. induction (evens w) as [|x l IH]; [contradiction|]. inversion NA as [|? ? N1 N2]; subst. intros E. destruct H as [->|H], H' as [->|H']; [reflexivity| | |exact (IH N2 H H' E)].
      - exfalso. apply N1. rewrite <- E. apply in_map. exact H'.
      - exfalso. apply N1. rewrite E. apply in_map. exact H. }
    assert (NS : forall x y, Site x y <> new_bond m rc') by (intros x y; unfold new_bond; destruct (fst rc' mod 2 =? 1); discriminate).
    apply indep_mul; apply entry_indep; intros v [<-|[]] Hv; unfold corners in Hv; destruct rc as [r c]; destruct (row_type (r, c)); cbn [pvars qvars In] in Hv;
      repeat (destruct Hv as [Hv|Hv]; [first [exact (NS _ _ Hv) | apply NB; symmetry; exact Hv]|]); exact Hv.
  - intros a. rewrite prodC_mul. rewrite (prodC_perm (fun rc => pv rc a) _ _ evens_en), (prodC_perm (fun rc => qv rc a) _ _ evens_ws), !prodC_app, !prodC_map. unfold G. rewrite !prodC_mul. ring.
  - intros [i j] [i' j'] Hq Hq' NE a v k Hv. rewrite !DG_names by exact Hq.
    assert (F : forall u, u <> v \/ In u (g (i, j)) -> u <> v) by (intros u [K|K]; [exact K|]; intros ->; exact (diamond_other _ _ _ Hq Hq' NE K Hv)).
    assert (N1 : forall b, Bond b <> v) by (intros b <-; cbn [g In] in Hv; intuition discriminate).
    rewrite !map_upd; [reflexivity| | | |]; cbn [In]; intros K; repeat (destruct K as [K|K]; [revert K; apply F; first [left; apply N1 | right; cbn [g In fst snd]; tauto]|]); exact K.
Qed.
End Diamonds.
