(** A sweep with nearest and next-nearest neighbours. *)
From Coq Require Import List Arith Bool Reals Lia Lra Permutation.
From Verif Require Import Base Cplx SumModel SumSpec SumProofs NetSum PbcProofs TrgTensor BmpsSum ProjModel ProjSpec ProjWave ProjTri ProjSteps ExpModel ExpSpec ExpAlg ExpOp ExpMain ExpTotal TriSweepModel TriSweepSpec TriSweepSeries TriSweepTerm.
Import ListNotations.
Local Open Scope nat_scope.

Lemma outer42 A B d : shape A = [d; d; d; d] -> shape B = [d; d] -> shape (contract A [] B []) = [d; d; d; d; d; d] /\ forall i i' j j' k k', entry (contract A [] B []) [i; i'; j; j'; k; k'] = (entry A [i; i'; j; j'] * entry B [k; k'])%C.
Proof. destruct A as [shA fA], B as [shB fB]. cbn [shape]. intros -> ->. split; reflexivity. Qed.
Lemma outer24 A B d : shape A = [d; d] -> shape B = [d; d; d; d] -> shape (contract A [] B []) = [d; d; d; d; d; d] /\ forall i i' j j' k k', entry (contract A [] B []) [i; i'; j; j'; k; k'] = (entry A [i; i'] * entry B [j; j'; k; k'])%C.
Proof. destruct A as [shA fA], B as [shB fB]. cbn [shape]. intros -> ->. split; reflexivity. Qed.
Lemma outer22 A B d : shape A = [d; d] -> shape B = [d; d] -> shape (contract A [] B []) = [d; d; d; d] /\ forall i i' j j', entry (contract A [] B []) [i; i'; j; j'] = (entry A [i; i'] * entry B [j; j'])%C.
Proof. intros SA SB. exact (outer A B d d d d SA SB). Qed.
Lemma moved T d : shape T = [d; d; d; d; d; d] -> shape (transpose [0; 1; 4; 5; 2; 3] T) = [d; d; d; d; d; d] /\ forall i i' j j' k k', entry (transpose [0; 1; 4; 5; 2; 3] T) [i; i'; j; j'; k; k'] = entry T [i; i'; k; k'; j; j'].
Proof. destruct T as [sh f]. cbn [shape]. intros ->. split; reflexivity. Qed.
Definition upper (p : corner_at) : bool := match p with AtUpperLeft | AtUpperRight => true | _ => false end.
(** the elements of the term *)
Lemma tri_entry e R K per b p d : shape (x_nn e) = [d; d; d; d] -> shape (x_nnn e) = [d; d; d; d] ->
  match x_onsite e with None => True | Some on => let A := first_site R K per p b in let C := third_site R K per p b in shape (on (fst A) (snd A)) = [d; d] /\ shape (on (fst b) (snd b)) = [d; d] /\ shape (on (fst C) (snd C)) = [d; d] end ->
  let h := RtoC (1 / INR (hor_triangles R per p b)) in let v := RtoC (1 / INR (ver_triangles K per p b)) in
  let '(x, y) := if upper p then (h, v) else (v, h) in let n z := RtoC (1 / INR (site_triangles R K per z)) in
  shape (tri_ham e R K per b p) = [d; d; d; d; d; d] /\
  forall i i' j j' k k', entry (tri_ham e R K per b p) [i; i'; j; j'; k; k'] =
    (RtoC (1 / 2) * entry (x_nnn e) [i; i'; k; k'] * dl j j' + x * entry (x_nn e) [i; i'; j; j'] * dl k k' + dl i i' * (y * entry (x_nn e) [j; j'; k; k']) +
     match x_onsite e with
     | None => RtoC 0
     | Some on => let A := first_site R K per p b in let C := third_site R K per p b in
         n A * entry (on (fst A) (snd A)) [i; i'] * dl j j' * dl k k' + dl i i' * (n b * entry (on (fst b) (snd b)) [j; j']) * dl k k' + dl i i' * dl j j' * (n C * entry (on (fst C) (snd C)) [k; k'])
     end)%C.
Proof.
  intros S1 S2 SO h v. destruct (if upper p then (h, v) else (v, h)) as [x y] eqn:EXY. intros n. unfold tri_ham. cbv zeta. rewrite (dimat_shape (x_nn e) 0 _ S1). cbn [nth].
  assert (SI : shape (eye d) = [d; d]) by reflexivity. assert (EI : forall i j, entry (eye d) [i; j] = dl i j) by reflexivity.
  set (id := eye d) in *. clearbody id.
  destruct (outer42 _ _ _ S2 SI) as [N1 N2]. destruct (outer24 _ _ _ SI S1) as [P1 P2]. destruct (outer42 _ _ _ S1 SI) as [Q1 Q2].
  destruct (moved (times (RtoC (1 / 2)) (contract (x_nnn e) [] id [])) d N1) as [M1 M2].
  set (T0 := transpose [0; 1; 4; 5; 2; 3] (times (RtoC (1 / 2)) (contract (x_nnn e) [] id []))) in *.
  set (T1 := contract id [] (x_nn e) []) in *. set (T2 := contract (x_nn e) [] id []) in *.
  assert (M3 : forall i i' j j' k k', entry T0 [i; i'; j; j'; k; k'] = (RtoC (1 / 2) * entry (x_nnn e) [i; i'; k; k'] * dl j j')%C).
  { intros. rewrite M2. cbn [times entry]. rewrite N2, EI. ring. }
  clearbody T0 T1 T2. clear M2 N1 N2.
  assert (BE : forall hor ver, hor = (if upper p then times h T2 else times h T1) -> ver = (if upper p then times v T1 else times v T2) -> shape (tadd (tadd T0 hor) ver) = [d; d; d; d; d; d] /\
     forall i i' j j' k k', entry (tadd (tadd T0 hor) ver) [i; i'; j; j'; k; k'] = (RtoC (1 / 2) * entry (x_nnn e) [i; i'; k; k'] * dl j j' + x * entry (x_nn e) [i; i'; j; j'] * dl k k' + dl i i' * (y * entry (x_nn e) [j; j'; k; k']))%C).
  { intros hor ver -> ->. split; [exact M1|]. intros. cbn [tadd entry]. rewrite M3. destruct (upper p); injection EXY as <- <-; cbn [times entry]; rewrite Q2, P2, !EI; ring. }
  specialize (BE (match p with AtUpperLeft | AtUpperRight => times h T2 | _ => times h T1 end) (match p with AtUpperLeft | AtUpperRight => times v T1 | _ => times v T2 end) ltac:(destruct p; reflexivity) ltac:(destruct p; reflexivity)).
  fold h v. set (B := tadd (tadd T0 _) _) in *. clearbody B. destruct BE as [B1 B2].
  destruct (x_onsite e) as [on|]; [|split; [exact B1|intros; rewrite B2; ring]]. cbv zeta in SO. destruct SO as (O1 & O2 & O3).
  destruct (outer22 _ _ _ O1 SI) as [A1 A2]. destruct (outer42 _ _ _ A1 SI) as [_ A4]. destruct (outer22 _ _ _ SI O2) as [C1 C2]. destruct (outer42 _ _ _ C1 SI) as [_ C4]. destruct (outer22 _ _ _ SI SI) as [D1 D2]. destruct (outer42 _ _ _ D1 O3) as [_ D4].
  split; [exact B1|]. intros. cbn [tadd times entry]. rewrite B2, A4, A2, C4, C2, D4, D2, !EI. unfold n. ring.
Qed.

Lemma stepm n c : 2 <= n -> c < n -> (c + 1) mod n <> c /\ (c + 1) mod n < n.
Proof. intros Hn Hc. split; [|apply Nat.mod_upper_bound; lia]. destruct (Nat.eq_dec (c + 1) n) as [E|]; [rewrite E, Nat.mod_same by lia; lia|rewrite Nat.mod_small by lia; lia]. Qed.

Section Sweep.
Context (e : nnn_executor) (P : peps) (HR : 2 <= p_rows P) (HK : 2 <= p_cols P).
Notation R := (p_rows P). Notation K := (p_cols P). Notation per := (p_per P).
Definition inside_at (r c : nat) : Prop := r < (if per then R else R - 1) /\ c < (if per then K else K - 1).
Lemma mod_vert r : r < (if per then R else R - 1) -> (r + 1) mod (vert_rows R per) = next R r /\ next R r < R /\ next R r <> r /\ r < R.
Proof.
  intros H. unfold vert_rows, next. destruct per.
  - destruct (stepm R r HR H) as [A B]. auto.
  - rewrite !Nat.mod_small by lia. lia.
Qed.
Lemma mod_horiz c : c < (if per then K else K - 1) -> (c + 1) mod (horiz_cols K per) = next K c /\ next K c < K /\ next K c <> c /\ c < K.
Proof.
  intros H. unfold horiz_cols, next. destruct per.
  - destruct (stepm K c HK H) as [A B]. auto.
  - rewrite !Nat.mod_small by lia. lia.
Qed.
Lemma prev_next n c : 2 <= n -> c < n -> prev n (next n c) = c.
Proof.
  intros Hn Hc. unfold prev, next. destruct (Nat.eq_dec (c + 1) n) as [E|].
  - rewrite E, Nat.mod_same by lia. replace (0 + n - 1) with c by lia. apply Nat.mod_small. exact Hc.
  - rewrite (Nat.mod_small (c + 1)) by lia. replace (c + 1 + n - 1) with (c + 1 * n) by lia. rewrite Nat.mod_add by lia. apply Nat.mod_small. exact Hc.
Qed.
Definition listed (t : triangle) : list (nat * nat) := let '(a, b, c) := triangle_sites R K t in [a; b; c].
Lemma call_sites p r c : inside_at r c -> sites_of R K (tri_call K per p r c) = listed (p, r, c).
Proof.
  intros [Hr Hc]. destruct (mod_vert r Hr) as (E1 & _). destruct (mod_horiz c Hc) as (E2 & _ & _ & L). destruct p; cbn [tri_call sites_of listed triangle_sites]; rewrite ?E2, ?prev_next by assumption; reflexivity.
Qed.
Lemma call_valid p r c : inside_at r c -> valid P (tri_call K per p r c).
Proof.
  intros I. pose proof I as [Hr Hc]. split.
  - destruct (mod_vert r Hr) as (E1 & V1 & V2 & V3). destruct (mod_horiz c Hc) as (E2 & W1 & W2 & W3).
    intros b Hb. apply bonds_in. destruct p; cbn [tri_call bonds_of] in Hb; rewrite ?E2, ?prev_next in Hb by assumption; destruct Hb as [<-|[<-|[]]]; cbn; split; try assumption.
  - rewrite call_sites by exact I. destruct (mod_vert r Hr) as (E1 & V1 & V2 & V3). destruct (mod_horiz c Hc) as (E2 & W1 & W2 & W3).
    destruct p; cbn [listed triangle_sites]; repeat constructor; cbn [In]; intuition congruence.
Qed.
Lemma corner_mid p r c : inside_at r c -> corner_of R K per p r c = snd (fst (triangle_sites R K (p, r, c))).
Proof. intros [Hr Hc]. destruct (mod_vert r Hr) as (E1 & _). destruct (mod_horiz c Hc) as (E2 & _). destruct p; cbn [corner_of triangle_sites fst snd]; rewrite ?E1, ?E2; reflexivity. Qed.
(** the shares of the bonds *)
Ltac comp := repeat match goal with |- context [?a =? ?b] => destruct (Nat.eqb_spec a b) | |- context [?a <? ?b] => destruct (Nat.ltb_spec a b) end; cbn [one_if orb andb negb]; try reflexivity; try (exfalso; lia).
Lemma shares_ok p r c : inside_at r c -> let '(a, b, z) := triangle_sites R K (p, r, c) in let h := hor_triangles R per p b in let v := ver_triangles K per p b in
  (if upper p then h else v) = 2 * sides R K per a b /\ (if upper p then v else h) = 2 * sides R K per b z.
Proof.
  intros [Hr Hc]. destruct (mod_vert r Hr) as (E1 & V1 & V2 & V3). destruct (mod_horiz c Hc) as (E2 & W1 & W2 & W3).
  assert (NR : (next R r =? r) = false) by (apply Nat.eqb_neq; exact V2). assert (RN : (r =? next R r) = false) by (apply Nat.eqb_neq; congruence).
  destruct per eqn:EP.
  - destruct p; cbn [triangle_sites upper hor_triangles ver_triangles negb andb]; unfold sides; cbn [fst snd]; rewrite ?Nat.eqb_refl, ?NR, ?RN, !orb_true_r; split; reflexivity.
  - assert (NX : next R r = r + 1) by (apply Nat.mod_small; lia). assert (NY : next K c = c + 1) by (apply Nat.mod_small; lia).
    destruct p; cbn [triangle_sites upper hor_triangles ver_triangles negb andb]; unfold sides; cbn [fst snd]; rewrite ?Nat.eqb_refl, ?NR, ?RN, !orb_false_r; rewrite ?NX, ?NY in *; split; comp.
Qed.
Lemma mod_lt x n : 0 < n -> x mod n < n.
Proof. intros H. apply Nat.mod_upper_bound. lia. Qed.
(** the term of a triangle *)
Lemma tri_stands p r c : nnn_fit e P -> plain_onsite e P -> inside_at r c ->
  stands P (fun t => let '(p, r, c) := t in tri_call K per p r c) (fun t => let '(p, r, c) := t in tri_ham e R K per (corner_of R K per p r c) p) (triangle_operator e P) (p, r, c).
Proof.
  intros (d & HD & S1 & S2 & SO) PO I. unfold stands. rewrite call_sites by exact I. pose proof (call_valid p r c I) as V. split; [exact V|].
  rewrite (corner_mid p r c I). pose proof (shares_ok p r c I) as SH. pose proof (sites_in P _ V) as SI. rewrite call_sites in SI by exact I. pose proof (proj2 V) as ND. rewrite call_sites in ND by exact I. unfold listed in *.
  unfold triangle_operator. destruct (triangle_sites R K (p, r, c)) as [[a b] z] eqn:ET. cbn [fst snd]. destruct SH as [SA SB].
  assert (BA : fst a < R /\ snd a < K) by (apply SI; cbn; auto). assert (BB : fst b < R /\ snd b < K) by (apply SI; cbn; auto). assert (BZ : fst z < R /\ snd z < K) by (apply SI; cbn; auto).
  assert (DA : phys P (fst a) (snd a) = d) by (apply HD; apply BA). assert (DB : phys P (fst b) (snd b) = d) by (apply HD; apply BB). assert (DZ : phys P (fst z) (snd z) = d) by (apply HD; apply BZ).
  assert (Nab : a <> b) by (intros ->; inversion ND as [|? ? Q]; apply Q; left; reflexivity). assert (Naz : a <> z) by (intros ->; inversion ND as [|? ? Q]; apply Q; right; left; reflexivity).
  assert (Nbz : b <> z) by (intros ->; inversion ND as [|? ? _ ND']; inversion ND' as [|? ? Q]; apply Q; left; reflexivity).
  assert (ON : match x_onsite e with None => True | Some on => let A := first_site R K per p b in let C := third_site R K per p b in shape (on (fst A) (snd A)) = [d; d] /\ shape (on (fst b) (snd b)) = [d; d] /\ shape (on (fst C) (snd C)) = [d; d] end).
  { unfold plain_onsite in PO. destruct (x_onsite e) as [on|]; [|exact Logic.I]. destruct PO as [_ PO]. cbv zeta. rewrite (PO (fst (first_site R K per p b))), (PO (fst b)), (PO (fst (third_site R K per p b))). assert (shape (on 0 0) = [d; d]) by (apply SO; lia). auto. }
  pose proof (tri_entry e R K per b p d S1 S2 ON) as TE. cbv zeta in TE.
  set (x := if upper p then RtoC (1 / INR (hor_triangles R per p b)) else RtoC (1 / INR (ver_triangles K per p b))).
  set (y := if upper p then RtoC (1 / INR (ver_triangles K per p b)) else RtoC (1 / INR (hor_triangles R per p b))).
  assert (X : x = RtoC (1 / INR (2 * sides R K per a b))) by (unfold x; rewrite <- SA; destruct (upper p); reflexivity).
  assert (Y : y = RtoC (1 / INR (2 * sides R K per b z))) by (unfold y; rewrite <- SB; destruct (upper p); reflexivity).
  replace (if upper p then (RtoC (1 / INR (hor_triangles R per p b)), RtoC (1 / INR (ver_triangles K per p b))) else (RtoC (1 / INR (ver_triangles K per p b)), RtoC (1 / INR (hor_triangles R per p b)))) with (x, y) in TE by (unfold x, y; destruct (upper p); reflexivity).
  destruct TE as [TS TE]. cbn [dims map zip]. rewrite DA, DB, DZ. split; [exact TS|]. split.
  - intros f g A s Hs. assert (T2 : forall h u w, phys P (fst u) (snd u) = d -> phys P (fst w) (snd w) = d -> term h [d; d] [u; w] f s = term h [d; d] [u; w] g s) by (intros h u w Hu Hw; apply (term_agree P h [u; w] [d; d] f g); [repeat constructor; congruence|exact A|exact Hs]).
    assert (T1 : forall h u, phys P (fst u) (snd u) = d -> term h [d] [u] f s = term h [d] [u] g s) by (intros h u Hu; apply (term_agree P h [u] [d] f g); [repeat constructor; congruence|exact A|exact Hs]).
    rewrite (T2 _ a z), (T2 _ a b), (T2 _ b z) by assumption. destruct (x_onsite e) as [on|]; [|reflexivity]. rewrite ?DA, ?DB, ?DZ. rewrite (T1 _ a), (T1 _ b), (T1 _ z) by assumption. reflexivity.
  - intros psi HP s Hs. rewrite <- X, <- Y. clear X Y.
    assert (Va : s (fst a) (snd a) < d) by (rewrite <- DA; apply Hs; apply BA). assert (Vb : s (fst b) (snd b) < d) by (rewrite <- DB; apply Hs; apply BB). assert (Vz : s (fst z) (snd z) < d) by (rewrite <- DZ; apply Hs; apply BZ).
    set (o := match x_onsite e with None => Tn [] (fun _ => RtoC 0) | Some on => on 0 0 end).
    set (w := match x_onsite e with None => RtoC 0 | Some _ => RtoC (1 / 12) end).
    rewrite (three_term s psi HP a b z Nab Nbz Naz d Va Vb Vz _ (fun i k => (RtoC (1 / 2) * entry (x_nnn e) [i; s (fst a) (snd a); k; s (fst z) (snd z)])%C) (fun i j => (x * entry (x_nn e) [i; s (fst a) (snd a); j; s (fst b) (snd b)])%C)
      (fun j k => (y * entry (x_nn e) [j; s (fst b) (snd b); k; s (fst z) (snd z)])%C) (fun i => (w * entry o [i; s (fst a) (snd a)])%C) (fun j => (w * entry o [j; s (fst b) (snd b)])%C) (fun k => (w * entry o [k; s (fst z) (snd z)])%C)).
    + rewrite !two_S2, !one_S1. f_equal. unfold w, o. unfold plain_onsite in PO. destruct (x_onsite e) as [on|]; [|ring]. destruct PO as [_ PO]. rewrite !(PO (fst _)), ?DA, ?DB, ?DZ. reflexivity.
    + intros i j k. rewrite TE. f_equal. unfold w, o. unfold plain_onsite in PO. destruct (x_onsite e) as [on|]; [|ring]. destruct PO as [PE PO]. rewrite !(PO (fst _)).
      assert (N : forall q, site_triangles R K per q = 12) by (intros [q1 q2]; unfold site_triangles; rewrite PE; reflexivity). rewrite !N. replace (INR 12) with 12%R by (cbn; lra). ring.
Qed.
Lemma order_in t : In t (triangle_order R K per) -> let '(p, r, c) := t in inside_at r c.
Proof.
  intros H. apply in_flat_map in H. destruct H as (p & _ & H). apply in_flat_map in H. destruct H as (c & Hc & H). apply in_map_iff in H. destruct H as (r & <- & Hr). apply in_seq in Hc, Hr. split; lia.
Qed.
Lemma nnn_calls_are eps : nnn_calls e R K per eps = map (fun t => ((fun t : triangle => let '(p, r, c) := t in tri_call K per p r c) t, taylor_exp eps (x_tau e) ((fun t : triangle => let '(p, r, c) := t in tri_ham e R K per (corner_of R K per p r c) p) t), Some ((fun t : triangle => let '(p, r, c) := t in tri_ham e R K per (corner_of R K per p r c) p) t))) (triangle_order R K per).
Proof.
  unfold nnn_calls, triangle_order. rewrite !flat_map_concat_map, !concat_map, !map_map. f_equal. apply map_ext. intros p. rewrite !flat_map_concat_map, !concat_map, !map_map. f_equal. apply map_ext. intros c. rewrite map_map. reflexivity.
Qed.
End Sweep.
