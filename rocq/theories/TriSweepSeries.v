(** Calls with exponential gates, as products of exponential series. *)
From Coq Require Import List Arith Bool Reals Lia Lra Permutation.
From Verif Require Import Base Cplx SumModel SumSpec SumProofs NetSum PbcProofs TrgTensor BmpsSum ProjModel ProjSpec ProjWave ProjTri ProjSteps ExpModel ExpSpec ExpAlg ExpOp ExpMain ExpTotal TriSweepModel TriSweepSpec.
Import ListNotations.
Local Open Scope nat_scope.

Lemma sum_choices3 d d' d'' f : sumC f (choices [d; d'; d'']) = sumC (fun i => sumC (fun j => sumC (fun k => f [i; j; k]) (seq 0 d'')) (seq 0 d')) (seq 0 d).
Proof.
  change (choices [d; d'; d'']) with (flat_map (fun i => map (cons i) (choices [d'; d''])) (seq 0 d)). rewrite sumC_flat_map. apply sumC_ext. intros i _. rewrite sumC_map. apply sum_choices2.
Qed.
Lemma gate3_op g d d' d'' x y z psi s : shape g = [d; d'; d''] ++ [d; d'; d''] -> gate3 g x y z psi s = op (fun i j => entry g (i ++ j)) [d; d'; d''] [x; y; z] psi s.
Proof. intros S. unfold gate3, op. rewrite sum_choices3, !(dimat_shape g _ _ S). cbn [nth app]. reflexivity. Qed.
Definition dims (P : peps) (xs : list (nat * nat)) : list nat := map (fun z => phys P (fst z) (snd z)) xs.
Lemma act_op P o g psi s : gate_fits P o g -> act (p_rows P) (p_cols P) o g psi s = op (fun i j => entry g (i ++ j)) (dims P (sites_of (p_rows P) (p_cols P) o)) (sites_of (p_rows P) (p_cols P) o) psi s.
Proof. intros S. unfold act, gate_fits in *. destruct o; cbn [sites_of dims map] in *; first [apply gate2_op|apply gate3_op]; exact S. Qed.
Lemma dims_fit P xs : Forall2 (fun x d => d = phys P (fst x) (snd x)) xs (dims P xs).
Proof. induction xs as [|x xs IH]; constructor; [reflexivity|exact IH]. Qed.
Lemma sites_in P o : valid P o -> forall x, In x (sites_of (p_rows P) (p_cols P) o) -> fst x < p_rows P /\ snd x < p_cols P.
Proof.
  intros [VB _] x Hx.
  assert (B : forall b, In b (bonds_of (p_rows P) (p_cols P) o) -> In b (bonds (p_rows P) (p_cols P) (p_per P))) by exact VB.
  destruct o as [r0 c0|r0 c0|r0 c0|r0 c0|r0 c0|r0 c0]; cbn [sites_of bonds_of] in *;
    repeat match goal with B : forall b, In b ?l -> _ |- _ => pose proof (B _ (or_introl eq_refl)); try pose proof (B _ (or_intror (or_introl eq_refl))); clear B end;
    repeat match goal with H : In _ (bonds _ _ _) |- _ => apply bonds_in in H; cbn in H end;
    assert (r0 < p_rows P /\ c0 < p_cols P) as [Hr Hc] by (destruct (p_per P); lia);
    assert (next (p_rows P) r0 < p_rows P) by (apply Nat.mod_upper_bound; lia); assert (next (p_cols P) c0 < p_cols P) by (apply Nat.mod_upper_bound; lia); assert (prev (p_cols P) c0 < p_cols P) by (apply Nat.mod_upper_bound; lia);
    repeat (destruct Hx as [Hx|Hx]; [subst x; cbn [fst snd]; auto|]); destruct Hx.
Qed.
Lemma values_in P o s : valid P o -> proper P s -> In (values s (sites_of (p_rows P) (p_cols P) o)) (choices (dims P (sites_of (p_rows P) (p_cols P) o))).
Proof.
  intros V Hs. pose proof (sites_in P o V) as H. apply choices_in. induction (sites_of (p_rows P) (p_cols P) o) as [|x xs IH]; [constructor|]. cbn [values dims map]. constructor.
  - destruct (H x (or_introl eq_refl)). apply Hs; assumption.
  - apply IH. intros y Hy. apply H. right. exact Hy.
Qed.
(** one gate *)
Lemma call_series eps tau P o ham : valid P o -> let xs := sites_of (p_rows P) (p_cols P) o in shape ham = zip (dims P xs) (dims P xs) ->
  gate_fits P o (taylor_exp eps tau ham) /\ exists K, 2 <= K <= 999 /\ forall psi, respects psi -> agree P (act (p_rows P) (p_cols P) o (taylor_exp eps tau ham) psi) (exp_terms tau (term ham (dims P xs) xs) K psi).
Proof.
  intros V xs S. destruct (taylor_ok eps tau (dims P xs) ham S) as (K & HK & SG & E & _). split; [exact SG|]. exists K. split; [exact HK|]. intros psi H s Hs.
  rewrite act_op by exact SG. fold xs. pose proof (values_in P o s V Hs) as VI. fold xs in VI.
  transitivity (op (partial_exp (dims P xs) tau (matrix_of ham) K) (dims P xs) xs psi s); [apply op_ext; assumption|].
  apply (op_exp (matrix_of ham) (dims P xs) xs psi); [unfold dims; apply map_length|exact (proj2 V)|exact H|exact VI].
Qed.
Lemma act_resp R K o g psi : respects psi -> respects (act R K o g psi).
Proof.
  intros H s s' E.
  assert (Two : forall x y, gate2 g x y psi s = gate2 g x y psi s').
  { intros x y. unfold gate2. apply sumC_ext. intros i _. apply sumC_ext. intros j _. rewrite !E. f_equal. apply H. intros r c. unfold at_site. rewrite E. reflexivity. }
  assert (Three : forall x y z, gate3 g x y z psi s = gate3 g x y z psi s').
  { intros x y z. unfold gate3. apply sumC_ext. intros i _. apply sumC_ext. intros j _. apply sumC_ext. intros k _. rewrite !E. f_equal. apply H. intros r c. unfold at_site. rewrite E. reflexivity. }
  destruct o; unfold act; cbn [sites_of]; first [apply Two|apply Three].
Qed.
Lemma exp_op_agree P tau (H : (basis -> C) -> basis -> C) K f g : (forall f g, agree P f g -> agree P (H f) (H g)) -> agree P f g -> agree P (exp_terms tau H K f) (exp_terms tau H K g).
Proof.
  intros HA A s Hs. unfold exp_terms. apply sumC_ext. intros k _. f_equal. revert s Hs. induction k as [|k IH]; intros s Hs; [apply A; exact Hs|]. cbn [times_op Nat.iter nat_rect]. apply (HA _ _ IH). exact Hs.
Qed.
Lemma exp_op_same P tau ham ds xs (H : (basis -> C) -> basis -> C) K psi : length ds = length xs -> (forall f g, agree P f g -> agree P (H f) (H g)) ->
  (forall psi, respects psi -> agree P (term ham ds xs psi) (H psi)) -> respects psi -> agree P (exp_terms tau (term ham ds xs) K psi) (exp_terms tau H K psi).
Proof.
  intros L HA E HR s Hs. unfold exp_terms. apply sumC_ext. intros k _. f_equal.
  assert (RK : forall k, respects (times_op k (term ham ds xs) psi)) by (induction k0 as [|k0 IH]; [exact HR|]; apply (op_respects (matrix_of ham) ds xs); [exact L|exact IH]).
  revert s Hs. induction k as [|k IH]; intros s Hs; [reflexivity|]. cbn [times_op Nat.iter nat_rect]. change (nat_rect (fun _ => basis -> C) psi (fun _ => ?h) k) with (times_op k h psi). rewrite (E _ (RK k) s Hs). apply HA; assumption.
Qed.
(** A list of calls. [H] are the operators that the terms stand for. *)
Section Calls.
Context {X : Type} (P : peps) (eps tau : R) (o : X -> call) (ham : X -> tensor) (given : X -> option tensor) (H : X -> (basis -> C) -> basis -> C).
Notation xs x := (sites_of (p_rows P) (p_cols P) (o x)).
Definition stands (x : X) : Prop := valid P (o x) /\ shape (ham x) = zip (dims P (xs x)) (dims P (xs x)) /\
  (forall f g, agree P f g -> agree P (H x f) (H x g)) /\ (forall psi, respects psi -> agree P (term (ham x) (dims P (xs x)) (xs x) psi) (H x psi)).
Lemma calls_series l : (forall x, In x l -> stands x) -> exists orders, orders_for l orders /\ forall psi, respects psi ->
  agree P (acts (p_rows P) (p_cols P) (map (fun x => (o x, taylor_exp eps tau (ham x), given x)) l) psi) (series_product tau H l orders psi).
Proof.
  assert (FA : forall l orders f g, (forall x, In x l -> stands x) -> agree P f g -> agree P (series_product tau H l orders f) (series_product tau H l orders g)).
  { clear l. induction l as [|x l IH]; intros [|k orders] f g S A; try exact A. unfold series_product in *. cbn [combine fold_left fst snd]. apply IH; [intros y Hy; apply S; right; exact Hy|]. destruct (S x (or_introl eq_refl)) as (_ & _ & HA & _). apply exp_op_agree; assumption. }
  induction l as [|x l IH]; intros S; [exists []; split; [split; [reflexivity|intros k []]|intros psi _ s _; reflexivity]|].
  destruct IH as (orders & [L1 L2] & E); [intros y Hy; apply S; right; exact Hy|]. destruct (S x (or_introl eq_refl)) as (V & SH & HA & HT).
  destruct (call_series eps tau P (o x) (ham x) V SH) as (_ & K & HK & G). exists (K :: orders). split; [split; [cbn; congruence|intros k [<-|Q]; [exact HK|apply L2; exact Q]]|].
  intros psi HR s Hs. cbn [map acts]. rewrite E; [|apply act_resp; exact HR|exact Hs]. unfold series_product. cbn [combine fold_left fst snd]. apply (FA l orders); [intros y Hy; apply S; right; exact Hy| |exact Hs].
  intros s' Hs'. rewrite (G psi HR s' Hs'). apply (exp_op_same P tau (ham x) (dims P (xs x)) (xs x) (H x) K psi); try assumption. unfold dims. apply map_length.
Qed.
(** a sweep *)
Lemma sweep_series qr svd tol m : qr_exact qr -> svd_up_to m svd -> forall l, sound tol P -> (forall x, In x l -> stands x) ->
  let calls := map (fun x => (o x, taylor_exp eps tau (ham x), given x)) l in lossless qr svd tol m P calls ->
  let '(Q, n) := project_all qr svd tol P calls in exists orders, orders_for l orders /\ forall s, proper P s -> (RtoC n * wave Q s)%C = series_product tau H l orders (wave P) s.
Proof.
  intros QR SV l SO S calls LL. pose proof (all_calls qr svd tol m QR SV calls P SO LL) as A. destruct (project_all qr svd tol P calls) as [Q n]. destruct A as (_ & _ & A).
  destruct (calls_series l S) as (orders & O & E). exists orders. split; [exact O|]. intros s Hs. rewrite A by exact Hs. apply E; [apply wave_respects|exact Hs].
Qed.
End Calls.
