(** A wave function when the tensors of a few sites and the weights on the bonds between them are replaced. *)
From Coq Require Import List Arith Lia Bool Reals Lra Permutation.
From Verif Require Import Base Cplx SumModel SumSpec SumProofs NetSum TrgTensor BmpsAlg ProjModel ProjSpec ProjAlg.
Import ListNotations.
Local Open Scope nat_scope.

Notation gs := (NetSum.gsum bond_eq_dec).
Notation up := (NetSum.upd bond_eq_dec).
Definition site_dec (x y : nat * nat) : {x = y} + {x <> y}.
Proof. decide equality; apply Nat.eq_dec. Defined.
Definition but {A} (dec : forall x y : A, {x = y} + {x <> y}) (l l' : list A) : list A := filter (fun x => if in_dec dec x l' then false else true) l.
Lemma but_in {A} dec (l l' : list A) x : In x (but dec l l') <-> In x l /\ ~ In x l'.
Proof. unfold but. rewrite filter_In. destruct (in_dec dec x l'); split; intros [H K]; split; auto; congruence. Qed.
Lemma but_perm {A} dec (l l' : list A) : NoDup l -> NoDup l' -> incl l' l -> Permutation l (but dec l l' ++ l').
Proof.
  intros N N' I. apply NoDup_Permutation; [exact N| |].
  - assert (NB : NoDup (but dec l l')) by (apply NoDup_filter; exact N).
    assert (D : forall x, In x (but dec l l') -> ~ In x l') by (intros x Hx; apply but_in in Hx; tauto).
    revert NB D. generalize (but dec l l') as k. induction k as [|x k IH]; intros NB D; [exact N'|]. cbn [app]. apply NoDup_cons_iff in NB. destruct NB as [NB1 NB2]. constructor.
    + intros Q. apply in_app_or in Q. destruct Q as [Q|Q]; [contradiction|]. apply (D x); [left; reflexivity|exact Q].
    + apply IH; [exact NB2|]. intros y Hy. apply D. right. exact Hy.
  - intros x. rewrite in_app_iff, but_in. split; [intros H; destruct (in_dec dec x l'); tauto|intros [[H _]|H]; [exact H|apply I; exact H]].
Qed.
Lemma gs_sum {T} vs d (f : T -> (bond -> nat) -> C) ts : forall a, gs vs d (fun a => sumC (fun t => f t a) ts) a = sumC (fun t => gs vs d (f t) a) ts.
Proof.
  induction vs as [|v vs IH]; intros a; [reflexivity|]. cbn [gsum]. rewrite (sumC_ext _ (fun i => sumC (fun t => gs vs d (f t) (up a v i)) ts)) by (intros i _; apply IH). apply sumC_swap.
Qed.
Lemma gs_scal vs d f c : forall a, gs vs d (fun a => (c * f a)%C) a = (c * gs vs d f a)%C.
Proof. intros a. apply (gsum_factor bond_eq_dec vs d (fun _ => c) f). intros b v i _. reflexivity. Qed.

Section Wave.
Context (R K : nat) (per : bool) (X : list (nat * nat)) (I : list bond).
Let G := grid R K. Let B := bonds R K per.
Context (NX : NoDup X) (IX : incl X G) (NI : NoDup I) (II : incl I B).
Let X' := but site_dec G X. Let B' := but bond_eq_dec B I.
Context (FAR : forall r c l b, In (r, c) G -> ~ In (r, c) X -> l < 4 -> leg_bond R K per r c l = Some b -> ~ In b I).
Definition site_of (Q : peps) (s : basis) (a : bond -> nat) (rc : nat * nat) : C := entry (gamma Q (fst rc) (snd rc)) (index_at Q s a (fst rc) (snd rc)).
Definition dims_of (Q : peps) : bond -> nat := fun b => length (lam_of Q b).
Definition weight_of (Q : peps) (a : bond -> nat) (b : bond) : C := el (lam_of Q b) (a b).
Definition inner (Q : peps) (s : basis) (a : bond -> nat) : C := gs I (dims_of Q) (fun a => (prodC (site_of Q s a) X * prodC (weight_of Q a) I)%C) a.
Definition rest (Q : peps) (s : basis) (a : bond -> nat) : C := (prodC (site_of Q s a) X' * prodC (weight_of Q a) B')%C.
Lemma leg_value_far a r c l i b : In (r, c) G -> ~ In (r, c) X -> l < 4 -> In b I -> leg_value R K per (up a b i) r c l = leg_value R K per a r c l.
Proof.
  intros H NH Hl Hb. unfold leg_value. destruct (leg_bond R K per r c l) as [b'|] eqn:E; [|reflexivity]. apply upd_other. intros ->. exact (FAR r c l b H NH Hl E Hb).
Qed.
Lemma rest_indep g v h s : indep bond_eq_dec (rest (Peps R K per g v h) s) I.
Proof.
  intros a b i Hb. unfold rest. f_equal.
  - apply prodC_ext. intros [r c] Hx. unfold X' in Hx. apply but_in in Hx. destruct Hx as [H1 H2]. unfold site_of. f_equal. unfold index_at. cbn [fst snd p_rows p_cols p_per]. f_equal.
    apply map_ext_in. intros l Hl. apply leg_value_far; try assumption. cbn in Hl. lia.
  - apply prodC_ext. intros b' Hb'. unfold B' in Hb'. apply but_in in Hb'. unfold weight_of. rewrite upd_other; [reflexivity|]. intros ->. tauto.
Qed.
Lemma wave_patch g v h s : let Q := Peps R K per g v h in wave Q s = gs B' (dims_of Q) (fun a => (rest Q s a * inner Q s a)%C) (fun _ => 0).
Proof.
  intros Q. unfold wave. cbn [Q p_rows p_cols p_per]. fold Q. fold B. fold G. rewrite sum_over_gsum.
  pose proof (but_perm site_dec G X (grid_nodup R K) NX IX) as PX. pose proof (but_perm bond_eq_dec B I (bonds_nodup R K per) NI II) as PB. fold X' in PX. fold B' in PB.
  rewrite (gsum_perm bond_eq_dec B (B' ++ I) _ _ PB (bonds_nodup R K per)). rewrite gsum_app. apply gsum_ext_all. intros a.
  transitivity (gs I (dims_of Q) (fun a => (rest Q s a * (prodC (site_of Q s a) X * prodC (weight_of Q a) I))%C) a).
  - apply gsum_ext_all. intros b. fold (site_of Q s b). change (fun b0 => RtoC (nth (b b0) (lam_of Q b0) 0%R)) with (weight_of Q b).
    change (prodC (fun rc => entry (gamma Q (fst rc) (snd rc)) (index_at Q s b (fst rc) (snd rc))) G) with (prodC (site_of Q s b) G).
    rewrite (prodC_perm _ _ _ PX), (prodC_perm _ _ _ PB), !prodC_app. unfold rest. ring.
  - rewrite gsum_factor by apply rest_indep. reflexivity.
Qed.
Lemma product_zero {A} (f : A -> C) l : prodC f l = RtoC 0 \/ forall x, In x l -> f x <> RtoC 0.
Proof.
  induction l as [|x l IH]; [right; intros x []|]. destruct (Req_EM_T (fst (f x)) 0) as [E1|E1]; [destruct (Req_EM_T (snd (f x)) 0) as [E2|E2]|].
  - left. rewrite prodC_cons. replace (f x) with (RtoC 0); [ring|]. destruct (f x) as [a b]. cbn in E1, E2. subst. reflexivity.
  - destruct IH as [IH|IH]; [left; rewrite prodC_cons, IH; ring|]. right. intros y [<-|Hy]; [intros Q; rewrite Q in E2; apply E2; reflexivity|apply IH; exact Hy].
  - destruct IH as [IH|IH]; [left; rewrite prodC_cons, IH; ring|]. right. intros y [<-|Hy]; [intros Q; rewrite Q in E1; apply E1; reflexivity|apply IH; exact Hy].
Qed.
Context (g g' : nat -> nat -> tensor) (v h v' h' : nat -> nat -> list Rdefinitions.R).
Let P := Peps R K per g v h. Let P' := Peps R K per g' v' h'.
Context (GS : forall r c, In (r, c) G -> ~ In (r, c) X -> g' r c = g r c) (LS : forall b, In b B -> ~ In b I -> lam_of P' b = lam_of P b).
Theorem patch_gate {T} (ts : list T) (k : T -> C) (st : T -> basis) s :
  (forall t r c, In (r, c) G -> ~ In (r, c) X -> st t r c = s r c) ->
  (forall a, ranged B' (dims_of P) a -> (forall b, In b B' -> weight_of P a b <> RtoC 0) -> inner P' s a = sumC (fun t => (k t * inner P (st t) a)%C) ts) ->
  wave P' s = sumC (fun t => (k t * wave P (st t))%C) ts.
Proof.
  intros Hst H. refine (eq_trans (wave_patch g' v' h' s) _). fold P'. cbv zeta.
  transitivity (gs B' (dims_of P) (fun a => sumC (fun t => (k t * (rest P (st t) a * inner P (st t) a))%C) ts) (fun _ => 0)).
  - rewrite (gsum_dims bond_eq_dec B' (dims_of P') (dims_of P)) by (intros b Hb; unfold B' in Hb; apply but_in in Hb; unfold dims_of; rewrite LS by tauto; reflexivity).
    apply gsum_ext. intros a _ Ra.
    assert (E : forall t, rest P (st t) a = rest P s a).
    { intros t. unfold rest. f_equal. apply prodC_ext. intros [r c] Hx. unfold X' in Hx. apply but_in in Hx. destruct Hx as [H1 H2]. unfold site_of, index_at. cbn [fst snd]. rewrite Hst by assumption. reflexivity. }
    assert (E' : rest P' s a = rest P s a).
    { unfold rest. f_equal.
      - apply prodC_ext. intros [r c] Hx. unfold X' in Hx. apply but_in in Hx. destruct Hx as [H1 H2]. unfold site_of. cbn [fst snd P' P gamma]. rewrite GS by assumption. reflexivity.
      - apply prodC_ext. intros b Hb. unfold B' in Hb. apply but_in in Hb. unfold weight_of. rewrite LS by tauto. reflexivity. }
    rewrite E'. destruct (product_zero (weight_of P a) B') as [Z|NZ].
    + assert (RZ : rest P s a = RtoC 0) by (unfold rest; rewrite Z; ring). rewrite RZ. rewrite sumC_zero; [ring|]. intros t _. rewrite E, RZ. ring.
    + rewrite (H a Ra NZ). rewrite <- sumC_scal. apply sumC_ext. intros t _. rewrite E. ring.
  - rewrite gs_sum. apply sumC_ext. intros t _. rewrite gs_scal. f_equal. symmetry. apply (wave_patch g v h (st t)).
Qed.
End Wave.
