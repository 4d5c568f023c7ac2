(** C47, C71: arithmetic and clipping of split-index TPS. Statements use TpsSpec: [shaped L v], a state
    of layout [L]; [at_place v p], its entries, unset tensors counting as zero. *)
From Coq Require Import List Arith Bool Reals.
From Verif Require Import Base Cplx Rsum MsgModel TpsModel TpsSpec TpsMain.
Import ListNotations.

(** Every operation succeeds and acts entry by entry. *)
Theorem c47_elementwise : forall L a b x, shaped L a -> shaped L b -> exists s m n d s' m' d',
  add a b = Ok s /\ scale x a = Ok m /\ neg a = Ok n /\ sub a b = Ok d /\ add_to a b = Ok s' /\ scale_by x a = Ok m' /\ sub_from a b = Ok d' /\
  is_vector L s (fun p => at_place a p + at_place b p)%C /\ is_vector L s' (fun p => at_place a p + at_place b p)%C /\
  is_vector L m (fun p => x * at_place a p)%C /\ is_vector L m' (fun p => x * at_place a p)%C /\
  is_vector L n (fun p => - at_place a p)%C /\
  is_vector L d (fun p => at_place a p - at_place b p)%C /\ is_vector L d' (fun p => at_place a p - at_place b p)%C.
Proof. exact elementwise. Qed.
Print Assumptions c47_elementwise.

(** The vector-space laws, as equations between results (including which tensors are unset). *)
Theorem c47_vector_space : forall L a b c x y, shaped L a -> shaped L b -> shaped L c ->
  add a b = add b a /\
  (ab <- add a b;; add ab c) = (bc <- add b c;; add a bc) /\
  (s <- add a b;; scale x s) = (u <- scale x a;; v <- scale x b;; add u v) /\
  scale (x + y)%C a = (u <- scale x a;; v <- scale y a;; add u v) /\
  scale (x * y)%C a = (u <- scale y a;; scale x u) /\
  scale (RtoC 1) a = Ok (with_bc false a) /\
  add a (blank (l_rows L) (l_cols L) (l_dim L)) = Ok (with_bc false a) /\
  sub a b = (u <- scale (RtoC (-1)) b;; add a u) /\
  (exists z, sub a a = Ok z /\ is_vector L z (fun _ => RtoC 0)).
Proof. exact vector_space. Qed.
Print Assumptions c47_vector_space.

(** Compound and binary forms agree up to the boundary condition, which += and *= keep. *)
Theorem c47_compound_forms : forall L a b x, shaped L a -> shaped L b ->
  add_to a b = (s <- add a b;; Ok (with_bc (p_bc a) s)) /\
  scale_by x a = (m <- scale x a;; Ok (with_bc (p_bc a) m)) /\
  sub_from a b = sub a b.
Proof. exact compound_forms. Qed.
Print Assumptions c47_compound_forms.

(** Inner product and norm. *)
Theorem c47_inner_product : forall L a b, shaped L a -> shaped L b ->
  inner a b = Ok (sumC (fun p => Cconj (at_place a p) * at_place b p)%C (places L)) /\
  norm_square a = Ok (rsum (fun p => Cnorm2 (at_place a p)) (places L)).
Proof. exact inner_norm. Qed.
Print Assumptions c47_inner_product.

(** The boundary condition of the results: binary forms and -= always give Open. *)
Theorem c47_boundary_of_results : forall a b x s m n d s' m' d',
  add a b = Ok s -> scale x a = Ok m -> neg a = Ok n -> sub a b = Ok d -> add_to a b = Ok s' -> scale_by x a = Ok m' -> sub_from a b = Ok d' ->
  p_bc s = false /\ p_bc m = false /\ p_bc n = false /\ p_bc d = false /\ p_bc s' = p_bc a /\ p_bc m' = p_bc a /\ p_bc d' = false.
Proof. exact bc_of_results. Qed.
Print Assumptions c47_boundary_of_results.

(** "The boundary condition is preserved" is false: a periodic state becomes open. *)
Theorem c47_boundary_lost_refuted : exists a, shaped unit_layout a /\ p_bc a = true /\
  (exists s, add a a = Ok s /\ p_bc s = false) /\ (exists m, scale (RtoC 1) a = Ok m /\ p_bc m = false) /\
  (exists d, sub_from a a = Ok d /\ p_bc d = false).
Proof. exact boundary_lost. Qed.
Print Assumptions c47_boundary_lost_refuted.

(** With more components on another site than on site (0,0), a + b loses the extra ones and a += b
    leaves them unadded. *)
Theorem c47_uneven_components_refuted : exists a b s s' x, add a b = Ok s /\ add_to a b = Ok s' /\
  comp s' 0 1 1 = Ok (Some [x]) /\ comp s 0 1 1 = Fail UB /\ comp a 0 1 1 = Ok (Some [x]) /\ comp b 0 1 1 = Ok (Some [x]) /\ x <> RtoC 0.
Proof. exact components_dropped. Qed.
Print Assumptions c47_uneven_components_refuted.

(** C71: clipping by value and by norm. *)
Theorem c71_clip_value : forall L c a, (0 <= c)%R -> shaped L a ->
  exists v, clip_value c a = Ok v /\ is_vector L v (fun p => clip_elem c (at_place a p)) /\ p_bc v = p_bc a.
Proof. exact clip_value_spec. Qed.
Print Assumptions c71_clip_value.
Theorem c71_clip_element : forall c e, (0 <= c)%R ->
  (sqrt (Cnorm2 (clip_elem c e)) <= c)%R /\
  (exists x, (0 <= x <= 1)%R /\ clip_elem c e = (RtoC x * e)%C) /\
  ((sqrt (Cnorm2 e) <= c)%R -> clip_elem c e = e).
Proof. exact (fun c e H => conj (clip_elem_le c e H) (conj (clip_elem_phase c e H) (clip_elem_small c e))). Qed.
Print Assumptions c71_clip_element.
Theorem c71_clip_norm : forall L c a, (0 <= c)%R -> shaped L a ->
  let n := sqrt (rsum (fun p => Cnorm2 (at_place a p)) (places L)) in
  exists v x, clip_norm c a = Ok v /\ (0 <= x <= 1)%R /\ is_vector L v (fun p => RtoC x * at_place a p)%C /\ p_bc v = p_bc a /\
    sqrt (rsum (fun p => Cnorm2 (at_place v p)) (places L)) = Rmin n c /\ ((n <= c)%R -> v = a).
Proof. exact clip_norm_spec. Qed.
Print Assumptions c71_clip_norm.

(** A 2 x 2 lattice with two components of 2 and 1 entries, one tensor unset. *)
Definition demo_layout : layout := mkL 2 2 2 (fun r c i => if Nat.eqb i 0 then 2 else 1)%nat.
Definition demo_state : state :=
  mkS 2 2 true [[Some [RtoC 1; Ci]; Some [RtoC 2]]; [Some [RtoC 3; RtoC 0]; None]; [Some [RtoC 1; RtoC 1]; Some [RtoC 5]]; [None; Some [Ci]]].
Example demo_shaped : shaped demo_layout demo_state /\ length (places demo_layout) = 12 /\ at_place demo_state (0, 0, 0, 1)%nat = Ci /\
  at_place demo_state (0, 1, 1, 0)%nat = RtoC 0 /\ at_place demo_state (1, 1, 1, 0)%nat = Ci.
Proof.
  split; [|repeat split]. unfold shaped. simpl. repeat split; auto.
  - intros s H. repeat (destruct H as [<-|H]; [reflexivity|]). destruct H.
  - intros r c i (Hr & Hc & Hi). simpl in Hr, Hc, Hi.
    destruct r as [|[|r]]; [| |exfalso; revert Hr; clear; intros; do 2 apply le_S_n in Hr; inversion Hr];
      (destruct c as [|[|c]]; [| |exfalso; revert Hc; clear; intros; do 2 apply le_S_n in Hc; inversion Hc]);
      (destruct i as [|[|i]]; [| |exfalso; revert Hi; clear; intros; do 2 apply le_S_n in Hi; inversion Hi]);
      eexists; (split; [reflexivity|]); try reflexivity; exact I.
Qed.
