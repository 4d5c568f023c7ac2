(** Proofs about messages. *)
From Coq Require Import List Arith NArith Lia Bool.
From Verif Require Import Base MsgModel MsgSpec.
Import ListNotations.
Local Open Scope nat_scope.

(** the number of components *)
Lemma uniform_dim {T} (v : sitps T) : uniform v -> exists d, phys_dim v = Ok d /\ forall s, In s (p_sites v) -> length s = d.
Proof.
  intros (A & B & d & C). exists d. split; [|exact C]. unfold phys_dim, idx. destruct (p_sites v) as [|s ss]; [simpl in B; lia|]. simpl. rewrite (C s (or_introl eq_refl)). reflexivity.
Qed.
Section Messages.
Context {T : Type}.
Lemma recv_tensors_ok (ts : list T) l : recv_tensors (length ts) (map Ten ts ++ l) = Got (ts, l).
Proof. induction ts as [|t ts IH]; simpl; [reflexivity|]. rewrite IH. reflexivity. Qed.
Lemma recv_sites_ok d (ss : list (list T)) l : (forall s, In s ss -> length s = d) -> recv_sites (length ss) d (map Ten (concat ss) ++ l) = Got (ss, l).
Proof.
  induction ss as [|s ss IH]; intros H; simpl; [reflexivity|]. rewrite map_app, <- app_assoc. rewrite <- (H s (or_introl eq_refl)), recv_tensors_ok, (H s (or_introl eq_refl)).
  rewrite IH; [reflexivity|]. intros x Hx. apply H. right. exact Hx.
Qed.
Lemma recv_one (q : queues (T:=T)) s (v : sitps T) rest : uniform v -> q s = wire v ++ rest -> recv s q = Got (v, set_q q s rest).
Proof.
  intros U E. destruct (uniform_dim v U) as (d & D & L). unfold wire, send in E. rewrite D in E. cbn [bind app] in E. unfold recv. rewrite E.
  destruct U as (_ & N & _). rewrite <- N, recv_sites_ok by exact L. destruct v; reflexivity.
Qed.
Lemma recv_all_ok choices : forall (q : queues (T:=T)) pending, (forall s, q s = flat_map wire (pending s)) -> (forall s v, In v (pending s) -> uniform v) ->
  match take_all choices pending with
  | Some (vs, pending') => exists q', recv_all choices q = Got (vs, q') /\ forall s, q' s = flat_map wire (pending' s)
  | None => recv_all choices q = Blocks
  end.
Proof.
  induction choices as [|s cs IH]; intros q pending Q U; simpl; [exists q; auto|]. unfold take1. destruct (pending s) as [|v t] eqn:P.
  - unfold recv. rewrite (Q s), P. reflexivity.
  - rewrite (recv_one q s v (flat_map wire t)); [|apply (U s); rewrite P; left; reflexivity|rewrite (Q s), P; reflexivity].
    specialize (IH (set_q q s (flat_map wire t)) (fun s' => if s' =? s then t else pending s')).
    assert (Q1 : forall s0, set_q q s (flat_map wire t) s0 = flat_map wire (if s0 =? s then t else pending s0)) by (intros s0; unfold set_q; destruct (s0 =? s); [reflexivity|apply Q]).
    assert (U1 : forall s0 w, In w (if s0 =? s then t else pending s0) -> uniform w).
    { intros s0 w Hw. destruct (Nat.eqb_spec s0 s) as [->|N]; [apply (U s); rewrite P; right; exact Hw|apply (U s0); exact Hw]. }
    specialize (IH Q1 U1). destruct (take_all cs _) as [[vs p2]|]; [destruct IH as (q' & -> & W); exists q'; auto|rewrite IH; reflexivity].
Qed.
End Messages.
Lemma uneven_sites : exists (v w : sitps nat) (q : queues (T:=nat)) a q',
  length (p_sites v) = p_rows v * p_cols v /\ uniform w /\ q 0 = wire v ++ wire w /\ recv 0 q = Got (a, q') /\ a <> v /\ recv 0 q' = Confused.
Proof.
  exists (mkS 1 2 false [[7]; [8; 9]]), (mkS 1 1 false [[5]]), (fun _ => [Header 1 2 1 false; Ten 7; Ten 8; Ten 9; Header 1 1 1 false; Ten 5]).
  eexists. eexists. split; [reflexivity|]. split; [split; [simpl; lia|]; split; [reflexivity|]; exists 1; intros s [<-|[]]; reflexivity|]. split; [reflexivity|]. split; [reflexivity|]. split; [discriminate|reflexivity].
Qed.

(** *** Broadcast *)
Lemma le_length k n : length (le_bytes k n) = k. Proof. revert n. induction k; intros n; simpl; auto. Qed.
Lemma le_value k : forall n, (n < 256 ^ N.of_nat k)%N -> of_bytes (le_bytes k n) = n.
Proof.
  induction k as [|k IH]; intros n H; [simpl in *; lia|]. cbn [le_bytes of_bytes]. rewrite IH.
  - pose proof (N.div_mod n 256 ltac:(lia)) as Q. rewrite N.add_comm. symmetry. exact Q.
  - apply N.div_lt_upper_bound; [lia|]. rewrite Nat2N.inj_succ, N.pow_succ_r' in H. exact H.
Qed.
Lemma read_u64_ok n l : (n < 2 ^ 64)%N -> read_u64 (le_bytes 8 n ++ l) = Ok (n, l).
Proof.
  intros H. unfold read_u64. rewrite app_length, le_length. cbn [Nat.add Nat.ltb Nat.leb]. rewrite firstn_app, le_length, skipn_app, le_length, Nat.sub_diag.
  rewrite firstn_all2 by (rewrite le_length; lia). rewrite skipn_all2 by (rewrite le_length; lia). simpl firstn. simpl skipn. rewrite app_nil_r, le_value by exact H. reflexivity.
Qed.
Section Broadcast.
Context {Shell Data : Type} (no_data : Data) (is_default : Shell -> bool)
        (pack_shell : Shell -> list N) (unpack_shell : list N -> option (Shell * list N)).
Hypothesis pack_ok : forall s rest, unpack_shell (pack_shell s ++ rest) = Some (s, rest).
Hypothesis pack_prefix : forall s p q, pack_shell s = p ++ q -> q <> [] -> unpack_shell p = None.
Lemma unpack_shells_ok ss rest : unpack_shells unpack_shell (length ss) (flat_map pack_shell ss ++ rest) = Ok (ss, rest).
Proof. induction ss as [|s ss IH]; simpl; [reflexivity|]. rewrite <- app_assoc, pack_ok. cbn [bind]. rewrite IH. reflexivity. Qed.
Lemma unpack_sites_ok d sss rest : (forall s, In s sss -> length s = d) -> unpack_sites unpack_shell (length sss) d (flat_map pack_shell (concat sss) ++ rest) = Ok (sss, rest).
Proof.
  induction sss as [|s ss IH]; intros H; simpl; [reflexivity|]. rewrite flat_map_app, <- app_assoc, <- (H s (or_introl eq_refl)), unpack_shells_ok, (H s (or_introl eq_refl)). cbn [bind].
  rewrite IH; [reflexivity|]. intros x Hx. apply H. right. exact Hx.
Qed.
Lemma app_eq_prefix {X} (a b p q : list X) : a ++ b = p ++ q -> (exists r, a = p ++ r) \/ (exists r, p = a ++ r /\ b = r ++ q).
Proof.
  revert p. induction a as [|x a IH]; intros p E; simpl in E; [right; exists p; auto|]. destruct p as [|y p]; [left; exists (x :: a); reflexivity|].
  simpl in E. injection E as <- E. destruct (IH p E) as [(r & ->)|(r & -> & ->)]; [left|right]; exists r; auto.
Qed.
Lemma unpack_shells_cut ss : forall p q, flat_map pack_shell ss = p ++ q -> q <> [] -> unpack_shells unpack_shell (length ss) p = Fail Throw.
Proof.
  induction ss as [|s ss IH]; intros p q E N; simpl in *; [destruct p, q; discriminate || contradiction|].
  destruct (app_eq_prefix _ _ _ _ E) as [(r & A)|(r & -> & B)].
  - destruct r as [|x r].
    + rewrite app_nil_r in A. subst p. assert (Q : unpack_shell (pack_shell s) = Some (s, [])) by (rewrite <- (app_nil_r (pack_shell s)); apply pack_ok). rewrite Q. cbn [bind].
      apply app_inv_head in E. rewrite (IH [] q E N). reflexivity.
    + rewrite (pack_prefix s p (x :: r) A) by discriminate. reflexivity.
  - rewrite pack_ok. cbn [bind]. rewrite (IH r q B N). reflexivity.
Qed.
Lemma unpack_sites_cut d sss : forall p q, (forall s, In s sss -> length s = d) -> flat_map pack_shell (concat sss) = p ++ q -> q <> [] -> unpack_sites unpack_shell (length sss) d p = Fail Throw.
Proof.
  induction sss as [|s ss IH]; intros p q L E N; simpl in *; [destruct p, q; discriminate || contradiction|]. rewrite flat_map_app in E.
  destruct (app_eq_prefix _ _ _ _ E) as [(r & A)|(r & -> & B)].
  - destruct r as [|x r].
    + rewrite app_nil_r in A. subst p. rewrite <- (L s (or_introl eq_refl)). rewrite <- (app_nil_r (flat_map pack_shell s)), unpack_shells_ok. cbn [bind].
      apply app_inv_head in E. rewrite (L s (or_introl eq_refl)). rewrite (IH [] q (fun s0 H => L s0 (or_intror H)) E N). reflexivity.
    + rewrite <- (L s (or_introl eq_refl)). rewrite (unpack_shells_cut s p (x :: r) A) by discriminate. reflexivity.
  - rewrite <- (L s (or_introl eq_refl)), unpack_shells_ok. cbn [bind]. rewrite (L s (or_introl eq_refl)). rewrite (IH r q (fun s0 H => L s0 (or_intror H)) B N). reflexivity.
Qed.
Lemma fold_pack (ts : list (Shell * Data)) : forall h, fold_left (fun buf t => buf ++ pack_shell (fst t)) ts h = h ++ flat_map pack_shell (map fst ts).
Proof. induction ts as [|t ts IH]; intros h; simpl; [rewrite app_nil_r; reflexivity|]. rewrite IH, <- app_assoc. reflexivity. Qed.
Definition shells (v : sitps (Shell * Data)) : list (list Shell) := map (map fst) (p_sites v).
Lemma pack_state_eq v d : phys_dim v = Ok d -> pack_state pack_shell v =
  Ok (header (N.of_nat (p_rows v)) (N.of_nat (p_cols v)) (N.of_nat d) (if p_bc v then 1 else 0)%N ++ flat_map pack_shell (concat (shells v))).
Proof. intros D. unfold pack_state. rewrite D. cbn [bind]. rewrite fold_pack. unfold append_u64, header, shells. rewrite concat_map, <- !app_assoc. reflexivity. Qed.
Lemma header_length r c d b : length (header r c d b) = 32.
Proof. unfold header. rewrite !app_length, !le_length. reflexivity. Qed.
Lemma unpack_header r c d b l : (r < 2 ^ 64)%N -> (c < 2 ^ 64)%N -> (d < 2 ^ 64)%N -> (b < 2 ^ 64)%N ->
  unpack_state unpack_shell (header r c d b ++ l) =
  (if (1 <? b)%N then Fail Throw else sl <- unpack_sites unpack_shell (N.to_nat r * N.to_nat c) (N.to_nat d) l;; let '(ss, rest) := sl in match rest with [] => Ok (mkS (N.to_nat r) (N.to_nat c) (b =? 1)%N ss) | _ => Fail Throw end).
Proof.
  intros Hr Hc Hd Hb. unfold unpack_state. rewrite app_length, header_length. assert (Q : (32 + length l <? 32) = false) by (apply Nat.ltb_ge; lia). rewrite Q.
  unfold header. rewrite <- !app_assoc. rewrite read_u64_ok by exact Hr. cbn [bind]. rewrite read_u64_ok by exact Hc. cbn [bind]. rewrite read_u64_ok by exact Hd. cbn [bind]. rewrite read_u64_ok by exact Hb. cbn [bind]. reflexivity.
Qed.
Lemma bc_value (b : bool) : ((if b then 1 else 0) < 2 ^ 64)%N /\ (1 <? (if b then 1 else 0))%N = false /\ ((if b then 1 else 0) =? 1)%N = b.
Proof. destruct b; repeat split. Qed.
Lemma fits_dim (v : sitps (Shell * Data)) d : uniform v -> fits v -> phys_dim v = Ok d -> (N.of_nat d < 2 ^ 64)%N.
Proof.
  intros (A & B & _) (_ & _ & F) D. unfold phys_dim, idx in D. destruct (p_sites v) as [|s ss] eqn:E; [simpl in B; lia|]. simpl in D. injection D as <-. apply F. left. reflexivity.
Qed.
Lemma shells_dim v d : (forall s, In s (p_sites v) -> length s = d) -> forall s, In s (shells v) -> length s = d.
Proof. intros H s Hs. unfold shells in Hs. apply in_map_iff in Hs. destruct Hs as (t & <- & Ht). rewrite map_length. apply H. exact Ht. Qed.
Lemma shells_length v : length (shells v) = length (p_sites v). Proof. apply map_length. Qed.
Lemma unpack_packed v l : uniform v -> fits v -> exists buf, pack_state pack_shell v = Ok buf /\
  unpack_state unpack_shell (buf ++ l) = match l with [] => Ok (mkS (p_rows v) (p_cols v) (p_bc v) (shells v)) | _ => Fail Throw end.
Proof.
  intros U F. destruct (uniform_dim v U) as (d & D & L). pose proof (fits_dim v d U F D) as Fd. destruct (bc_value (p_bc v)) as (B1 & B2 & B3).
  eexists. split; [exact (pack_state_eq v d D)|]. rewrite <- app_assoc. rewrite unpack_header; [|apply F|apply F|exact Fd|exact B1]. rewrite B2, B3, !Nat2N.id.
  destruct U as (_ & N & _). rewrite <- N, <- shells_length. rewrite unpack_sites_ok by (apply shells_dim; exact L). cbn [bind]. destruct l; reflexivity.
Qed.
Theorem truncated (v : sitps (Shell * Data)) buf p q : uniform v -> fits v -> pack_state pack_shell v = Ok buf -> buf = p ++ q -> q <> [] -> unpack_state unpack_shell p = Fail Throw.
Proof.
  intros U F P E N. destruct (uniform_dim v U) as (d & D & L). pose proof (fits_dim v d U F D) as Fd. rewrite (pack_state_eq v d D) in P.
  assert (P' : buf = header (N.of_nat (p_rows v)) (N.of_nat (p_cols v)) (N.of_nat d) (if p_bc v then 1 else 0)%N ++ flat_map pack_shell (concat (shells v))) by (injection P as P; symmetry; exact P).
  rewrite P' in E. destruct (bc_value (p_bc v)) as (B1 & B2 & B3). destruct (app_eq_prefix _ _ _ _ E) as [(r & A)|(r & -> & B)].
  - destruct r as [|x r].
    + rewrite app_nil_r in A. rewrite <- (app_nil_r p), <- A. rewrite unpack_header; [|apply F|apply F|exact Fd|exact B1]. rewrite B2, !Nat2N.id. rewrite <- A in E. apply app_inv_head in E.
      destruct U as (_ & Nl & _). rewrite <- Nl, <- shells_length. rewrite (unpack_sites_cut d (shells v) [] q); [reflexivity|apply shells_dim; exact L|exact E|exact N].
    + unfold unpack_state. assert (Q : length p + S (length r) = 32) by (apply (f_equal (@length _)) in A; rewrite header_length, app_length in A; simpl in A; lia).
      assert (Q' : (length p <? 32) = true) by (apply Nat.ltb_lt; lia). rewrite Q'. reflexivity.
  - rewrite unpack_header; [|apply F|apply F|exact Fd|exact B1]. rewrite B2, !Nat2N.id. destruct U as (_ & Nl & _). rewrite <- Nl, <- shells_length.
    rewrite (unpack_sites_cut d (shells v) r q); [reflexivity|apply shells_dim; exact L|exact B|exact N].
Qed.
Theorem bad_boundary r c d b l : (r < 2 ^ 64)%N -> (c < 2 ^ 64)%N -> (d < 2 ^ 64)%N -> (1 < b < 2 ^ 64)%N -> unpack_state unpack_shell (header r c d b ++ l) = Fail Throw.
Proof. intros Hr Hc Hd [H1 H2]. rewrite unpack_header by assumption. apply N.ltb_lt in H1. rewrite H1. reflexivity. Qed.
Theorem too_long (v : sitps (Shell * Data)) buf x l : uniform v -> fits v -> pack_state pack_shell v = Ok buf -> unpack_state unpack_shell (buf ++ x :: l) = Fail Throw.
Proof. intros U F P. destruct (unpack_packed v (x :: l) U F) as (buf' & A & B). rewrite P in A. injection A as <-. exact B. Qed.
Theorem broadcast_ok v : uniform v -> fits v -> (forall s t, In s (p_sites v) -> In t s -> is_default (fst t) = true -> snd t = no_data) ->
  broadcast no_data is_default pack_shell unpack_shell v = Ok v.
Proof.
  intros U F Df. destruct (unpack_packed v [] U F) as (buf & A & B). unfold broadcast. rewrite A. cbn [bind]. rewrite app_nil_r in B. rewrite B. cbn [bind p_rows p_cols p_bc p_sites].
  assert (E : fill_data no_data is_default (shells v) (p_sites v) = p_sites v).
  { unfold fill_data, shells. revert Df. generalize (p_sites v) as ss. induction ss as [|s ss IH]; intros Df; simpl; [reflexivity|]. rewrite IH by (intros s0 t0 H; apply Df; right; exact H). f_equal.
    assert (Ds : forall t, In t s -> is_default (fst t) = true -> snd t = no_data) by (intros t Ht; apply (Df s t (or_introl eq_refl) Ht)). clear - Ds.
    induction s as [|t s IH]; simpl; [reflexivity|]. rewrite IH by (intros t0 H; apply Ds; right; exact H). f_equal. destruct t as [sh da]. cbn [fst snd].
    destruct (is_default sh) eqn:Q; [|reflexivity]. rewrite <- (Ds (sh, da) (or_introl eq_refl) Q). reflexivity. }
  rewrite E. destruct v; reflexivity.
Qed.
End Broadcast.
