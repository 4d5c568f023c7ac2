(** The cache of the TRG contractor stays coherent. *)
From Coq Require Import List Arith Lia Bool Sorted.
From Verif Require Import Base TrgModel TrgSpec.
Import ListNotations.
Local Open Scope nat_scope.

(** *** Loops, vectors and maps *)
Lemma foreach_inv {X A} (I : list X -> A -> Prop) (f : A -> X -> res A) : forall l a, I [] a ->
  (forall done x rest a, l = done ++ x :: rest -> I done a -> exists a', f a x = Ok a' /\ I (done ++ [x]) a') ->
  exists a', foreach l a f = Ok a' /\ I l a'.
Proof.
  intros l a H0 H. assert (G : forall rest done a, l = done ++ rest -> I done a -> exists a', foreach rest a f = Ok a' /\ I l a').
  { induction rest as [|x rest IH]; intros done b E Hb; cbn [foreach]; [exists b; rewrite app_nil_r in E; subst l; split; [reflexivity|exact Hb]|].
    destruct (H done x rest b E Hb) as (b' & -> & Hb'). cbn [bind]. apply (IH (done ++ [x])); [rewrite <- app_assoc; exact E|exact Hb']. }
  exact (G l [] a eq_refl H0).
Qed.
Lemma aget_ok {A} (a : arr A) i : i < alen a -> aget a i = Ok (aval a i).
Proof. intros H. unfold aget. destruct (Nat.ltb_spec i (alen a)); [reflexivity|lia]. Qed.
Lemma aset_ok {A} (a : arr A) i x : i < alen a -> aset a i x = Ok (Arr (alen a) (fun j => if j =? i then x else aval a j)).
Proof. intros H. unfold aset. destruct (Nat.ltb_spec i (alen a)); [reflexivity|lia]. Qed.
Lemma mget_mset {A} k (x : A) m k' : mget (mset k x m) k' = if k =? k' then Some x else mget m k'.
Proof.
  induction m as [|[k0 x0] m IH]; cbn [mset mget]; [reflexivity|].
  destruct (Nat.ltb_spec k k0); cbn [mget]; [reflexivity|].
  destruct (Nat.eqb_spec k k0); cbn [mget]; [subst k0; destruct (Nat.eqb_spec k k'); reflexivity|].
  rewrite IH. destruct (Nat.eqb_spec k0 k'), (Nat.eqb_spec k k'); try reflexivity. lia.
Qed.
Definition sorted {A} (m : list (nat * A)) : Prop := StronglySorted lt (map fst m).
Lemma mset_keys {A} k (x : A) m k' : In k' (map fst (mset k x m)) <-> k' = k \/ In k' (map fst m).
Proof.
  induction m as [|[k0 x0] m IH]; cbn [mset map fst In]; [intuition|].
  destruct (Nat.ltb_spec k k0); cbn [map fst In]; [intuition|].
  destruct (Nat.eqb_spec k k0); cbn [map fst In]; [subst k0; intuition|]. rewrite IH. intuition.
Qed.
Lemma mset_sorted {A} k (x : A) m : sorted m -> sorted (mset k x m).
Proof.
  unfold sorted. induction m as [|[k0 x0] m IH]; intros S; cbn [mset map fst]; [constructor; constructor|].
  cbn [map fst] in S. inversion S as [|? ? S' F]; subst.
  destruct (Nat.ltb_spec k k0); cbn [map fst].
  - constructor; [exact S|]. constructor; [assumption|]. eapply Forall_impl; [|exact F]. intros; cbv beta in *; lia.
  - destruct (Nat.eqb_spec k k0); cbn [map fst]; [subst; exact S|]. constructor; [apply IH; exact S'|].
    apply Forall_forall. intros y Hy. apply mset_keys in Hy. rewrite Forall_forall in F. destruct Hy as [->|Hy]; [lia|apply F; exact Hy].
Qed.
Lemma mget_in {A} (m : list (nat * A)) k : mget m k <> None <-> In k (map fst m).
Proof.
  induction m as [|[k0 x0] m IH]; cbn [mget map fst In]; [intuition congruence|].
  destruct (Nat.eqb_spec k0 k); [subst; intuition congruence|]. rewrite IH. intuition.
Qed.
Lemma mget_none {A} (m : list (nat * A)) k : ~ In k (map fst m) -> mget m k = None.
Proof. intros H. destruct (mget m k) eqn:E; [|reflexivity]. exfalso. apply H, mget_in. congruence. Qed.
Lemma sorted_nodup {A} (m : list (nat * A)) : sorted m -> NoDup (map fst m).
Proof.
  unfold sorted. induction (map fst m) as [|k l IH]; intros S; [constructor|]. inversion S as [|? ? S' F]; subst.
  constructor; [|apply IH; exact S']. intros H. rewrite Forall_forall in F. specialize (F _ H). lia.
Qed.
Lemma mget_of {A} (m : list (nat * A)) k x : NoDup (map fst m) -> In (k, x) m -> mget m k = Some x.
Proof.
  induction m as [|[k0 x0] m IH]; intros N H; [destruct H|]. cbn [map fst] in N. inversion N as [|? ? N1 N2]; subst. cbn [mget].
  destruct H as [H|H]; [injection H as -> ->; rewrite Nat.eqb_refl; reflexivity|].
  destruct (Nat.eqb_spec k0 k) as [->|]; [exfalso; apply N1; apply (in_map fst) in H; exact H|]. apply IH; assumption.
Qed.

(** *** Coherence *)
Definition child (k : children) (i : nat) : nat :=
  let '(((k0, k1), k2), k3) := k in match i with 0 => k0 | 1 => k1 | 2 => k2 | _ => k3 end.
Lemma first_role_child k f i : first_role k f = Some i -> i < 4 /\ child k i = f.
Proof.
  destruct k as [[[k0 k1] k2] k3]. unfold first_role, child.
  destruct (Nat.eqb_spec k0 f); [intros [= <-]; split; [lia|assumption]|]. destruct (Nat.eqb_spec k1 f); [intros [= <-]; split; [lia|assumption]|].
  destruct (Nat.eqb_spec k2 f); [intros [= <-]; split; [lia|assumption]|]. destruct (Nat.eqb_spec k3 f); [intros [= <-]; split; [lia|assumption]|discriminate].
Qed.

Section Coherent.
Context (o : trg_ops) (sub : arr bool) (p : Prm o) (ty : nat -> nat -> stype).
Notation Ten := (Ten o).
Notation scale := (scale o).
Notation sdata := (sdata o).
Notation made s X := (fun i => make_split o p (ty s i) (X i)).

(** the tensors of the next layer *)
Definition up (s : nat) (coarse : scale) (X : nat -> Ten) : nat -> Ten := fun c =>
  let k := aval (c2f coarse) c in
  if Nat.even s then plaquette o (sd_Q (made s X (child k 0))) (sd_Q (made s X (child k 1))) (sd_P (made s X (child k 2))) (sd_P (made s X (child k 3)))
  else diamond o (sd_P (made s X (child k 0))) (sd_P (made s X (child k 1))) (sd_Q (made s X (child k 2))) (sd_Q (made s X (child k 3))).
Record layer_ok (s : nat) (fine coarse : scale) : Prop := {
  lo_f2c : alen (f2c fine) = alen (tens fine);
  lo_c2f : alen (c2f coarse) = alen (tens coarse);
  lo_child : forall c i, c < alen (tens coarse) -> i < 4 -> let f := child (aval (c2f coarse) c) i in
    f < alen (tens fine) /\ (fst (aval (f2c fine) f) = Some c \/ snd (aval (f2c fine) f) = Some c) /\ child_split_type sub s f i = Ok (ty s f);
  lo_parent : forall f, f < alen (tens fine) -> exists p1 p2 role, aval (f2c fine) f = (Some p1, Some p2) /\
    p1 < alen (tens coarse) /\ p2 < alen (tens coarse) /\ first_role (aval (c2f coarse) p1) f = Some role /\ first_role (aval (c2f coarse) p2) f <> None
}.
Fixpoint topo (s : nat) (sc : list scale) : Prop :=
  match sc with
  | [] => False
  | [top] => True
  | fine :: ((coarse :: _) as rest) => layer_ok s fine coarse /\ topo (S s) rest
  end.
Definition has_tens (fine : scale) (X : nat -> Ten) : Prop := forall i, i < alen (tens fine) -> aval (tens fine) i = Some (X i).
Definition has_splits (s : nat) (fine : scale) (X : nat -> Ten) : Prop :=
  alen (splits fine) = alen (tens fine) /\ forall i, i < alen (tens fine) -> aval (splits fine) i = Some (made s X i).
Fixpoint coherent (s : nat) (sc : list scale) (X : nat -> Ten) : Prop :=
  match sc with
  | [] => False
  | [top] => has_tens top X
  | fine :: ((coarse :: _) as rest) => has_tens fine X /\ has_splits s fine X /\ coherent (S s) rest (up s coarse X)
  end.
Definition same_shape (a b : scale) : Prop := alen (tens a) = alen (tens b) /\ f2c a = f2c b /\ c2f a = c2f b.
Lemma same_shape_refl a : same_shape a a.
Proof. repeat split. Qed.
Lemma same_shapes_refl l : Forall2 same_shape l l.
Proof. induction l; constructor; [apply same_shape_refl|assumption]. Qed.
Lemma up_shape s a b X : same_shape a b -> up s a X = up s b X.
Proof. intros (_ & _ & E). unfold up. rewrite E. reflexivity. Qed.
Lemma layer_shape s a b a' b' : same_shape a a' -> same_shape b b' -> layer_ok s a b -> layer_ok s a' b'.
Proof.
  intros (A1 & A2 & A3) (B1 & B2 & B3) [H1 H2 H3 H4]. constructor; rewrite <- ?A1, <- ?A2, <- ?A3, <- ?B1, <- ?B2, <- ?B3; assumption.
Qed.
Lemma topo_shape : forall l l' s, Forall2 same_shape l l' -> topo s l -> topo s l'.
Proof.
  induction l as [|a l IH]; intros l' s F T; [destruct T|]. inversion F as [|? a' ? l1 Ha Fl]; subst.
  destruct l as [|b l]; inversion Fl as [|? b' ? l2 Hb Fl']; subst; [exact I|]. destruct T as [T1 T2]. split; [exact (layer_shape s a b a' b' Ha Hb T1)|].
  apply IH; [exact Fl|exact T2].
Qed.
Lemma up_ext s fine coarse X Y : layer_ok s fine coarse -> (forall i, i < alen (tens fine) -> X i = Y i) ->
  forall c, c < alen (tens coarse) -> up s coarse X c = up s coarse Y c.
Proof.
  intros L E c Hc. unfold up. cbv zeta.
  rewrite !E by (apply (lo_child _ _ _ L c); [exact Hc|lia]). reflexivity.
Qed.

(** *** Splitting a layer *)
Lemma split_type_ok s fine coarse f : layer_ok s fine coarse -> f < alen (tens fine) ->
  split_type_of sub s f (aval (f2c fine) f) (c2f coarse) = Ok (ty s f).
Proof.
  intros L Hf. destruct (lo_parent _ _ _ L f Hf) as (p1 & p2 & role & E & H1 & _ & R & _). rewrite E. unfold split_type_of. cbn [fst].
  rewrite aget_ok by (rewrite (lo_c2f _ _ _ L); exact H1). cbn [bind]. rewrite R. destruct (first_role_child _ _ _ R) as [R1 R2].
  destruct (lo_child _ _ _ L p1 role H1 R1) as (_ & _ & S). rewrite R2 in S. rewrite S. reflexivity.
Qed.
Lemma ensure_ok s fine coarse nodes X : layer_ok s fine coarse -> (forall i, In i nodes -> i < alen (tens fine) /\ aval (tens fine) i = Some (X i)) ->
  exists fine', ensure_splits o sub p s fine coarse nodes = Ok fine' /\ tens fine' = tens fine /\ f2c fine' = f2c fine /\ c2f fine' = c2f fine /\
    alen (splits fine') = alen (tens fine) /\
    (forall i, In i nodes -> aval (splits fine') i = Some (made s X i)) /\
    (forall i, ~ In i nodes -> alen (splits fine) = alen (tens fine) -> aval (splits fine') i = aval (splits fine) i).
Proof.
  intros L H. unfold ensure_splits. set (n := alen (tens fine)) in *. set (sp0 := if alen (splits fine) =? n then splits fine else anew n None).
  destruct (foreach_inv (fun done sp => alen sp = n /\ (forall i, In i done -> aval sp i = Some (made s X i)) /\ (forall i, ~ In i done -> aval sp i = aval sp0 i))
    (fun sp id => if n <=? id then Fail Throw else x <- aget (tens fine) id;; match x with None => Fail Throw | Some T => par <- aget (f2c fine) id;;
       st <- split_type_of sub s id par (c2f coarse);; aset sp id (Some (make_split o p st T)) end) nodes sp0) as (sp & -> & A & B & D).
  - unfold sp0. split; [destruct (Nat.eqb_spec (alen (splits fine)) n); [assumption|reflexivity]|]. split; [intros i []|reflexivity].
  - intros done x rest sp E (A & B & D). assert (Hx : In x nodes) by (rewrite E; apply in_or_app; right; left; reflexivity). destruct (H x Hx) as [H1 H2]. fold n in H1.
    destruct (Nat.leb_spec n x); [lia|]. rewrite aget_ok by exact H1. cbn [bind]. rewrite H2. rewrite aget_ok by (rewrite (lo_f2c _ _ _ L); exact H1). cbn [bind].
    rewrite (split_type_ok s fine coarse x L H1). cbn [bind]. rewrite aset_ok by lia. eexists. split; [reflexivity|]. cbn [alen aval]. split; [exact A|]. split.
    + intros i Hi. destruct (Nat.eqb_spec i x) as [->|]; [reflexivity|]. apply B. apply in_app_or in Hi. destruct Hi as [Hi|[Hi|[]]]; [exact Hi|congruence].
    + intros i Hi. destruct (Nat.eqb_spec i x) as [->|]; [exfalso; apply Hi; apply in_or_app; right; left; reflexivity|]. apply D. intros Q. apply Hi. apply in_or_app. left. exact Q.
  - cbn [bind]. eexists. split; [reflexivity|]. cbn [tens f2c c2f splits]. repeat split; [exact A|exact B|].
    intros i Hi Q. rewrite D by exact Hi. unfold sp0. fold n in Q. rewrite Q, Nat.eqb_refl. reflexivity.
Qed.
Lemma in_range i n : In i (seq 0 n) <-> i < n.
Proof. rewrite in_seq. lia. Qed.
Lemma ensure_all s fine coarse X : layer_ok s fine coarse -> has_tens fine X ->
  exists fine', ensure_splits o sub p s fine coarse (seq 0 (alen (tens fine))) = Ok fine' /\ tens fine' = tens fine /\ same_shape fine fine' /\ has_splits s fine' X.
Proof.
  intros L H. destruct (ensure_ok s fine coarse (seq 0 (alen (tens fine))) X L) as (f' & E & A & B & D & F & G & _).
  { intros i Hi. apply in_range in Hi. split; [exact Hi|apply H; exact Hi]. }
  exists f'. split; [exact E|]. split; [exact A|]. split; [repeat split; congruence|]. split; [rewrite A; exact F|].
  intros i Hi. apply G, in_range. rewrite <- A. exact Hi.
Qed.

(** *** Trace *)
Lemma contract_ok s fine coarse X c : layer_ok s fine coarse -> has_splits s fine X -> c < alen (tens coarse) ->
  contract_node o s (fun id _ => pieces_of o (splits fine) id) (aval (c2f coarse) c) = Ok (up s coarse X c).
Proof.
  intros L [S1 S2] Hc. unfold contract_node, up. pose proof (lo_child _ _ _ L c) as K. destruct (aval (c2f coarse) c) as [[[k0 k1] k2] k3].
  pose proof (K 0 Hc ltac:(lia)) as (K0 & _). pose proof (K 1 Hc ltac:(lia)) as (K1 & _). pose proof (K 2 Hc ltac:(lia)) as (K2 & _). pose proof (K 3 Hc ltac:(lia)) as (K3 & _).
  cbn [child] in *. unfold pieces_of. rewrite !aget_ok by lia. rewrite !S2 by lia. cbn [bind need fst snd]. destruct (Nat.even s); reflexivity.
Qed.
Lemma layer_up s fine coarse X : layer_ok s fine coarse -> has_splits s fine X ->
  exists ts, foreach (seq 0 (alen (tens coarse))) (tens coarse) (fun ts c => k <- aget (c2f coarse) c;;
              x <- contract_node o s (fun id _ => pieces_of o (splits fine) id) k;; aset ts c (Some x)) = Ok ts /\
    alen ts = alen (tens coarse) /\ forall i, i < alen ts -> aval ts i = Some (up s coarse X i).
Proof.
  intros L S. destruct (foreach_inv (fun done ts => alen ts = alen (tens coarse) /\ forall i, In i done -> aval ts i = Some (up s coarse X i))
    (fun ts c => k <- aget (c2f coarse) c;; x <- contract_node o s (fun id _ => pieces_of o (splits fine) id) k;; aset ts c (Some x)) (seq 0 (alen (tens coarse))) (tens coarse)) as (ts & -> & A & B).
  - split; [reflexivity|intros i []].
  - intros done x rest ts E (A & B). assert (Hx : x < alen (tens coarse)) by (apply in_range; rewrite E; apply in_or_app; right; left; reflexivity).
    rewrite aget_ok by (rewrite (lo_c2f _ _ _ L); exact Hx). cbn [bind]. rewrite (contract_ok s fine coarse X x L S Hx). cbn [bind]. rewrite aset_ok by lia.
    eexists. split; [reflexivity|]. cbn [alen aval]. split; [exact A|]. intros i Hi. destruct (Nat.eqb_spec i x) as [->|]; [reflexivity|].
    apply B. apply in_app_or in Hi. destruct Hi as [Hi|[Hi|[]]]; [exact Hi|congruence].
  - exists ts. split; [reflexivity|]. split; [exact A|]. intros i Hi. apply B, in_range. lia.
Qed.
Lemma trace_up_ok : forall rest s fine X, topo s (fine :: rest) -> has_tens fine X -> (rest <> [] -> has_splits s fine X) ->
  exists sc, trace_up o sub p s fine rest = Ok sc /\ coherent s sc X /\ Forall2 same_shape (fine :: rest) sc.
Proof.
  induction rest as [|coarse rest IH]; intros s fine X T HT HS; cbn [trace_up].
  - exists [fine]. split; [reflexivity|]. split; [exact HT|constructor; [apply same_shape_refl|constructor]].
  - destruct T as [L T]. specialize (HS ltac:(discriminate)). destruct (layer_up s fine coarse X L HS) as (ts & -> & A & B). cbn [bind].
    set (coarse1 := mkScale ts (f2c coarse) (c2f coarse) (splits coarse)).
    assert (SH : same_shape coarse coarse1) by (repeat split; symmetry; exact A).
    assert (HT1 : has_tens coarse1 (up s coarse X)) by exact B.
    assert (E2 : exists coarse2, match rest with [] => Ok coarse1 | top :: _ => ensure_splits o sub p (S s) coarse1 top (seq 0 (alen ts)) end = Ok coarse2 /\
      tens coarse2 = ts /\ same_shape coarse coarse2 /\ (rest <> [] -> has_splits (S s) coarse2 (up s coarse X))).
    { destruct rest as [|top rest]; [exists coarse1; repeat split; [symmetry; exact A|congruence|congruence]|]. destruct T as [L2 T2].
      destruct (ensure_all (S s) coarse1 top (up s coarse X)) as (c2 & E & E1 & E2 & E3); [exact (layer_shape (S s) _ _ _ _ SH (same_shape_refl top) L2)|exact HT1|].
      exists c2. split; [exact E|]. split; [rewrite E1; reflexivity|]. split; [|intros _; exact E3]. destruct SH as (Q1 & Q2 & Q3), E2 as (W1 & W2 & W3). repeat split; congruence. }
    destruct E2 as (coarse2 & -> & G1 & G2 & G3). cbn [bind].
    destruct (IH (S s) coarse2 (up s coarse X)) as (sc & -> & C1 & C2).
    + apply (topo_shape (coarse :: rest)); [constructor; [exact G2|apply same_shapes_refl]|exact T].
    + intros i Hi. rewrite G1 in *. apply B. exact Hi.
    + exact G3.
    + cbn [bind]. exists (fine :: sc). split; [reflexivity|]. inversion C2 as [|? c3 ? sc' G4 C3]; subst. split; [|constructor; [apply same_shape_refl|]].
      * cbn [coherent]. split; [exact HT|]. split; [exact HS|]. cbn [coherent] in C1. rewrite <- (up_shape s coarse c3 X); [exact C1|].
        destruct G2 as (Q1 & Q2 & Q3), G4 as (W1 & W2 & W3). repeat split; congruence.
      * constructor; [|exact C3]. destruct G2 as (Q1 & Q2 & Q3), G4 as (W1 & W2 & W3). repeat split; congruence.
Qed.

(** *** The final amplitude *)
Fixpoint top_of (s : nat) (sc : list scale) (X : nat -> Ten) : nat -> Ten :=
  match sc with
  | _ :: ((coarse :: _) as rest) => top_of (S s) rest (up s coarse X)
  | _ => X
  end.
Definition top_len (sc : list scale) : nat := match rev sc with [] => 0 | top :: _ => alen (tens top) end.
Definition amplitude_of (xs : list Ten) : res (Num o) :=
  match xs with
  | [] => Fail UB
  | x0 :: _ => Ok (if length xs =? 1 then final1 o x0 else if length xs =? 4 then final2 o (fun i => nth i xs x0) else final3 o (fun i => nth i xs x0))
  end.
Definition over (X : nat -> Ten) (u : list (nat * Ten)) : nat -> Ten := fun i => match mget u i with Some x => x | None => X i end.
Definition final_size (n : nat) : Prop := n = 1 \/ n = 4 \/ n = 9.
Lemma coherent_top : forall sc s X, coherent s sc X -> exists pre top, sc = pre ++ [top] /\ has_tens top (top_of s sc X).
Proof.
  induction sc as [|a sc IH]; intros s X H; [destruct H|]. destruct sc as [|b sc]; [exists [], a; split; [reflexivity|exact H]|].
  destruct H as (_ & _ & H). destruct (IH _ _ H) as (pre & top & E & T). exists (a :: pre), top. split; [rewrite E; reflexivity|exact T].
Qed.
Lemma final_ok sc s X u : coherent s sc X -> final_size (top_len sc) ->
  final_amplitude o sc u = amplitude_of (map (over (top_of s sc X) u) (seq 0 (top_len sc))).
Proof.
  intros H F. destruct (coherent_top sc s X H) as (pre & top & E & T). unfold final_amplitude, top_len in *. rewrite E in F |- *. rewrite rev_app_distr in *. cbn [rev app] in *.
  rewrite <- E. set (n := alen (tens top)) in *. replace ((n =? 1) || (n =? 4) || (n =? 9)) with true by (destruct F as [->|[->| ->]]; reflexivity).
  destruct (foreach_inv (fun done xs => xs = map (over (top_of s sc X) u) done)
    (fun xs i => match mget u i with Some x => Ok (xs ++ [x]) | None => y <- aget (tens top) i;; x <- need y;; Ok (xs ++ [x]) end) (seq 0 n) []) as (xs & -> & ->).
  - reflexivity.
  - intros done i rest xs Q ->. assert (Hi : i < n) by (apply in_range; rewrite Q; apply in_or_app; right; left; reflexivity).
    rewrite map_app. cbn [map]. change (over (top_of s sc X) u i) with (match mget u i with Some x => x | None => top_of s sc X i end). destruct (mget u i); [eexists; split; reflexivity|]. rewrite aget_ok by exact Hi. cbn [bind]. rewrite T by exact Hi. cbn [need bind]. eexists; split; reflexivity.
  - cbn [bind]. unfold amplitude_of. rewrite map_length, seq_length. destruct (map (over (top_of s sc X) u) (seq 0 n)); reflexivity.
Qed.
Lemma top_ext : forall sc s X Y, topo s sc -> (forall a l, sc = a :: l -> forall i, i < alen (tens a) -> X i = Y i) ->
  forall i, i < top_len sc -> top_of s sc X i = top_of s sc Y i.
Proof.
  induction sc as [|a sc IH]; intros s X Y T E i Hi; [destruct T|]. destruct sc as [|b sc]; [exact (E a [] eq_refl i Hi)|].
  destruct T as [L T]. cbn [top_of]. apply IH; [exact T| |].
  - intros a' l' [= <- <-] j Hj. apply (up_ext s a b X Y L); [|exact Hj]. exact (E a _ eq_refl).
  - unfold top_len in *. cbn [rev] in *. destruct (rev sc ++ [b]) as [|z zs] eqn:Q; [destruct (rev sc); discriminate|]. exact Hi.
Qed.

(** *** Replacements *)
Definition keys_lt {A} (u : list (nat * A)) (n : nat) : Prop := forall k, In k (map fst u) -> k < n.
Definition splits_ok (s : nat) (X : nat -> Ten) (sp : list (nat * sdata)) : Prop := forall id d, mget sp id = Some d -> d = made s X id.
Lemma get_split_ok s fine u sp id role X X' : has_splits s fine X -> id < alen (tens fine) -> child_split_type sub s id role = Ok (ty s id) ->
  (forall i, i < alen (tens fine) -> X' i = over X u i) -> splits_ok s X' sp ->
  exists sp', get_split o sub p s fine u sp id role = Ok (sp', (sd_P (made s X' id), sd_Q (made s X' id))) /\ splits_ok s X' sp'.
Proof.
  intros [S1 S2] Hi ST E H. unfold get_split. specialize (E id Hi). unfold over in E. destruct (mget u id) as [T|].
  - rewrite ST. cbn [bind]. destruct (mget sp id) as [d|] eqn:M.
    + rewrite <- (H id d M). exists sp. split; [reflexivity|exact H].
    + subst T. exists (mset id (make_split o p (ty s id) (X' id)) sp). split; [reflexivity|].
      intros id' d'. rewrite mget_mset. destruct (Nat.eqb_spec id id') as [<-|]; [intros [= <-]; reflexivity|apply H].
  - unfold pieces_of. rewrite aget_ok by lia. cbn [bind]. rewrite S2 by exact Hi. cbn [need bind]. exists sp. rewrite <- E. split; [reflexivity|exact H].
Qed.
Lemma dirty_ok s fine coarse u : layer_ok s fine coarse -> keys_lt u (alen (tens fine)) ->
  exists d, dirty_parents o fine u = Ok d /\ keys_lt d (alen (tens coarse)) /\
    forall c f, c < alen (tens coarse) -> In f (map fst u) -> (fst (aval (f2c fine) f) = Some c \/ snd (aval (f2c fine) f) = Some c) -> In c (map fst d).
Proof.
  intros L K. unfold dirty_parents.
  destruct (foreach_inv (fun done d => keys_lt d (alen (tens coarse)) /\ forall c f, In f (map fst done) -> (fst (aval (f2c fine) f) = Some c \/ snd (aval (f2c fine) f) = Some c) -> In c (map fst d))
    (fun d (e : nat * Ten) => q <- aget (f2c fine) (fst e);;
      Ok (let d1 := match fst q with Some q => mset q tt d | None => d end in match snd q with Some q => mset q tt d1 | None => d1 end)) u []) as (d & E & A & B).
  - split; [intros k []|intros c f []].
  - intros done [f x] rest d E (A & B). assert (Hf : f < alen (tens fine)) by (apply K; rewrite E, map_app; apply in_or_app; right; left; reflexivity).
    cbn [fst]. rewrite aget_ok by (rewrite (lo_f2c _ _ _ L); exact Hf). cbn [bind]. destruct (lo_parent _ _ _ L f Hf) as (p1 & p2 & role & Q & P1 & P2 & _).
    rewrite Q. cbn [fst snd]. eexists. split; [reflexivity|]. split.
    + intros k Hk. apply mset_keys in Hk. destruct Hk as [->|Hk]; [exact P2|]. apply mset_keys in Hk. destruct Hk as [->|Hk]; [exact P1|]. apply A. exact Hk.
    + intros c g Hg HH. rewrite map_app in Hg. apply in_app_or in Hg. rewrite mset_keys, mset_keys. destruct Hg as [Hg|[Hg|[]]]; [right; right; exact (B c g Hg HH)|].
      cbn [fst] in Hg. subst g. rewrite Q in HH. cbn [fst snd] in HH. destruct HH as [[= ->]|[= ->]]; [right; left; reflexivity|left; reflexivity].
  - exists d. split; [exact E|]. split; [exact A|]. intros c f _. apply B.
Qed.
Lemma layer_propagates s fine coarse u X X' : layer_ok s fine coarse -> has_splits s fine X -> keys_lt u (alen (tens fine)) ->
  (forall i, i < alen (tens fine) -> X' i = over X u i) ->
  exists u' sp, propagate_layer o sub p s fine coarse u = Ok (u', sp) /\ sorted u' /\ keys_lt u' (alen (tens coarse)) /\ splits_ok s X' sp /\
    forall c, c < alen (tens coarse) -> up s coarse X' c = over (up s coarse X) u' c.
Proof.
  intros L S K E. unfold propagate_layer. destruct (dirty_ok s fine coarse u L K) as (d & -> & D1 & D2). cbn [bind].
  destruct (foreach_inv (fun done (st : list (nat * Ten) * list (nat * sdata)) => let '(u', sp) := st in sorted u' /\ splits_ok s X' sp /\
      (forall c, In c (map fst done) -> mget u' c = Some (up s coarse X' c)) /\ (forall c, ~ In c (map fst done) -> mget u' c = None))
    (fun st (e : nat * unit) => let '(u', sp) := st in k <- aget (c2f coarse) (fst e);; let '(((k0, k1), k2), k3) := k in
      a <- get_split o sub p s fine u sp k0 0;; b <- get_split o sub p s fine u (fst a) k1 1;; c <- get_split o sub p s fine u (fst b) k2 2;; e4 <- get_split o sub p s fine u (fst c) k3 3;;
      Ok (mset (fst e) (if Nat.even s then plaquette o (snd (snd a)) (snd (snd b)) (fst (snd c)) (fst (snd e4)) else diamond o (fst (snd a)) (fst (snd b)) (snd (snd c)) (snd (snd e4))) u', fst e4)) d ([], [])) as ([u' sp] & Q & A & B & G1 & G2).
  - split; [constructor|]. split; [intros id x Q; discriminate|]. split; [intros c []|reflexivity].
  - intros done [c []] rest [u' sp] Q (A & B & G1 & G2). cbn [fst]. assert (Hc : c < alen (tens coarse)) by (apply D1; rewrite Q, map_app; apply in_or_app; right; left; reflexivity).
    rewrite aget_ok by (rewrite (lo_c2f _ _ _ L); exact Hc). cbn [bind]. pose proof (lo_child _ _ _ L c) as C.
    assert (U : up s coarse X' c = let k := aval (c2f coarse) c in
      if Nat.even s then plaquette o (sd_Q (made s X' (child k 0))) (sd_Q (made s X' (child k 1))) (sd_P (made s X' (child k 2))) (sd_P (made s X' (child k 3)))
      else diamond o (sd_P (made s X' (child k 0))) (sd_P (made s X' (child k 1))) (sd_Q (made s X' (child k 2))) (sd_Q (made s X' (child k 3)))) by reflexivity.
    destruct (aval (c2f coarse) c) as [[[k0 k1] k2] k3].
    pose proof (C 0 Hc ltac:(lia)) as (C0 & _ & T0). pose proof (C 1 Hc ltac:(lia)) as (C1 & _ & T1). pose proof (C 2 Hc ltac:(lia)) as (C2 & _ & T2). pose proof (C 3 Hc ltac:(lia)) as (C3 & _ & T3).
    cbn [child] in *. cbv zeta in U.
    destruct (get_split_ok s fine u sp k0 0 X X' S C0 T0 E B) as (sp1 & -> & B1). cbn [bind fst snd].
    destruct (get_split_ok s fine u sp1 k1 1 X X' S C1 T1 E B1) as (sp2 & -> & B2). cbn [bind fst snd].
    destruct (get_split_ok s fine u sp2 k2 2 X X' S C2 T2 E B2) as (sp3 & -> & B3). cbn [bind fst snd].
    destruct (get_split_ok s fine u sp3 k3 3 X X' S C3 T3 E B3) as (sp4 & -> & B4). cbn [bind fst snd]. rewrite <- U.
    eexists. split; [reflexivity|]. split; [apply mset_sorted; exact A|]. split; [exact B4|]. rewrite map_app. cbn [map fst]. split.
    + intros c' Hc'. rewrite mget_mset. destruct (Nat.eqb_spec c c') as [<-|N]; [reflexivity|]. apply G1. apply in_app_or in Hc'. destruct Hc' as [Hc'|[Hc'|[]]]; [exact Hc'|congruence].
    + intros c' Hc'. rewrite mget_mset. destruct (Nat.eqb_spec c c') as [<-|N]; [exfalso; apply Hc'; apply in_or_app; right; left; reflexivity|]. apply G2. intros W. apply Hc'. apply in_or_app. left. exact W.
  - exists u', sp. split; [exact Q|]. split; [exact A|]. split; [|split; [exact B|]].
    + intros k Hk. apply mget_in in Hk. destruct (in_dec Nat.eq_dec k (map fst d)) as [W|W]; [apply D1; exact W|]. exfalso. apply Hk, G2. exact W.
    + intros c Hc. unfold over. destruct (in_dec Nat.eq_dec c (map fst d)) as [W|W]; [rewrite (G1 c W); reflexivity|]. rewrite (G2 c W).
      unfold up. cbv zeta. pose proof (lo_child _ _ _ L c) as C.
      assert (Z : forall i, i < 4 -> X' (child (aval (c2f coarse) c) i) = X (child (aval (c2f coarse) c) i)).
      { intros i Hi. destruct (C i Hc Hi) as (C1 & C2 & _). cbv zeta in *. rewrite E by exact C1. unfold over. rewrite mget_none; [reflexivity|]. intros V. apply W. exact (D2 c _ Hc V C2). }
      rewrite !Z by lia. reflexivity.
Qed.
(** what the layers of a trial say *)
Fixpoint updates_ok (s : nat) (sc : list scale) (X X' : nat -> Ten) (ls : list (list (nat * Ten) * list (nat * sdata))) : Prop :=
  match sc, ls with
  | fine :: rest, (u, sp) :: ls' =>
      sorted u /\ keys_lt u (alen (tens fine)) /\ (forall i, i < alen (tens fine) -> X' i = over X u i) /\ splits_ok s X' sp /\
      match rest with
      | [] => ls' = [] /\ sp = []
      | coarse :: _ => updates_ok (S s) rest (up s coarse X) (up s coarse X') ls'
      end
  | _, _ => False
  end.
Lemma updates_none : forall sc s X X', topo s sc -> (forall a l, sc = a :: l -> forall i, i < alen (tens a) -> X' i = X i) -> updates_ok s sc X X' (map (fun _ => ([], [])) sc).
Proof.
  induction sc as [|a sc IH]; intros s X X' T E; [destruct T|]. cbn [map updates_ok]. split; [constructor|]. split; [intros k []|]. split; [intros i Hi; exact (E a sc eq_refl i Hi)|].
  split; [intros id d Q; discriminate|]. destruct sc as [|b sc]; [split; reflexivity|]. destruct T as [L T]. apply IH; [exact T|]. intros a' l' [= <- <-] i Hi.
  apply (up_ext s a b X' X L); [exact (E a _ eq_refl)|exact Hi].
Qed.
Lemma propagate_ok : forall sc s X X' u, topo s sc -> coherent s sc X -> sorted u -> (forall a l, sc = a :: l -> keys_lt u (alen (tens a)) /\ forall i, i < alen (tens a) -> X' i = over X u i) ->
  exists ls, propagate o sub p s sc u = Ok ls /\ updates_ok s sc X X' ls /\
    exists last, back ls = Ok last /\ keys_lt (fst last) (top_len sc) /\ forall i, i < top_len sc -> top_of s sc X' i = over (top_of s sc X) (fst last) i.
Proof.
  induction sc as [|a sc IH]; intros s X X' u T H SO E; [destruct T|]. destruct sc as [|b sc].
  - exists [(u, [])]. split; [reflexivity|]. destruct (E a [] eq_refl) as [E1 E2]. split; [cbn [updates_ok]; repeat split; try assumption; intros id d Q; discriminate|].
    exists (u, []). split; [reflexivity|]. split; [exact E1|exact E2].
  - destruct T as [L T]. destruct H as (HT & HS & H). destruct (E a _ eq_refl) as [E1 E2].
    destruct u as [|e u].
    + assert (XX : forall i, i < alen (tens a) -> X' i = X i) by (intros i Hi; rewrite (E2 i Hi); reflexivity).
      exists (map (fun _ => ([], [])) (a :: b :: sc)). split; [reflexivity|]. split; [apply updates_none; [split; assumption|]; intros a' l' [= <- <-]; exact XX|].
      exists ([], []). split; [|split; [intros k []|]].
      * unfold back. rewrite <- map_rev. assert (NE : rev (a :: b :: sc) <> []) by (intros Q; apply (f_equal (@length _)) in Q; rewrite rev_length in Q; discriminate).
        destruct (rev (a :: b :: sc)); [congruence|reflexivity].
      * intros i Hi. apply (top_ext (a :: b :: sc) s X' X); [split; assumption| |exact Hi]. intros a' l' [= <- <-]. exact XX.
    + change (propagate o sub p s (a :: b :: sc) (e :: u)) with (x <- propagate_layer o sub p s a b (e :: u);; up <- propagate o sub p (S s) (b :: sc) (fst x);; Ok ((e :: u, snd x) :: up)).
      destruct (layer_propagates s a b (e :: u) X X' L HS E1 E2) as (u' & sp & -> & U1 & U2 & U3 & U4). cbn [bind fst snd].
      destruct (IH (S s) (up s b X) (up s b X') u' T H U1) as (ls & -> & W & last & B1 & B2 & B3).
      { intros a' l' [= <- <-]. split; assumption. }
      exists ((e :: u, sp) :: ls). split; [reflexivity|]. split; [cbn [updates_ok]; repeat split; assumption|].
      exists last. split; [unfold back in *; cbn [rev]; destruct (rev ls); [discriminate|exact B1]|].
      assert (TL : top_len (a :: b :: sc) = top_len (b :: sc)).
      { unfold top_len. cbn [rev]. destruct (rev sc ++ [b]) eqn:Q; [destruct (rev sc); discriminate|reflexivity]. }
      rewrite TL. split; assumption.
Qed.

(** *** Commit *)
Lemma commit_layer_ok s fine rest u sp X X' : has_tens fine X -> sorted u -> keys_lt u (alen (tens fine)) -> (forall i, i < alen (tens fine) -> X' i = over X u i) -> splits_ok s X' sp ->
  match rest with [] => sp = [] | coarse :: _ => layer_ok s fine coarse /\ has_splits s fine X end ->
  exists fine', commit_layer o sub p s fine rest (u, sp) = Ok fine' /\ same_shape fine fine' /\ has_tens fine' X' /\ (rest <> [] -> has_splits s fine' X').
Proof.
  intros HT SO K E HP R. unfold commit_layer. cbn [fst snd].
  assert (MS : forall i, i < alen (tens fine) -> ~ In i (map fst u) -> X' i = X i) by (intros i Hi N; rewrite (E i Hi); unfold over; rewrite mget_none by exact N; reflexivity).
  destruct u as [|e u0].
  { exists fine. split; [reflexivity|]. split; [apply same_shape_refl|]. split; [intros i Hi; rewrite (HT i Hi), (MS i Hi); [reflexivity|intros []]|].
    intros Q. destruct rest as [|coarse rest]; [congruence|]. destruct R as [L [S1 S2]]. split; [exact S1|]. intros i Hi. rewrite (S2 i Hi), (MS i Hi); [reflexivity|intros []]. }
  remember (e :: u0) as u eqn:Eu. clear Eu e u0.
  assert (ND : NoDup (map fst u)) by (apply sorted_nodup; exact SO).
  destruct (foreach_inv (fun done ts => alen ts = alen (tens fine) /\ (forall i, In i (map fst done) -> aval ts i = option_map (fun x => x) (mget u i)) /\ (forall i, ~ In i (map fst done) -> aval ts i = aval (tens fine) i))
    (fun ts (e : nat * Ten) => aset ts (fst e) (Some (snd e))) u (tens fine)) as (ts & -> & A & B & D).
  - split; [reflexivity|]. split; [intros i []|reflexivity].
  - intros done [k x] rest' ts Q (A & B & D). cbn [fst snd]. assert (Hin : In (k, x) u) by (rewrite Q; apply in_or_app; right; left; reflexivity).
    assert (Hk : k < alen (tens fine)) by (apply K; apply (in_map fst) in Hin; exact Hin). rewrite aset_ok by lia. eexists. split; [reflexivity|]. cbn [alen aval]. split; [exact A|].
    rewrite map_app. cbn [map fst]. split.
    + intros i Hi. destruct (Nat.eqb_spec i k) as [->|N]; [rewrite (mget_of u k x ND Hin); reflexivity|]. apply B. apply in_app_or in Hi. destruct Hi as [Hi|[Hi|[]]]; [exact Hi|congruence].
    + intros i Hi. destruct (Nat.eqb_spec i k) as [->|N]; [exfalso; apply Hi; apply in_or_app; right; left; reflexivity|]. apply D. intros W. apply Hi. apply in_or_app. left. exact W.
  - cbn [bind]. set (fine1 := mkScale ts (f2c fine) (c2f fine) (splits fine)).
    assert (HT1 : forall i, i < alen ts -> aval ts i = Some (X' i)).
    { intros i Hi. rewrite A in Hi. rewrite (E i Hi). unfold over. destruct (in_dec Nat.eq_dec i (map fst u)) as [W|W].
      - rewrite (B i W). destruct (mget u i) eqn:M; [reflexivity|]. exfalso. apply mget_in in W. congruence.
      - rewrite (D i W), (HT i Hi), mget_none by exact W. reflexivity. }
    assert (SH1 : same_shape fine fine1) by (repeat split; symmetry; exact A).
    (* recomputation of some nodes *)
    assert (RE : forall nodes spl, (forall i, In i nodes -> In i (map fst u)) ->
      match rest with [] => True | _ => alen spl = alen (tens fine) /\ forall i, i < alen (tens fine) -> ~ In i nodes -> aval spl i = Some (made s X' i) end ->
      exists fine', match rest with [] => Ok (mkScale ts (f2c fine) (c2f fine) spl) | coarse :: _ => ensure_splits o sub p s (mkScale ts (f2c fine) (c2f fine) spl) coarse nodes end = Ok fine' /\
        same_shape fine fine' /\ has_tens fine' X' /\ (rest <> [] -> has_splits s fine' X')).
    { intros nodes spl N1 N2. destruct rest as [|coarse rest]; [eexists; split; [reflexivity|]; repeat split; [symmetry; exact A|exact HT1|congruence|congruence]|].
      destruct R as [L HS]. destruct N2 as [N2 N3]. assert (SHs : same_shape fine (mkScale ts (f2c fine) (c2f fine) spl)) by (repeat split; symmetry; exact A).
      destruct (ensure_ok s (mkScale ts (f2c fine) (c2f fine) spl) coarse nodes X') as (f' & Q & F1 & F2 & F3 & F4 & F5 & F6).
      { exact (layer_shape s _ _ _ _ SHs (same_shape_refl coarse) L). }
      { intros i Hi. cbn [tens]. assert (i < alen ts) by (rewrite A; apply K, N1, Hi). split; [assumption|apply HT1; assumption]. }
      cbn [tens f2c c2f splits] in *. exists f'. split; [exact Q|]. split; [repeat split; congruence|]. split; [intros i Hi; rewrite F1 in *; apply HT1; exact Hi|].
      intros _. split; [congruence|]. intros i Hi. rewrite F1, A in Hi. destruct (in_dec Nat.eq_dec i nodes) as [W|W]; [apply F5; exact W|]. rewrite F6 by (try exact W; congruence). apply N3; assumption. }
    destruct sp as [|sp0 sps].
    + destruct (RE (map fst u) (splits fine)) as (f' & Q & R1); [intros i Hi; exact Hi| |exists f'; split; [exact Q|exact R1]].
      destruct rest as [|coarse rest]; [exact I|]. destruct R as [L [S1 S2]]. split; [exact S1|]. intros i Hi W. rewrite (S2 i Hi), (MS i Hi W). reflexivity.
    + destruct rest as [|coarse rest]; [discriminate|]. destruct R as [L [S1 S2]].
      destruct (foreach_inv (fun done (st : arr (option sdata) * list nat) => alen (fst st) = alen (tens fine) /\ (forall i, In i (snd st) -> In i (map fst done)) /\
          (forall i, i < alen (tens fine) -> In i (map fst done) -> ~ In i (snd st) -> aval (fst st) i = Some (made s X' i)) /\ (forall i, ~ In i (map fst done) -> aval (fst st) i = aval (splits fine) i))
        (fun st (e : nat * Ten) => match mget (sp0 :: sps) (fst e) with Some d => sp <- aset (fst st) (fst e) (Some d);; Ok (sp, snd st) | None => Ok (fst st, snd st ++ [fst e]) end) u (splits fine, [])) as ([spl nodes] & Q & G1 & G2 & G3 & G4).
      * cbn [fst snd]. split; [exact S1|]. split; [intros i []|]. split; [intros i _ []|reflexivity].
      * intros done [k x] rest' [spl nodes] Q (G1 & G2 & G3 & G4). cbn [fst snd] in *. assert (Hk : k < alen (tens fine)) by (apply K; rewrite Q, map_app; apply in_or_app; right; left; reflexivity).
        rewrite map_app. cbn [map fst]. destruct (mget (sp0 :: sps) k) as [d|] eqn:M.
        -- rewrite aset_ok by lia. cbn [bind]. eexists. split; [reflexivity|]. cbn [fst snd alen aval]. split; [exact G1|]. split; [intros i Hi; apply in_or_app; left; apply G2; exact Hi|]. split.
           ++ intros i Hi Hd W. destruct (Nat.eqb_spec i k) as [->|N]; [rewrite (HP k d M); reflexivity|]. apply G3; [exact Hi| |exact W]. apply in_app_or in Hd. destruct Hd as [Hd|[Hd|[]]]; [exact Hd|congruence].
           ++ intros i W. destruct (Nat.eqb_spec i k) as [->|N]; [exfalso; apply W; apply in_or_app; right; left; reflexivity|]. apply G4. intros V. apply W. apply in_or_app. left. exact V.
        -- eexists. split; [reflexivity|]. cbn [fst snd]. split; [exact G1|]. split; [intros i Hi; apply in_app_or in Hi; apply in_or_app; destruct Hi as [Hi|[Hi|[]]]; [left; apply G2; exact Hi|right; left; exact Hi]|]. split.
           ++ intros i Hi Hd W. apply G3; [exact Hi| |intros V; apply W; apply in_or_app; left; exact V]. apply in_app_or in Hd. destruct Hd as [Hd|[Hd|[]]]; [exact Hd|]. exfalso. apply W. apply in_or_app. right. left. exact Hd.
           ++ intros i W. apply G4. intros V. apply W. apply in_or_app. left. exact V.
      * cbn [fst snd] in *. change (splits fine1) with (splits fine). rewrite Q. cbn [bind fst snd].
        assert (N2 : forall i, i < alen (tens fine) -> ~ In i nodes -> aval spl i = Some (made s X' i)).
        { intros i Hi W. destruct (in_dec Nat.eq_dec i (map fst u)) as [V|V]; [apply G3; assumption|]. rewrite (G4 i V), (S2 i Hi), (MS i Hi V). reflexivity. }
        destruct nodes as [|n0 nodes].
        -- eexists. split; [reflexivity|]. split; [repeat split; symmetry; exact A|]. split; [exact HT1|]. intros _. cbn [tens splits has_splits]. split; cbn [tens splits]; [congruence|]. intros i Hi. apply N2; [lia|intros []].
        -- apply (RE (n0 :: nodes) spl); [exact G2|]. split; [exact G1|exact N2].
Qed.
Lemma commit_ok : forall sc s X X' ls, topo s sc -> coherent s sc X -> updates_ok s sc X X' ls ->
  exists sc', commit_layers o sub p s sc ls = Ok sc' /\ coherent s sc' X' /\ Forall2 same_shape sc sc'.
Proof.
  induction sc as [|a sc IH]; intros s X X' ls T H U; [destruct T|]. destruct ls as [|[u sp] ls]; [destruct U|]. destruct U as (U1 & U2 & U3 & U4 & U5). cbn [commit_layers].
  destruct sc as [|b sc].
  - destruct U5 as [-> ->]. destruct (commit_layer_ok s a [] u [] X X' H U1 U2 U3 U4 eq_refl) as (a' & -> & A1 & A2 & _). cbn [bind commit_layers]. exists [a']. split; [reflexivity|]. split; [exact A2|]. constructor; [exact A1|constructor].
  - destruct T as [L T]. destruct H as (HT & HS & H). destruct (commit_layer_ok s a (b :: sc) u sp X X' HT U1 U2 U3 U4 (conj L HS)) as (a' & -> & A1 & A2 & A3). cbn [bind].
    destruct (IH (S s) (up s b X) (up s b X') ls T H U5) as (sc' & E & C1 & C2). rewrite E. cbn [bind]. exists (a' :: sc'). split; [reflexivity|]. inversion C2 as [|? b' ? sc1 G4 C3]; subst.
    split; [|constructor; [exact A1|constructor; [exact G4|exact C3]]]. split; [exact A2|]. split; [apply A3; discriminate|]. rewrite <- (up_shape s b b' X' G4). exact C1.
Qed.
Lemma updates_length : forall sc s X X' ls, updates_ok s sc X X' ls -> length ls = length sc.
Proof.
  induction sc as [|a sc IH]; intros s X X' ls U; [destruct ls; destruct U|]. destruct ls as [|[u sp] ls]; [destruct U|]. destruct U as (_ & _ & _ & _ & U5). cbn [length]. f_equal.
  destruct sc as [|b sc]; [destruct U5 as [-> _]; reflexivity|]. exact (IH _ _ _ _ U5).
Qed.
(** coherent caches of the same shape for the same tensors are the same; split vectors of the last layer excepted *)
Lemma coherent_same : forall sc sc' s X X', topo s sc -> Forall2 same_shape sc sc' -> coherent s sc X -> coherent s sc' X' ->
  (forall a l, sc = a :: l -> forall i, i < alen (tens a) -> X i = X' i) ->
  Forall2 (fun a b => same_arr (tens a) (tens b) /\ same_arr (f2c a) (f2c b) /\ same_arr (c2f a) (c2f b)) sc sc' /\
  Forall2 (fun a b => same_arr (splits a) (splits b)) (removelast sc) (removelast sc').
Proof.
  induction sc as [|a sc IH]; intros sc' s X X' T F H H' E; [destruct T|]. inversion F as [|? a' ? sc1 Ha F1]; subst.
  assert (SA : forall Z (x : arr Z), same_arr x x) by (intros Z x; split; [reflexivity|intros; reflexivity]).
  destruct Ha as (A1 & A2 & A3). destruct sc as [|b sc].
  - inversion F1; subst. split; [|constructor]. constructor; [|constructor]. rewrite A2, A3. split; [|split; apply SA]. split; [exact A1|]. intros i Hi.
    cbn [coherent] in H, H'. rewrite (H i Hi), (H' i ltac:(lia)), (E a [] eq_refl i Hi). reflexivity.
  - inversion F1 as [|? b' ? sc2 Hb F2]; subst. destruct T as [L T]. destruct H as (HT & [S1 S2] & H). destruct H' as (HT' & [S1' S2'] & H').
    destruct (IH (b' :: sc2) (S s) (up s b X) (up s b' X') T F1 H H') as [I1 I2].
    { intros a0 l0 [= <- <-] i Hi. rewrite <- (up_shape s b b' X' Hb). apply (up_ext s a b X X' L); [exact (E a _ eq_refl)|exact Hi]. }
    split; [constructor; [|exact I1]|].
    + rewrite A2, A3. split; [|split; apply SA]. split; [exact A1|]. intros i Hi. rewrite (HT i Hi), (HT' i ltac:(lia)), (E a _ eq_refl i Hi). reflexivity.
    + change (removelast (a :: b :: sc)) with (a :: removelast (b :: sc)). change (removelast (a' :: b' :: sc2)) with (a' :: removelast (b' :: sc2)).
      constructor; [|exact I2]. split; [congruence|]. intros i Hi. rewrite S1 in Hi. rewrite (S2 i Hi), (S2' i ltac:(lia)), (E a _ eq_refl i Hi). reflexivity.
Qed.
End Coherent.
