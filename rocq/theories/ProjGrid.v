(** The bonds of the sites a projection works on, their weights, and the weights after one is replaced. *)
From Coq Require Import List Arith Lia Bool Reals Lra Permutation.
From Verif Require Import Base Cplx SumModel SumSpec SumProofs NetSum TrgTensor BmpsAlg ProjModel ProjSpec ProjAlg ProjTwo ProjPatch.
Import ListNotations.
Local Open Scope nat_scope.

(** the weight on a leg of a site *)
Definition wt (P : peps) (r c l : nat) : list R := match l with 0 => west P r c | 1 => south P r c | 2 => east P r c | _ => north P r c end.
(** the weight of a bond is replaced *)
Definition set_bond (P : peps) (b : bond) (s : list R) : peps :=
  match b with Hor r c => put_h P r ((c + 1) mod p_cols P) s | Ver r c => put_v P ((r + 1) mod p_rows P) c s end.
Notation lb P := (leg_bond (p_rows P) (p_cols P) (p_per P)).
Notation lv P := (leg_value (p_rows P) (p_cols P) (p_per P)).
Notation bs P := (bonds (p_rows P) (p_cols P) (p_per P)).
Ltac legs E := cbn [leg_bond] in E; rewrite ?orb_true_r, ?orb_false_r in E; repeat match type of E with context [?x <? ?y] => destruct (Nat.ltb_spec x y) end; try discriminate E.

Lemma wrap n k : k < n -> k + 1 < n \/ k + 1 = n -> (k + 1) mod n = if k + 1 =? n then 0 else k + 1.
Proof. intros H _. destruct (Nat.eqb_spec (k + 1) n) as [E|E]; [rewrite E; apply Nat.mod_same; lia|apply Nat.mod_small; lia]. Qed.
Lemma next_pred n c : 0 < c -> c < n -> (c - 1 + 1) mod n = c.
Proof. intros. replace (c - 1 + 1) with c by lia. apply Nat.mod_small. assumption. Qed.
Lemma next_last n : 0 < n -> (n - 1 + 1) mod n = 0.
Proof. intros. replace (n - 1 + 1) with n by lia. apply Nat.mod_same. lia. Qed.

Lemma wt_bond P r c l b : r < p_rows P -> c < p_cols P -> l < 4 -> lb P r c l = Some b -> wt P r c l = lam_of P b.
Proof.
  intros Hr Hc Hl E. destruct (p_per P) eqn:Ep; destruct l as [|[|[|[|l]]]]; try lia; legs E; injection E as <-;
    cbn [wt lam_of]; unfold west, south, east, north; rewrite ?Ep, ?next_pred, ?next_last by lia; try reflexivity;
    try (replace c with 0 by lia; reflexivity); try (replace r with 0 by lia; reflexivity); rewrite Nat.mod_small by lia; reflexivity.
Qed.
(** the two legs at the ends of a bond *)
Lemma leg_ends P r c l b : r < p_rows P -> c < p_cols P -> l < 4 -> lb P r c l = Some b ->
  match b with
  | Hor r0 c0 => (r = r0 /\ c = c0 /\ l = 2) \/ (r = r0 /\ c = (c0 + 1) mod p_cols P /\ l = 0)
  | Ver r0 c0 => (r = r0 /\ c = c0 /\ l = 1) \/ (r = (r0 + 1) mod p_rows P /\ c = c0 /\ l = 3)
  end.
Proof.
  intros Hr Hc Hl E. destruct (p_per P) eqn:Ep; destruct l as [|[|[|[|l]]]]; try lia; legs E; injection E as <-;
    rewrite ?next_pred, ?next_last by lia; auto; right; repeat split; lia.
Qed.
Lemma next_row n (per : bool) r : r < (if per then n else n - 1) -> r < n /\ (r + 1) mod n < n /\ (per = false -> (r + 1) mod n = r + 1).
Proof. intros H. assert (r < n) by (destruct per; lia). repeat split; [assumption|apply Nat.mod_upper_bound; lia|]. intros ->. apply Nat.mod_small. lia. Qed.
Lemma end_left P r c : In (Hor r c) (bs P) -> lb P r c 2 = Some (Hor r c).
Proof.
  rewrite bonds_in. intros [Hr Hc]. cbn [leg_bond]. destruct (p_per P) eqn:E; rewrite ?orb_true_r, ?orb_false_r; [reflexivity|]. destruct (Nat.ltb_spec (c + 1) (p_cols P)); [reflexivity|lia].
Qed.
Lemma end_right P r c : In (Hor r c) (bs P) -> lb P r ((c + 1) mod p_cols P) 0 = Some (Hor r c).
Proof.
  rewrite bonds_in. intros [Hr Hc]. cbn [leg_bond]. destruct (next_row _ _ _ Hc) as (H1 & _ & H2). destruct (p_per P) eqn:E.
  - rewrite wrap by lia. destruct (Nat.eqb_spec (c + 1) (p_cols P)) as [Q|Q]; [replace (p_cols P - 1) with c by lia; reflexivity|].
    destruct (Nat.ltb_spec 0 (c + 1)); [|lia]. replace (c + 1 - 1) with c by lia. reflexivity.
  - rewrite H2 by reflexivity. destruct (Nat.ltb_spec 0 (c + 1)); [|lia]. replace (c + 1 - 1) with c by lia. reflexivity.
Qed.
Lemma end_up P r c : In (Ver r c) (bs P) -> lb P r c 1 = Some (Ver r c).
Proof.
  rewrite bonds_in. intros [Hr Hc]. cbn [leg_bond]. destruct (p_per P) eqn:E; rewrite ?orb_true_r, ?orb_false_r; [reflexivity|]. destruct (Nat.ltb_spec (r + 1) (p_rows P)); [reflexivity|lia].
Qed.
Lemma end_down P r c : In (Ver r c) (bs P) -> lb P ((r + 1) mod p_rows P) c 3 = Some (Ver r c).
Proof.
  rewrite bonds_in. intros [Hr Hc]. cbn [leg_bond]. destruct (next_row _ _ _ Hr) as (H1 & _ & H2). destruct (p_per P) eqn:E.
  - rewrite wrap by lia. destruct (Nat.eqb_spec (r + 1) (p_rows P)) as [Q|Q]; [replace (p_rows P - 1) with r by lia; reflexivity|].
    destruct (Nat.ltb_spec 0 (r + 1)); [|lia]. replace (r + 1 - 1) with r by lia. reflexivity.
  - rewrite H2 by reflexivity. destruct (Nat.ltb_spec 0 (r + 1)); [|lia]. replace (r + 1 - 1) with r by lia. reflexivity.
Qed.
Lemma lv_hit P a b i r c l : lb P r c l = Some b -> lv P (up a b i) r c l = i.
Proof. intros E. unfold leg_value. rewrite E. apply upd_same. Qed.
Lemma lv_miss P a b i r c l : lb P r c l <> Some b -> lv P (up a b i) r c l = lv P a r c l.
Proof. intros E. unfold leg_value. destruct (lb P r c l) as [b'|]; [|reflexivity]. apply upd_other. congruence. Qed.

(** two bonds with the same weight are the same *)
Lemma next_inj n i j : i < n -> j < n -> (i + 1) mod n = (j + 1) mod n -> i = j.
Proof. intros Hi Hj. rewrite !wrap by lia. destruct (Nat.eqb_spec (i + 1) n), (Nat.eqb_spec (j + 1) n); lia. Qed.
Lemma lam_set P b s b' : In b (bs P) -> In b' (bs P) -> lam_of (set_bond P b s) b' = if bond_eq_dec b' b then s else lam_of P b'.
Proof.
  intros Hb Hb'. apply bonds_in in Hb. apply bonds_in in Hb'. destruct b as [r c|r c], b' as [r' c'|r' c']; cbn [set_bond lam_of put_h put_v lam_h lam_v p_rows p_cols]; destruct (bond_eq_dec _ _) as [E|E]; try discriminate E; try reflexivity.
  - injection E as -> ->. unfold put. rewrite !Nat.eqb_refl. reflexivity.
  - unfold put. destruct (Nat.eqb_spec r' r) as [->|]; [|reflexivity]. destruct (Nat.eqb_spec ((c' + 1) mod p_cols P) ((c + 1) mod p_cols P)) as [Q|]; [|reflexivity].
    exfalso. apply E. f_equal. apply (next_inj (p_cols P)); [destruct (p_per P); lia..|exact Q].
  - injection E as -> ->. unfold put. rewrite !Nat.eqb_refl. reflexivity.
  - unfold put. destruct (Nat.eqb_spec c' c) as [->|]; [|rewrite andb_false_r; reflexivity]. rewrite andb_true_r. destruct (Nat.eqb_spec ((r' + 1) mod p_rows P) ((r + 1) mod p_rows P)) as [Q|]; [|reflexivity].
    exfalso. apply E. f_equal. apply (next_inj (p_rows P)); [destruct (p_per P); lia..|exact Q].
Qed.
Lemma set_rows P b s : p_rows (set_bond P b s) = p_rows P /\ p_cols (set_bond P b s) = p_cols P /\ p_per (set_bond P b s) = p_per P.
Proof. destruct b; repeat split. Qed.
Lemma wt_set_hit P b s r c l : In b (bs P) -> r < p_rows P -> c < p_cols P -> l < 4 -> lb P r c l = Some b -> wt (set_bond P b s) r c l = s.
Proof.
  intros Hb Hr Hc Hl E. destruct (set_rows P b s) as (R1 & R2 & R3). rewrite (wt_bond _ r c l b) by (rewrite ?R1, ?R2, ?R3; assumption). rewrite lam_set by assumption. destruct (bond_eq_dec b b); congruence.
Qed.
Lemma wt_set_miss P b s r c l : In b (bs P) -> r < p_rows P -> c < p_cols P -> l < 4 -> lb P r c l <> Some b -> wt (set_bond P b s) r c l = wt P r c l.
Proof.
  intros Hb Hr Hc Hl E. destruct (set_rows P b s) as (R1 & R2 & R3). destruct (lb P r c l) as [b'|] eqn:F.
  - rewrite (wt_bond _ r c l b') by (rewrite ?R1, ?R2, ?R3; assumption). rewrite lam_set by (try assumption; apply (leg_in _ _ _ r c l); assumption). rewrite (wt_bond P r c l b') by assumption. destruct (bond_eq_dec b' b); congruence.
  - apply bonds_in in Hb. destruct (p_per P) eqn:Ep; [destruct l as [|[|[|[|l]]]]; try lia; legs F|].
    destruct b as [r0 c0|r0 c0]; destruct l as [|[|[|[|l]]]]; try lia; legs F; cbn [wt set_bond]; unfold west, south, east, north; cbn [put_h put_v p_per lam_h lam_v]; rewrite ?Ep; try reflexivity; unfold put.
    + destruct (Nat.eqb_spec c ((c0 + 1) mod p_cols P)) as [Q|]; [rewrite Nat.mod_small in Q by lia; lia|rewrite andb_false_r; reflexivity].
    + destruct (Nat.eqb_spec (c + 1) ((c0 + 1) mod p_cols P)) as [Q|]; [rewrite Nat.mod_small in Q by lia; lia|rewrite andb_false_r; reflexivity].
    + destruct (Nat.eqb_spec (r + 1) ((r0 + 1) mod p_rows P)) as [Q|]; [rewrite Nat.mod_small in Q by lia; lia|reflexivity].
    + destruct (Nat.eqb_spec r ((r0 + 1) mod p_rows P)) as [Q|]; [rewrite Nat.mod_small in Q by lia; lia|reflexivity].
Qed.

(** [sound], bond by bond *)
Definition fitted (tol : R) (P : peps) : Prop :=
  (0 < tol < 1)%R /\
  (forall r c, r < p_rows P -> c < p_cols P -> shape (gamma P r c) = [length (wt P r c 0); length (wt P r c 1); length (wt P r c 2); length (wt P r c 3); phys P r c]) /\
  (forall b, In b (bs P) -> kept tol (lam_of P b)) /\
  (forall r c l, r < p_rows P -> c < p_cols P -> l < 4 -> lb P r c l = None -> wt P r c l = [1%R]).
Lemma sound_fitted tol P : sound tol P <-> fitted tol P.
Proof.
  split.
  - intros (T & A & O). split; [exact T|]. split; [intros r c Hr Hc; exact (proj1 (A r c Hr Hc))|]. split.
    + intros [r c|r c] Hb.
      * rewrite <- (wt_bond P r c 2 (Hor r c)); [apply A; apply bonds_in in Hb; destruct (p_per P); lia|apply bonds_in in Hb; destruct (p_per P); lia..|apply end_left; exact Hb].
      * rewrite <- (wt_bond P r c 1 (Ver r c)); [apply A; apply bonds_in in Hb; destruct (p_per P); lia|apply bonds_in in Hb; destruct (p_per P); lia..|apply end_up; exact Hb].
    + intros r c l Hr Hc Hl E. destruct (p_per P) eqn:Ep; [destruct l as [|[|[|[|l]]]]; try lia; legs E|].
      destruct (O eq_refl r c Hr Hc) as (O1 & O2 & O3 & O4). destruct l as [|[|[|[|l]]]]; try lia; legs E; cbn [wt]; [apply O1|apply O4|apply O2|apply O3]; lia.
  - intros (T & A & KE & O).
    assert (KL : forall r c l, r < p_rows P -> c < p_cols P -> l < 4 -> kept tol (wt P r c l)).
    { intros r c l Hr Hc Hl. destruct (lb P r c l) as [b|] eqn:E; [rewrite (wt_bond P r c l b) by assumption; apply KE; apply (leg_in _ _ _ r c l); assumption|].
      rewrite O by assumption. intros x [<-|[]]. right. rewrite Rabs_R1. apply T. }
    split; [exact T|]. split.
    + intros r c Hr Hc. split; [apply A; assumption|]. repeat split; [apply (KL r c 0)|apply (KL r c 1)|apply (KL r c 2)|apply (KL r c 3)]; lia.
    + intros Ep r c Hr Hc. repeat split; intros Q; [apply (O r c 0)|apply (O r c 2)|apply (O r c 3)|apply (O r c 1)]; try lia; rewrite Ep; cbn [leg_bond]; rewrite ?orb_false_r;
        match goal with |- context [?x <? ?y] => destruct (Nat.ltb_spec x y) end; try reflexivity; lia.
Qed.
Lemma inv_el tol s i : i < length s -> el (inv_elements tol s) i = RtoC (if Rlt_dec (Rabs (nth i s 0%R)) tol then 0 else / nth i s 0%R).
Proof.
  intros H. unfold el, inv_elements. f_equal. set (f := fun x : R => if Rlt_dec (Rabs x) tol then 0%R else (/ x)%R). rewrite (nth_indep (map f s) 0%R (f 0%R)) by (rewrite map_length; exact H). rewrite map_nth. reflexivity.
Qed.
Lemma kept_good tol s i : kept tol s -> i < length s -> el s i <> RtoC 0 -> good tol s i.
Proof.
  intros KE H NZ. unfold good. rewrite inv_el by exact H. unfold el in *. assert (NZ' : nth i s 0%R <> 0%R) by (intros Q; apply NZ; rewrite Q; reflexivity).
  destruct (KE (nth i s 0%R) (nth_In s 0%R H)) as [Q|Q]; [contradiction|]. destruct (Rlt_dec _ _); [lra|]. rewrite <- RtoC_mul. f_equal. field. exact NZ'.
Qed.
Lemma kept_inv tol s i : (0 < tol)%R -> kept tol s -> i < length s -> (el s i * el (inv_elements tol s) i * el s i)%C = el s i.
Proof.
  intros T KE H. destruct (Req_EM_T (nth i s 0%R) 0) as [Z|NZ]; [unfold el at 1 3 4; rewrite Z; ring|].
  assert (G : good tol s i) by (apply kept_good; [exact KE|exact H|unfold el; intros Q; apply NZ; exact (f_equal fst Q)]).
  unfold good in G. transitivity (el s i * (el (inv_elements tol s) i * el s i))%C; [ring|]. rewrite G. ring.
Qed.
Lemma leg_good tol P a r c l : fitted tol P -> r < p_rows P -> c < p_cols P -> l < 4 ->
  (forall b, lb P r c l = Some b -> a b < length (lam_of P b) /\ el (lam_of P b) (a b) <> RtoC 0) ->
  lv P a r c l < length (wt P r c l) /\ good tol (wt P r c l) (lv P a r c l).
Proof.
  intros (T & A & KE & O) Hr Hc Hl H. unfold leg_value. destruct (lb P r c l) as [b|] eqn:E.
  - rewrite (wt_bond P r c l b) by assumption. destruct (H b eq_refl) as [H1 H2]. split; [exact H1|]. apply kept_good; [apply KE; apply (leg_in _ _ _ r c l); assumption|exact H1|exact H2].
  - rewrite O by assumption. split; [cbn; lia|]. apply kept_good; [intros x [<-|[]]; right; rewrite Rabs_R1; apply T|cbn; lia|]. unfold el. cbn. intros Q. apply (f_equal fst) in Q. cbn in Q. lra.
Qed.
