(** Cases that meet the hypotheses, and a chain. *)
From Coq Require Import List Arith Bool Reals Lia Lra.
From Verif Require Import Base Cplx Rsum SumModel SumSpec SumProofs TrgTensor ContractorModel BmpsModel BmpsMain ProjModel ProjSpec ProjWave ProjExample ExpModel ExpSpec ExpAlg ExpOp ExpMain.
Import ListNotations.
Local Open Scope nat_scope.

(** gates that keep |00> *)
Definition keeps (g : tensor) : Prop := shape g = [2; 2; 2; 2] /\ entry g [0; 0; 0; 0] = RtoC 1.
Lemma valid22 Q o : p_rows Q = 2 -> p_cols Q = 2 -> p_per Q = false -> In o [Col 0 0; Col 0 1; Row 0 0; Row 1 0] -> valid Q o.
Proof.
  intros E1 E2 E3 Ho. cbn [In] in Ho. unfold valid. rewrite E1, E2, E3.
  repeat destruct Ho as [<-|Ho]; [..|destruct Ho]; cbn [bonds_of sites_of]; (split; [intros b [<-|[]]; apply bonds_in; cbn; lia|]); cbn; repeat constructor; cbn; intuition congruence.
Qed.
Ltac amp F := cbv -[C Cadd Cmul RtoC IZR Rdiv Rinv Rmult Rplus]; rewrite F; ring.
(** with this QR the norm depends on dimensions only *)
Lemma norm_row P g ham r c : dimat (eat3 P r c RIGHT) 3 = 2 -> dimat (eat3 P r c RIGHT) 4 = 1 -> dimat (eat3 P r ((c + 1) mod h_cols P) LEFT) 3 = 2 -> dimat (eat3 P r ((c + 1) mod h_cols P) LEFT) 4 = 1 ->
  lam_h P r ((c + 1) mod h_cols P) = [1%R] -> keeps g -> r_norm (project plain_qr plain_svd (1/2) P (Row r c) g ham) <> 0%R.
Proof.
  intros E1 E2 E3 E4 E5 [S F]. cbn [project]. unfold project_h. set (T0 := eat3 P r c RIGHT) in *. set (T1 := eat3 P r ((c + 1) mod h_cols P) LEFT) in *.
  unfold plain_qr. rewrite E1, E2, E3, E4, E5. cbv zeta beta iota. match goal with |- context [plain_svd 2 ?x] => destruct (plain_svd 2 x) as [[u s] vt] end. cbn [r_norm].
  destruct g as [sh f]. cbn [shape entry] in S, F. subst sh. apply (tnorm_nonzero _ [0; 0; 0; 0]); [vm_compute; repeat constructor|]. apply one_nonzero. clear -F. amp F.
Qed.
Lemma four_lossless g1 g2 g3 g4 h1 h2 h3 h4 : keeps g1 -> keeps g2 -> keeps g3 -> keeps g4 ->
  lossless plain_qr plain_svd (1/2) 8 two [(Col 0 0, g1, h1); (Col 0 1, g2, h2); (Row 0 0, g3, h3); (Row 1 0, g4, h4)].
Proof.
  destruct g1 as [s1 f1], g2 as [s2 f2], g3 as [s3 f3], g4 as [s4 f4]. intros [E1 F1] [E2 F2] [E3 F3] [E4 F4]. cbn [shape entry] in *. subst s1 s2 s3 s4.
  cbn [lossless]. split; [apply valid22; try reflexivity; cbn; auto|]. split; [reflexivity|]. split; [cbn; lia|]. split.
  { cbn beta iota zeta delta [project project_v plain_qr plain_svd r_norm]. apply (tnorm_nonzero _ [0; 0; 0; 0]); [vm_compute; repeat constructor|]. apply one_nonzero. amp F1. }
  split; [intros b [<-|[]]; all_ones|].
  split; [apply valid22; try reflexivity; cbn; auto|]. split; [vm_compute; reflexivity|]. split; [vm_compute; lia|]. split.
  { cbn beta iota zeta delta [project project_v plain_qr plain_svd r_norm]. apply (tnorm_nonzero _ [0; 0; 0; 0]); [vm_compute; repeat constructor|]. apply one_nonzero. amp F2. }
  split; [intros b [<-|[]]; all_ones|].
  split; [apply valid22; try reflexivity; cbn; auto|]. split; [vm_compute; reflexivity|]. split; [vm_compute; lia|]. split.
  { cbn beta iota zeta delta [project project_h plain_qr plain_svd r_norm]. apply (tnorm_nonzero _ [0; 0; 0; 0]); [vm_compute; repeat constructor|]. apply one_nonzero. amp F3. }
  split; [intros b [<-|[]]; all_ones|].
  split; [apply valid22; try reflexivity; cbn; auto|]. split; [vm_compute; reflexivity|]. split; [vm_compute; lia|]. split.
  { apply norm_row; [vm_compute; reflexivity..|split; [reflexivity|exact F4]]. }
  split; [intros b [<-|[]]; all_ones|exact I].
Qed.

(** a term that is 1 if the two sites differ, an on-site term that counts 1s *)
Definition zz : tensor := Tn [2; 2; 2; 2] (fun ix => if (nth 0 ix 0 =? nth 1 ix 0) && (nth 2 ix 0 =? nth 3 ix 0) && negb (nth 0 ix 0 =? nth 2 ix 0) then RtoC 1 else RtoC 0).
Definition ones_at : tensor := Tn [2; 2] (fun ix => if (nth 0 ix 0 =? nth 1 ix 0) && (nth 0 ix 0 =? 1) then RtoC 1 else RtoC 0).
Definition ising : executor := Exec (Uniform zz) (Some (fun _ _ => ones_at)) (1/10).
(** a term that gives 0 on |00> makes a gate that keeps it *)
Lemma zero_column d tau A z K i : In z (choices d) -> (forall l, In l (choices d) -> A l z = RtoC 0) -> In i (choices d) -> partial_exp d tau A K i z = if list_eq_dec Nat.eq_dec i z then RtoC 1 else RtoC 0.
Proof.
  intros Hz H Hi. unfold partial_exp. change (seq 0 (S K)) with (0 :: seq 1 K). rewrite sumC_cons. rewrite (sumC_zero _ (seq 1 K)).
  - cbn [pow fact INR power]. replace (1 / 1)%R with 1%R by field. ring.
  - intros [|k] Hk; [apply in_seq in Hk; lia|]. cbn [power]. unfold product. rewrite (sumC_zero _ (choices d)); [ring|]. intros l Hl. rewrite H by exact Hl. ring.
Qed.
Lemma gate_keeps eps tau h : shape h = [2; 2; 2; 2] -> (forall i j, i < 2 -> j < 2 -> entry h [i; 0; j; 0] = RtoC 0) -> keeps (taylor_exp eps tau h).
Proof.
  intros S Z. destruct (taylor_ok eps tau [2; 2] h S) as (K & _ & SG & E & _). split; [exact SG|]. specialize (E [0; 0] [0; 0] ltac:(cbn; auto) ltac:(cbn; auto)). cbn [app] in E. rewrite E.
  rewrite zero_column; [reflexivity|cbn; auto| |cbn; auto]. intros l Hl. cbn in Hl. unfold matrix_of. repeat destruct Hl as [<-|Hl]; [..|destruct Hl]; apply Z; lia.
Qed.
Lemma ising_ham R K per b : let h := ham_of ising R K per b in shape h = [2; 2; 2; 2] /\ forall i j, i < 2 -> j < 2 -> entry h [i; 0; j; 0] = RtoC 0.
Proof.
  assert (G : forall x y, let h := bond_hamiltonian zz x ones_at y ones_at (eye 2) in shape h = [2; 2; 2; 2] /\ forall i j, i < 2 -> j < 2 -> entry h [i; 0; j; 0] = RtoC 0).
  { intros x y. cbv zeta. split; [reflexivity|]. intros i j Hi Hj. unfold bond_hamiltonian. cbn [tadd times entry]. destruct (outer ones_at (eye 2) 2 2 2 2 eq_refl eq_refl) as [_ E1]. destruct (outer (eye 2) ones_at 2 2 2 2 eq_refl eq_refl) as [_ E2]. rewrite E1, E2.
    destruct i as [|[|i]]; [| |lia]; (destruct j as [|[|j]]; [| |lia]); cbn [zz ones_at eye entry nth Nat.eqb andb negb]; ring. }
  destruct b; apply G.
Qed.
Lemma ising_fits : terms_fit ising two.
Proof.
  split.
  - intros b Hb. cbn in Hb. repeat destruct Hb as [<-|Hb]; [..|destruct Hb]; reflexivity.
  - exists 2. intros r c Hr Hc. cbn in Hr, Hc. split; [|reflexivity]. destruct r as [|[|r]]; [| |lia]; (destruct c as [|[|c]]; [| |lia]); reflexivity.
Qed.
Lemma ising_lossless eps : lossless_sweeps eps plain_qr plain_svd (1/2) 8 ising 1 two.
Proof.
  cbn [lossless_sweeps]. split; [|exact I]. rewrite calls_are. cbn [p_rows p_cols p_per two]. unfold sweep_order. cbn [Nat.sub seq flat_map map app call_of].
  apply four_lossless; apply gate_keeps; apply ising_ham.
Qed.
(** the operators change the state *)
Lemma ising_acts : let s := fun r c => if r =? 0 then 1 else 0 in proper two s /\ hamiltonian ising two (wave two) s = RtoC (3/4 * 4).
Proof.
  cbv zeta. split.
  - intros r c Hr Hc. cbn in Hr, Hc. destruct r as [|[|r]]; [| |lia]; (destruct c as [|[|c]]; [| |lia]); cbn; lia.
  - vm_compute. apply injective_projections; cbn [fst snd]; field.
Qed.

(** *** A chain of three sites *)
Definition chain : peps := Peps 1 3 false (fun _ _ => Tn [1; 1; 1; 1; 2] (fun _ => RtoC 1)) (fun _ _ => [1%R]) (fun _ _ => [1%R]).
Lemma chain_sound : sound (1/2) chain.
Proof.
  split; [lra|]. split.
  - intros r c _ _. assert (K1 : kept (1/2) [1%R]) by (intros x [<-|[]]; right; rewrite Rabs_pos_eq; lra). split; [reflexivity|]. repeat split; assumption.
  - intros _ r c _ _. repeat split; reflexivity.
Qed.
Lemma chain_fits : terms_fit ising chain.
Proof.
  split.
  - intros b Hb. cbn in Hb. repeat destruct Hb as [<-|Hb]; [..|destruct Hb]; reflexivity.
  - exists 2. intros r c _ _. split; reflexivity.
Qed.
Lemma chain_short eps : let s := fun _ _ => 1 in proper chain s /\ evolved chain (nn_calls eps ising 1 3 false) (wave chain) s = RtoC (5/3) /\ hamiltonian ising chain (wave chain) s = RtoC 3.
Proof.
  cbv zeta. split; [intros r c _ _; cbn; lia|]. split.
  - unfold evolved. rewrite calls_are, sumC_map. cbn [fst snd]. unfold sweep_order. cbn [Nat.sub seq flat_map map app call_of ham_of]. vm_compute. apply injective_projections; cbn [fst snd]; field.
  - vm_compute. apply injective_projections; cbn [fst snd]; field.
Qed.
