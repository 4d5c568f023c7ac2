(** The ring of four tensors through gauge fixing and truncation. *)
From Coq Require Import List Arith Lia Bool Reals Lra.
From Verif Require Import Base Cplx SumModel SumSpec SumProofs NetSum NetEx ContractorModel TrgTensor TrgHoleAlg BmpsModel BmpsAlg OptModel CgModel ProjModel ProjSpec ProjAlg ProjCore ProjTwo ProjPatch ProjGrid LoopModel LoopSpec LoopAlg LoopGauge.
Import NetEx ListNotations.
Local Open Scope nat_scope.

Notation before i := ((i + 3) mod 4).
Lemma four_cases i : i < 4 -> i = 0 \/ i = 1 \/ i = 2 \/ i = 3.
Proof. lia. Qed.
Lemma set_same {X} (g : nat -> X) i x : set_nth g i x i = x.
Proof. unfold set_nth. rewrite Nat.eqb_refl. reflexivity. Qed.
Lemma set_other {X} (g : nat -> X) i x q : q <> i -> set_nth g i x q = g q.
Proof. intros N. unfold set_nth. destruct (Nat.eqb_spec q i); [contradiction|reflexivity]. Qed.
Lemma before_lt i : before i < 4.
Proof. apply Nat.mod_upper_bound. lia. Qed.
Lemma before_ne i : i < 4 -> i <> before i.
Proof. intros H. destruct (four_cases i H) as [E|[E|[E|E]]]; subst i; cbn; lia. Qed.

(** the trace of the ring at given values of the other legs *)
Definition around (gs : nat -> tensor) (ls : nat -> list R) (p e f : nat -> nat) : C :=
  let M i : mat := fun l r => entry (gs i) [l; p i; e i; f i; r] in
  ring4 (length (ls 0)) (length (ls 1)) (length (ls 2)) (length (ls 3)) (el (ls 0)) (el (ls 1)) (el (ls 2)) (el (ls 3)) (M 0) (M 1) (M 2) (M 3).
Section Ring.
Context (d e f : nat -> nat).
Definition shaped (gs : nat -> tensor) (ls : nat -> list R) : Prop := forall i, i < 4 -> shape (gs i) = [length (ls (before i)); d i; e i; f i; length (ls i)].
Lemma around_ext gs ls gs' ls' p u v : (forall i, i < 4 -> ls' i = ls i) -> (forall i l r, i < 4 -> l < length (ls (before i)) -> r < length (ls i) -> entry (gs' i) [l; p i; u i; v i; r] = entry (gs i) [l; p i; u i; v i; r]) ->
  around gs' ls' p u v = around gs ls p u v.
Proof.
  intros A B. unfold around. rewrite (A 0), (A 1), (A 2), (A 3) by lia. apply ring4_ext; try reflexivity; intros l r Hl Hr; [apply (B 0)|apply (B 1)|apply (B 2)|apply (B 3)]; try assumption; lia.
Qed.
Lemma bond_update gs ls gs' ls' i X Y : i < 4 -> let j := before i in let n := length (ls j) in let n' := length (ls' j) in
  shaped gs ls -> (forall q, q < 4 -> q <> j -> ls' q = ls q) -> (forall q, q < 4 -> q <> i -> q <> j -> gs' q = gs q) ->
  shape (gs' i) = [n'; d i; e i; f i; length (ls i)] -> shape (gs' j) = [length (ls (before j)); d j; e j; f j; n'] ->
  rebond n n' (el (ls j)) (el (ls' j)) X Y ->
  (forall z a b c r, entry (gs' i) [z; a; b; c; r] = sm n (fun y => (Y z y * entry (gs i) [y; a; b; c; r])%C)) ->
  (forall z l a b c, entry (gs' j) [l; a; b; c; z] = sm n (fun x => (entry (gs j) [l; a; b; c; x] * X x z)%C)) ->
  shaped gs' ls' /\ forall p u v, around gs' ls' p u v = around gs ls p u v.
Proof.
  intros Hi. destruct (four_cases i Hi) as [E|[E|[E|E]]]; subst i; cbn [Nat.add Nat.modulo Nat.divmod fst snd Nat.sub];
  intros Sh LO GO S1 S2 B EH ET; split.
  all: try (intros q Hq; destruct (four_cases q Hq) as [E|[E|[E|E]]]; subst q; cbn [Nat.add Nat.modulo Nat.divmod fst snd Nat.sub];
    try rewrite S1; try rewrite S2; try (rewrite GO by (clear; lia); rewrite Sh by (clear; lia)); cbn [Nat.add Nat.modulo Nat.divmod fst snd Nat.sub];
    try rewrite (LO 0) by (clear; lia); try rewrite (LO 1) by (clear; lia); try rewrite (LO 2) by (clear; lia); try rewrite (LO 3) by (clear; lia); reflexivity).
  - intros p u v. unfold around. rewrite (LO 0), (LO 1), (LO 2) by (clear; lia). rewrite (GO 1), (GO 2) by (clear; lia).
    rewrite <- (ring4_rebond _ _ _ _ (length (ls' 3)) _ _ _ (el (ls 3)) (el (ls' 3)) _ _ _ _ X Y B). apply ring4_ext; intros; try reflexivity; [apply EH|apply ET].
  - intros p u v. unfold around. rewrite (LO 1), (LO 2), (LO 3) by (clear; lia). rewrite (GO 2), (GO 3) by (clear; lia).
    rewrite ring4_rot. symmetry. rewrite ring4_rot. symmetry.
    rewrite <- (ring4_rebond _ _ _ _ (length (ls' 0)) _ _ _ (el (ls 0)) (el (ls' 0)) _ _ _ _ X Y B). apply ring4_ext; intros; try reflexivity; [apply EH|apply ET].
  - intros p u v. unfold around. rewrite (LO 0), (LO 2), (LO 3) by (clear; lia). rewrite (GO 0), (GO 3) by (clear; lia).
    rewrite ring4_rot. rewrite ring4_rot. symmetry. rewrite ring4_rot, ring4_rot. symmetry.
    rewrite <- (ring4_rebond _ _ _ _ (length (ls' 1)) _ _ _ (el (ls 1)) (el (ls' 1)) _ _ _ _ X Y B). apply ring4_ext; intros; try reflexivity; [apply EH|apply ET].
  - intros p u v. unfold around. rewrite (LO 0), (LO 1), (LO 3) by (clear; lia). rewrite (GO 0), (GO 1) by (clear; lia).
    rewrite ring4_rot, ring4_rot, ring4_rot. symmetry. rewrite ring4_rot, ring4_rot, ring4_rot. symmetry.
    rewrite <- (ring4_rebond _ _ _ _ (length (ls' 2)) _ _ _ (el (ls 2)) (el (ls' 2)) _ _ _ _ X Y B). apply ring4_ext; intros; try reflexivity; [apply EH|apply ET].
Qed.
(** with the Upsilons, and a bound on the bonds *)
Definition ringed (m : nat) (k : ring) : Prop :=
  shaped (k_gs k) (k_ls k) /\ (forall i, i < 4 -> let n := length (k_ls k (before i)) in shape (k_us k i) = [n; n; n; n]) /\ forall i, i < 4 -> length (k_ls k i) <= m.
Section Steps.
Context (svd svdt : nat -> tensor -> tensor * list R * tensor) (evd : tensor -> tensor * list R) (eigvec : bool -> tensor -> list R -> tensor) (pr : loop_params) (m : nat).
Context (SV : svd_any svd) (SVT : svd_up_to m svdt) (EV : evd_unitary evd) (EG : eig_shape eigvec) (T0 : (0 < l_inv_tol pr)%R).
Definition same_ring (k k' : ring) : Prop := forall p u v, around (k_gs k') (k_ls k') p u v = around (k_gs k) (k_ls k) p u v.
Definition inverted (l : list R) : Prop := Forall (fun x => (l_inv_tol pr <= x)%R) l.
Lemma gauge_step_ok k i k' : i < 4 -> ringed m k -> gauge_step svd evd eigvec pr (Ok k) i = Ok k' -> inverted (k_roots k') -> ringed m k' /\ same_ring k k' /\ inverted (k_roots k).
Proof.
  intros Hi (Sh & SU & Bo) E. unfold gauge_step in E. cbn [bind] in E. destruct (gauge svd evd eigvec pr (k_us k i) (k_ls k (before i)) (k_gs k i) (k_gs k (before i))) as [h|] eqn:G; [|discriminate].
  cbn [bind] in E. apply Ok_same in E. subst k'. cbn [k_roots]. intros I. apply Forall_app in I. destruct I as [I1 I2].
  pose proof (before_lt i) as Hj. pose proof (before_ne i Hi) as Nij. set (j := before i) in *.
  destruct (gauge_ok svd evd eigvec pr SV EV EG T0 _ _ _ _ h _ _ _ _ _ _ _ _ _ eq_refl (Sh i Hi) (Sh j Hj) G I2) as (X & Y & Len & S1 & S2 & S3 & B & E1 & E2).
  destruct (bond_update (k_gs k) (k_ls k) (set_nth (set_nth (k_gs k) i (h_head h)) j (h_tail h)) (set_nth (k_ls k) j (h_sigma h)) i X Y Hi) as [Sh' V]; try assumption.
  - intros q _ N. apply set_other. exact N.
  - intros q _ N N'. rewrite set_other, set_other by assumption. reflexivity.
  - fold j. rewrite set_other, !set_same by exact Nij. exact S1.
  - fold j. rewrite !set_same. exact S2.
  - fold j. rewrite set_same. exact B.
  - fold j. intros. rewrite set_other, set_same by exact Nij. apply E1.
  - fold j. intros. rewrite set_same. apply E2.
  - split; [|split; [exact V|exact I1]]. split; [exact Sh'|]. cbn [k_us k_ls]. split.
    + intros q Hq. destruct (Nat.eq_dec q i) as [->|N].
      * fold j. rewrite !set_same. apply S3. exact (SU i Hi).
      * rewrite set_other by exact N. rewrite set_other; [apply SU; exact Hq|]. intros Q. apply N. clear - Q Hq Hi. unfold j in Q. destruct (four_cases i Hi) as [E|[E|[E|E]]], (four_cases q Hq) as [F|[F|[F|F]]]; subst i q; cbn in Q; lia.
    + intros q Hq. destruct (Nat.eq_dec q j) as [->|N]; [rewrite set_same; exact (Nat.le_trans _ _ _ Len (Bo j Hj))|]. rewrite set_other by exact N. apply Bo. exact Hq.
Qed.
Lemma fet_step_ok k i : i < 4 -> shaped (k_gs k) (k_ls k) -> (let n := length (k_ls k (before i)) in shape (k_us k i) = [n; n; n; n] /\ n <= m) -> exists k', fet_step svdt pr (Ok k) i = Ok k' /\
  shaped (k_gs k') (k_ls k') /\ (forall q, q <> before i -> k_ls k' q = k_ls k q) /\ k_us k' = k_us k /\ same_ring k k' /\ k_roots k' = k_roots k.
Proof.
  intros Hi Sh (SU & Bo).
  pose proof (before_lt i) as Hj. pose proof (before_ne i Hi) as Nij. set (j := before i) in *.
  destruct (fet_ok svdt pr m SVT (k_us k i) (k_ls k j) (length (k_ls k j)) eq_refl Bo SU) as (u & s & vd & G & Svd & Su & B).
  unfold fet_step. cbn [bind]. fold j. rewrite G. cbn [bind]. eexists. split; [reflexivity|]. cbn [k_roots k_us k_gs k_ls].
  assert (H1 : shape (contract u [1] (k_gs k i) [0]) = [length s; d i; e i; f i; length (k_ls k i)] /\ forall z a b c r, entry (contract u [1] (k_gs k i) [0]) [z; a; b; c; r] = sm (length (k_ls k j)) (fun y' => (entry u [z; y'] * entry (k_gs k i) [y'; a; b; c; r])%C)).
  { pose proof (Sh i Hi) as Q. fold j in Q. revert Su Q. clear. generalize (length s) (length (k_ls k j)) (length (k_ls k i)) (d i) (e i) (f i). intros n' n l1 l2 l3 l4. destruct u as [sh0 f0], (k_gs k i) as [sh1 f1]. cbn [shape]. intros -> ->. split; reflexivity. }
  assert (H2 : shape (contract (k_gs k j) [4] vd [0]) = [length (k_ls k (before j)); d j; e j; f j; length s] /\ forall z l a b c, entry (contract (k_gs k j) [4] vd [0]) [l; a; b; c; z] = sm (length (k_ls k j)) (fun x' => (entry (k_gs k j) [l; a; b; c; x'] * entry vd [x'; z])%C)).
  { pose proof (Sh j Hj) as Q. revert Svd Q. clearbody j. clear. generalize (length s) (length (k_ls k j)) (length (k_ls k (before j))) (d j) (e j) (f j). intros n' n l1 l2 l3 l4. destruct vd as [sh0 f0], (k_gs k j) as [sh1 f1]. cbn [shape]. intros -> ->. split; reflexivity. }
  destruct H1 as [S1 E1], H2 as [S2 E2].
  destruct (bond_update (k_gs k) (k_ls k) (set_nth (set_nth (k_gs k) j (contract (k_gs k j) [4] vd [0])) i (contract u [1] (k_gs k i) [0])) (set_nth (k_ls k) j s) i (fun x z => entry vd [x; z]) (fun z y => entry u [z; y]) Hi) as [Sh' V]; try assumption.
  - intros q _ N. apply set_other. exact N.
  - intros q _ N N'. rewrite set_other, set_other by assumption. reflexivity.
  - fold j. rewrite !set_same. exact S1.
  - fold j. rewrite set_other, !set_same by (apply not_eq_sym; exact Nij). exact S2.
  - fold j. rewrite set_same. exact B.
  - fold j. intros. rewrite set_same. apply E1.
  - fold j. intros. rewrite set_other, set_same by (apply not_eq_sym; exact Nij). apply E2.
  - split; [exact Sh'|]. split; [|split; [reflexivity|split; [exact V|reflexivity]]]. intros q N. apply set_other. exact N.
Qed.
Lemma gauge_fold l : forall k k', (forall i, In i l -> i < 4) -> ringed m k -> fold_left (gauge_step svd evd eigvec pr) l (Ok k) = Ok k' -> inverted (k_roots k') -> ringed m k' /\ same_ring k k' /\ inverted (k_roots k).
Proof.
  induction l as [|i l IH]; intros k k' Hl Rk E I; [apply Ok_same in E; subst k'; split; [exact Rk|split; [intros p u v; reflexivity|exact I]]|].
  cbn [fold_left] in E. destruct (gauge_step svd evd eigvec pr (Ok k) i) as [k1|x] eqn:G.
  - assert (Hi : i < 4) by (apply Hl; left; reflexivity).
    destruct (gauge_step svd evd eigvec pr (Ok k) i) as [k1'|] eqn:G' in G; [|discriminate]. injection G as ->.
    assert (Rest : forall q, In q l -> q < 4) by (intros q Hq; apply Hl; right; exact Hq).
    assert (I1 : inverted (k_roots k1) -> ringed m k1 /\ same_ring k k1 /\ inverted (k_roots k)) by (intros I1; exact (gauge_step_ok k i k1 Hi Rk G' I1)).
    assert (Back : inverted (k_roots k1)).
    { clear - E I. revert k1 E. induction l as [|q l IH]; intros k1 E; [apply Ok_same in E; subst k'; exact I|]. cbn [fold_left] in E. destruct (gauge_step svd evd eigvec pr (Ok k1) q) as [k2|x] eqn:G.
      - specialize (IH k2 E). unfold gauge_step in G. cbn [bind] in G. destruct (gauge svd evd eigvec pr (k_us k1 q) (k_ls k1 (before q)) (k_gs k1 q) (k_gs k1 (before q))) as [h|]; [|discriminate]. cbn [bind] in G. apply Ok_same in G. subst k2. cbn [k_roots] in IH. apply Forall_app in IH. apply IH.
      - clear - E. exfalso. induction l as [|q' l IH]; [discriminate|]. apply IH. exact E. }
    destruct (I1 Back) as (R1 & V1 & I0). destruct (IH k1 k' Rest R1 E I) as (R2 & V2 & _). split; [exact R2|]. split; [intros p u v; rewrite V2; apply V1|exact I0].
  - exfalso. clear - E. induction l as [|q' l IH]; [discriminate|]. apply IH. exact E.
Qed.
Lemma gauge_all_ok gs ls k : ringed m (Ring gs ls (upsilon gs ls) []) -> gauge_all svd evd eigvec pr gs ls = Ok k -> inverted (k_roots k) -> ringed m k /\ forall p u v, around (k_gs k) (k_ls k) p u v = around gs ls p u v.
Proof. intros Rk E I. destruct (gauge_fold [0; 1; 2; 3] _ k ltac:(intros i [<-|[<-|[<-|[<-|[]]]]]; lia) Rk E I) as (A & B & _). split; [exact A|exact B]. Qed.
Lemma fet_all_ok k : ringed m k -> exists k', fet_all svdt pr k = Ok k' /\ shaped (k_gs k') (k_ls k') /\ same_ring k k' /\ k_roots k' = k_roots k.
Proof.
  intros (Sh & SU & Bo). unfold fet_all. cbn [fold_left].
  destruct (fet_step_ok k 0 ltac:(lia) Sh ltac:(split; [exact (SU 0 ltac:(lia))|apply Bo; cbn; lia])) as (k0 & -> & Sh0 & L0 & U0 & V0 & R0).
  destruct (fet_step_ok k0 1 ltac:(lia) Sh0) as (k1 & -> & Sh1 & L1 & U1 & V1 & R1).
  { cbv zeta. rewrite U0, L0 by (cbn; lia). split; [exact (SU 1 ltac:(lia))|apply Bo; cbn; lia]. }
  destruct (fet_step_ok k1 2 ltac:(lia) Sh1) as (k2 & -> & Sh2 & L2 & U2 & V2 & R2).
  { cbv zeta. rewrite U1, L1, U0, L0 by (cbn; lia). split; [exact (SU 2 ltac:(lia))|apply Bo; cbn; lia]. }
  destruct (fet_step_ok k2 3 ltac:(lia) Sh2) as (k3 & -> & Sh3 & L3 & U3 & V3 & R3).
  { cbv zeta. rewrite U2, L2, U1, L1, U0, L0 by (cbn; lia). split; [exact (SU 3 ltac:(lia))|apply Bo; cbn; lia]. }
  exists k3. split; [reflexivity|]. split; [exact Sh3|]. split; [|congruence]. intros p u v. rewrite V3, V2, V1. apply V0.
Qed.
End Steps.
End Ring.
