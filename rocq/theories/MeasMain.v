(** Last steps of the measurement theorems. *)
From Coq Require Import List Arith Lia Bool Reals Lra.
From Verif Require Import Base Cplx Rsum StatModel StatSpec MinsrModel MeasModel MeasSpec MeasLoop MeasProofs.
Import ListNotations.
Local Open Scope nat_scope.

Lemma real_case (a b : R) : (reference_tol < Rabs a)%R -> sign_defined [(a, 0%R); (b, 0%R)] /\ flipped [(a, 0%R); (b, 0%R)] [(a, 0%R); (Ropp b, 0%R)].
Proof.
  intros _. split.
  - intros x y Hx Hy E. assert (Zx : snd x = 0%R) by (destruct Hx as [<-|[<-|[]]]; reflexivity). assert (Zy : snd y = 0%R) by (destruct Hy as [<-|[<-|[]]]; reflexivity).
    unfold Cmul, Cconj in E. simpl in E. rewrite Zx, Zy in E. assert (M : (fst x * fst y = 0)%R) by lra. apply Rmult_integral in M. destruct M as [M|M]; [left|right]; apply C_ext; assumption.
  - constructor; [left; reflexivity|constructor; [right|constructor]]. apply C_ext; unfold Copp; simpl; lra.
Qed.
Lemma unknown_state config pps : Exists (fun s => length pps <= s) config -> particle_sample config pps = Fail Throw.
Proof. intros E. unfold particle_sample. destruct pps; [reflexivity|]. now rewrite (count_throws _ _ E). Qed.
Lemma distribution_main configs pps sites samples : pps <> [] -> configs <> [] ->
  Forall (fun c => length c = sites /\ Forall (fun s => s < length pps) c) configs ->
  Forall2 (fun c v => exists n, particle_sample c pps = Ok (n, v)) configs samples ->
  (forall k, k < sites * max_particles pps + 1 ->
    average (fun v => nth k v (RtoC 0)) samples =
    RtoC (INR (length (filter (fun c => total_particles c pps =? k) configs)) / INR (length configs))) /\
  sumC (fun k => average (fun v => nth k v (RtoC 0)) samples) (seq 0 (sites * max_particles pps + 1)) = RtoC 1.
Proof.
  intros Hp Hc F O. assert (O' : one_hots configs pps samples).
  { unfold one_hots. clear Hc. revert F. induction O as [|c v cs vs (n & E) O IH]; intros F; [constructor|]. inversion F as [|c' cs' (L & Fc) F']; subst c' cs'. constructor; [|auto].
    destruct (one_hot c pps Hp Fc) as (v' & E' & _). rewrite E in E'. injection E' as -> ->. exact E. }
  destruct (distribution configs pps sites samples Hp Hc F O') as (_ & A & B). split; [exact A|exact B].
Qed.
Lemma loop_terminates P S flags : Acc (fun b a => mstep P S a b) (measure_start flags).
Proof. apply meas_acc. Qed.
Lemma loop_progress P S flags c : 0 < P -> msteps P S (measure_start flags) c -> (exists r, r < P /\ m_phase (c r) <> PEnd) ->
  exists c', mstep P S c c' /\ forall q, q < P -> m_flag (c' q) = m_flag (c q).
Proof. intros HP St. apply can_step. eapply steps_inv; [exact St|apply start_inv]. Qed.
Lemma loop_agreement P S flags c : 0 < P -> msteps P S (measure_start flags) c ->
  forall r q, r < P -> q < P -> m_phase (c r) = PGather \/ m_phase (c r) = PEnd -> m_phase (c q) = PGather \/ m_phase (c q) = PEnd ->
  length (m_sent (c r)) = length (m_sent (c q)) /\ m_samples (c r) = m_samples (c q) /\ m_samples (c r) <= S /\
  (m_samples (c r) = S \/ exists k, k < P /\ m_flag (c k) = true).
Proof.
  intros HP St r q Hr Hq Er Eq. assert (I : minv P S c) by (eapply steps_inv; [exact St|apply start_inv]).
  pose proof (after_ended P S c r I Hr Er) as Ar. pose proof (after_ended P S c q I Hq Eq) as Aq. destruct (ended_agree P S c r q I Hr Hq Ar Aq) as (A & B).
  split; [exact A|]. split; [exact B|]. assert (L : m_samples (c r) <= S).
  { destruct I as (I1 & _). destruct (I1 r Hr) as (L & _). destruct Ar as [(X & Y & _)|(X & Y & _)]; lia. }
  split; [exact L|]. destruct (Nat.eq_dec (m_samples (c r)) S) as [E|N]; [left; exact E|right]. apply (short_signalled P S c r I Hr Ar). lia.
Qed.
Lemma loop_prompt P S flags c c' r q : msteps P S (measure_start flags) c -> msteps P S c c' -> r < P -> q < P ->
  m_flag (c r) = true -> m_samples (c' q) <= length (m_sent (c r)).
Proof. intros St St' Hr Hq F. apply (prompt P S c c' r q); try assumption. eapply steps_inv; [exact St|apply start_inv]. Qed.
Lemma loop_gathered P S flags c r q : 0 < P -> msteps P S (measure_start flags) c -> r < P -> q < P ->
  m_phase (c r) = PEnd -> m_phase (c q) = PGather \/ m_phase (c q) = PEnd.
Proof. intros HP St Hr Hq E. assert (I : minv P S c) by (eapply steps_inv; [exact St|apply start_inv]). destruct I as (_ & _ & I3). exact (I3 r Hr E q Hq). Qed.
Lemma accept_rate_short : exists S rates, rates <> [] /\ length rates < S /\ (forall x, In x rates -> x = 1%R) /\ accept_rate S rates <> 1%R.
Proof.
  exists 2, [1%R]. split; [discriminate|]. split; [cbn; lia|]. split; [intros x [<-|[]]; reflexivity|]. unfold accept_rate, rsum. simpl. lra.
Qed.
Lemma stop_case : exists c, msteps 2 5 (measure_start (fun _ => false)) c /\ m_phase (c 0) = PGather /\ m_phase (c 1) = PGather /\ m_samples (c 0) = 1 /\ m_samples (c 1) = 1.
Proof.
  set (G := fun a b => exists c, msteps 2 5 (measure_start (fun _ => false)) c /\ c 0 = a /\ c 1 = b).
  assert (Q : forall q : nat, q < 2 -> q = 0 \/ q = 1) by lia.
  assert (A0 : G (mkRank false [] PCheck 0) (mkRank false [] PCheck 0)) by (eexists; split; [constructor|split; reflexivity]).
  assert (A1 : G (mkRank false [false] PWait 0) (mkRank false [] PCheck 0)).
  { destruct A0 as (c & St & E0 & E1). eexists. split; [econstructor; [exact St|apply (ms_enter _ _ _ 0)]; rewrite ?E0; cbn; lia || reflexivity|]. unfold upd. cbn. rewrite E0. cbn. auto. }
  assert (A2 : G (mkRank false [false] PWait 0) (mkRank false [false] PWait 0)).
  { destruct A1 as (c & St & E0 & E1). eexists. split; [econstructor; [exact St|apply (ms_enter _ _ _ 1)]; rewrite ?E1; cbn; lia || reflexivity|]. unfold upd. cbn. rewrite E1. cbn. auto. }
  assert (A3 : G (mkRank false [false] PWork 0) (mkRank false [false] PWait 0)).
  { destruct A2 as (c & St & E0 & E1). eexists. split; [econstructor; [exact St|apply (ms_go _ _ _ 0)]; rewrite ?E0; try (cbn; lia || reflexivity); intros q Hq; destruct (Q q Hq) as [->| ->]; rewrite ?E0, ?E1; cbn; lia || reflexivity|]. unfold upd. cbn. rewrite E0. cbn. auto. }
  assert (A4 : G (mkRank false [false] PWork 0) (mkRank false [false] PWork 0)).
  { destruct A3 as (c & St & E0 & E1). eexists. split; [econstructor; [exact St|apply (ms_go _ _ _ 1)]; rewrite ?E1; try (cbn; lia || reflexivity); intros q Hq; destruct (Q q Hq) as [->| ->]; rewrite ?E0, ?E1; cbn; lia || reflexivity|]. unfold upd. cbn. rewrite E1. cbn. auto. }
  assert (A5 : G (mkRank false [false] PWork 0) (mkRank true [false] PWork 0)).
  { destruct A4 as (c & St & E0 & E1). eexists. split; [econstructor; [exact St|apply (ms_signal _ _ _ 1)]; rewrite ?E1; cbn; lia || reflexivity|]. unfold upd. cbn. rewrite E1. cbn. auto. }
  assert (A6 : G (mkRank false [false] PWork 0) (mkRank true [false] PCheck 1)).
  { destruct A5 as (c & St & E0 & E1). eexists. split; [econstructor; [exact St|apply (ms_sample _ _ _ 1)]; rewrite ?E1; cbn; lia || reflexivity|]. unfold upd. cbn. rewrite E1. cbn. auto. }
  assert (A7 : G (mkRank false [false] PCheck 1) (mkRank true [false] PCheck 1)).
  { destruct A6 as (c & St & E0 & E1). eexists. split; [econstructor; [exact St|apply (ms_sample _ _ _ 0)]; rewrite ?E0; cbn; lia || reflexivity|]. unfold upd. cbn. rewrite E0. cbn. auto. }
  assert (A8 : G (mkRank false [false; false] PWait 1) (mkRank true [false] PCheck 1)).
  { destruct A7 as (c & St & E0 & E1). eexists. split; [econstructor; [exact St|apply (ms_enter _ _ _ 0)]; rewrite ?E0; cbn; lia || reflexivity|]. unfold upd. cbn. rewrite E0. cbn. auto. }
  assert (A9 : G (mkRank false [false; false] PWait 1) (mkRank true [false; true] PWait 1)).
  { destruct A8 as (c & St & E0 & E1). eexists. split; [econstructor; [exact St|apply (ms_enter _ _ _ 1)]; rewrite ?E1; cbn; lia || reflexivity|]. unfold upd. cbn. rewrite E1. cbn. auto. }
  assert (A10 : G (mkRank false [false; false] PGather 1) (mkRank true [false; true] PWait 1)).
  { destruct A9 as (c & St & E0 & E1). eexists. split; [econstructor; [exact St|apply (ms_stop _ _ _ 0 1)]; rewrite ?E0, ?E1; try (cbn; lia || reflexivity); intros q Hq; destruct (Q q Hq) as [->| ->]; rewrite ?E0, ?E1; cbn; lia || reflexivity|]. unfold upd. cbn. rewrite E0. cbn. auto. }
  destruct A10 as (c & St & E0 & E1). eexists. split; [econstructor; [exact St|apply (ms_stop _ _ _ 1 1)]; rewrite ?E0, ?E1; try (cbn; lia || reflexivity); intros q Hq; destruct (Q q Hq) as [->| ->]; rewrite ?E0, ?E1; cbn; lia || reflexivity|]. unfold upd. cbn. rewrite E0, E1. cbn. auto.
Qed.
