(** The callbacks of the executor along a run. *)
From Coq Require Import List Arith Bool Reals Lra Lia.
From Verif Require Import Base OptModel OptSpec OptProofs OptMain OptRuns OptTerm ExecModel ExecSpec.
Import ListNotations.
Local Open Scope R_scope.

Section Reacts.
Context {W Sc : Type}.
Variable p : params.
Notation obs := (obs (W:=W)).
Notation exec := (exec (W:=W) (Sc:=Sc)).
Variable eng : list obs -> W.
Notation reacts := (reacts (W:=W) (Sc:=Sc) p).

Lemma reacts_app m l1 l2 : forall seen x, reacts m eng seen (l1 ++ l2) x = reacts m eng (seen ++ l1) l2 (reacts m eng seen l1 x).
Proof. induction l1 as [|o l IH]; intros seen x; cbn [app ExecModel.reacts]; [rewrite app_nil_r; reflexivity|]. rewrite IH, <- app_assoc. reflexivity. Qed.
Lemma reacts_other l : forall seen (x : exec), reacts false eng seen l x = x.
Proof. induction l as [|o l IH]; intros seen x; cbn [ExecModel.reacts]; [reflexivity|]. rewrite IH. reflexivity. Qed.
Definition silent (o : obs) : Prop := match o with Lowest _ _ | Iter _ _ _ _ => False | _ => True end.
Lemma reacts_silent l : Forall silent l -> forall seen (x : exec), reacts true eng seen l x = x.
Proof. induction 1 as [|o l H F IH]; intros seen x; cbn [ExecModel.reacts]; [reflexivity|]. rewrite IH. destruct o; try contradiction; reflexivity. Qed.
Lemma iteration_fields w i e err gn (x : exec) : let y := on_iteration p w i e err gn x in
  x_energies y = x_energies x ++ [e] /\ x_errors y = x_errors x ++ [err] /\ x_gnorms y = x_gnorms x ++ [gn] /\
  x_min y = (if rlt e (x_min x) then e else x_min x) /\ x_low y = (if rlt e (x_min x) then w else x_low x) /\ x_state y = x_state x /\ x_dump y = x_dump x.
Proof. cbv zeta. unfold on_iteration. destruct (_ && _ && _); cbn; repeat split. Qed.
Lemma reacts_lists l : forall seen (x : exec), let y := reacts true eng seen l x in
  x_energies y = x_energies x ++ map (fun c => snd (fst (fst c))) (iter_calls l) /\ x_errors y = x_errors x ++ map (fun c => snd (fst c)) (iter_calls l) /\ x_gnorms y = x_gnorms x ++ map snd (iter_calls l).
Proof.
  induction l as [|o l IH]; intros seen x; cbv zeta; cbn [ExecModel.reacts]; [cbn; rewrite !app_nil_r; auto|].
  destruct (IH (seen ++ [o]) (react p true (eng (seen ++ [o])) o x)) as (H1 & H2 & H3). rewrite H1, H2, H3. destruct o; cbn [react iter_calls flat_map app map]; try (repeat split; reflexivity).
  destruct (iteration_fields (eng (seen ++ [Iter i e err gn])) i e err gn x) as (E1 & E2 & E3 & _). rewrite E1, E2, E3, <- !app_assoc. repeat split; reflexivity.
Qed.
End Reacts.

Section Run.
Context {W G A P Sc : Type}.
Variable p : params.
Variable alg : algorithm (W:=W) (G:=G) (A:=A) (P:=P).
Variable eval : nat -> W -> R * G * R.
Variable trial : nat -> W -> R * R.
Variable gnorm : G -> R.
Variable rate : Sc -> nat -> R -> R * Sc.
Variable user_stop : nat -> R -> R -> bool.
Notation st := (st (W:=W) (A:=A) (Sc:=Sc)).
Notation pass := (pass p alg eval trial gnorm rate user_stop).
Variable eng : list (obs (W:=W)) -> W.
Variable x0 : exec (W:=W) (Sc:=Sc).
Hypothesis Hx : x_min x0 <= dbl_max.
Notation seen s := (reacts p true eng [] (s_obs s) x0).
Definition InvM (s : st) : Prop :=
  (s_lowE s = dbl_max /\ x_min (seen s) = x_min x0 /\ x_low (seen s) = x_low x0) \/
  (s_lowE s < dbl_max /\ x_min (seen s) = s_lowE s /\ x_low (seen s) = s_low s).
Lemma spikes_silent ws : Forall silent (map (Spike (W:=W)) ws).
Proof. apply Forall_forall. intros o H. apply in_map_iff in H. destruct H as (v & <- & _). exact I. Qed.
Lemma InvM_pass s s' : InvM s -> pass s = Ok s' -> InvM s'.
Proof.
  intros I E. destruct (pass_cases _ _ _ _ _ _ _ _ _ E) as (e & g & err & t & ws & Ev & C & O & _ & _ & _ & _ & _ & _ & _ & D). cbv zeta in D.
  pose proof (core_lowE _ _ C) as CE. pose proof (core_low _ _ C) as CL. pose proof (core_cur _ _ C) as CC.
  assert (ST : seen t = seen s). { rewrite O, reacts_app. apply reacts_silent. constructor; [exact Logic.I|apply spikes_silent]. }
  destruct D as [(sig & act & v & th & _ & DA & -> & _)|(next & eff & ng & k & a & d & a' & iters & more & lr & -> & _)].
  - destruct (recover_fields alg act sig v th t DA) as (_ & _ & _ & _ & _ & _ & _ & R1 & R2 & _ & _ & _ & _ & _ & ev & _ & _ & RO & _).
    unfold InvM. rewrite RO, reacts_app, reacts_silent by (constructor; [exact Logic.I|constructor]). rewrite R1, R2, CE, CL, ST. exact I.
  - unfold InvM. rewrite accept_obs, reacts_app, ST. cbn [app]. destruct (accept_fields p alg user_stop e g err (gnorm g) eff ng next t) as (_ & _ & _ & _ & _ & _ & F1 & F2 & _). rewrite F1, F2. clear F1 F2.
    set (y := seen s) in *. assert (K : forall w (z : exec (W:=W) (Sc:=Sc)), let q := reacts p true eng w (tail_obs p user_stop e err (gnorm g) next t) z in
      let z1 := if new_low e t then on_lowest (s_cur t) e z else z in x_min q = x_min z1 /\ x_low q = x_low z1 \/ x_min q = e /\ e < x_min z1).
    { intros w z. cbv zeta. unfold tail_obs, low_obs. destruct (new_low e t); destruct (stops p e (gnorm g) t); cbn [app ExecModel.reacts react]; try (left; split; reflexivity);
        destruct (user_stop (s_iter t) e err); cbn [app ExecModel.reacts react]; unfold ck_obs; try (destruct (_ && _ && _); cbn [app ExecModel.reacts react]);
        match goal with |- context [on_iteration p ?w0 ?i ?a ?b ?c ?z1] => destruct (iteration_fields p w0 i a b c z1) as (_ & _ & _ & M1 & M2 & _); rewrite M1, M2; destruct (rlt_spec a (x_min z1)); [right; split; [reflexivity|assumption]|left; split; reflexivity] end. }
    specialize (K (s_obs t) y). cbv zeta in K. unfold new_low in *. rewrite CE in *. destruct (rlt_spec e (s_lowE s)) as [L|L].
    + right. cbn [on_lowest x_min x_low] in K. assert (s_lowE s <= dbl_max) by (destruct I as [(->&_)|(H&_)]; lra). destruct K as [[K1 K2]|[_ K]]; [|lra]. split; [lra|]. split; [exact K1|]. rewrite K2. reflexivity.
    + assert (N : ~ e < x_min y) by (destruct I as [(H1 & H2 & _)|(H1 & H2 & _)]; unfold y; rewrite H2; lra). destruct K as [[K1 K2]|[_ K]]; [|contradiction]. rewrite K1, K2, CL. exact I.
Qed.
End Run.
