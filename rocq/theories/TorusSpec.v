(** What a periodic wave function component is at any time: the component a new start would give for its configuration. *)
From Coq Require Import List Arith Bool Reals.
From Verif Require Import Base Cplx ContractorModel SweepModel UpdaterModel UpdaterSpec TrgModel TrgSpec TrgTensor ProjModel ProjSpec ProjNullSpec PipeSpec TorusModel.
Import ListNotations.
Local Open Scope nat_scope.

Section Spec.
Context (o : trg_ops) (Rng : Type) (n : nat) (p : Prm o) (tps : nat -> nat -> nat -> TrgModel.Ten o).
(** the network of a configuration *)
Definition net_of (c : nat -> nat -> nat) : network o := torus o n (fun r k => tps r k (c r k)).
(** tensors of the configuration, contractor and amplitude of a new contractor; also for whatever is tried next *)
Definition in_step (w : comp o) : Prop :=
  (forall r k, k_tn w r k = tps r k (k_cfg w r k)) /\
  exists t z, fresh o p (net_of (k_cfg w)) = Ok (t, z) /\ same_contractor o (k_trg w) t /\ k_amp w = z /\
    trace o (k_trg w) (net_of (k_cfg w)) = Ok (k_trg w, z) /\
    punch_all_holes o (k_trg w) (net_of (k_cfg w)) = punch_all_holes o t (net_of (k_cfg w)) /\
    forall l, Forall (fun e => fst (fst e) < n /\ snd (fst e) < n) l ->
      exists t2 z2, fresh o p (net_of (set_sites (k_cfg w) l)) = Ok (t2, z2) /\
        TrgModel.evaluate_replacement o (k_trg w) (map (fun e => (fst e, tps (fst (fst e)) (snd (fst e)) (snd e))) l) = Ok z2.
(** a draw of a bond of the lattice *)
Definition draws_inside (draw : Rng -> (site * orient) * Rng) : Prop := forall g, fst (fst (fst (draw g))) < n /\ snd (fst (fst (draw g))) < n.
(** every history of a component: built, put on another configuration, swept *)
Inductive reachable (dim : nat) : comp o -> Prop :=
| reach_build c w : all_states n n (fun x => x < dim) c -> build o n p tps c = Ok w -> reachable dim w
| reach_replace w c w' : reachable dim w -> all_states n n (fun x => x < dim) c -> replace_global o n p tps w c = Ok w' -> reachable dim w'
| reach_exchange w accept draw g w' g' k : reachable dim w -> draws_inside draw ->
    sweep_nn_trg o Rng n (exchange_trg o Rng p tps accept) draw w g = Ok (w', g', k) -> reachable dim w'
| reach_full w choose draw g w' g' k : reachable dim w -> draws_inside draw ->
    sweep_nn_trg o Rng n (full_space_trg o Rng p tps dim choose) draw w g = Ok (w', g', k) -> reachable dim w'.
(** the amplitude a new contractor finds *)
Definition new_amplitude (trial : (nat -> nat -> nat) -> Num o) : Prop := forall c, exists t, fresh o p (net_of c) = Ok (t, trial c).
(** only the type of amplitudes matters for the updaters *)
Definition only_amplitudes (z : Num o) : ops := mkOps unit unit unit unit unit (Num o) unit (fun _ => tt) (fun _ _ _ => tt) (fun _ _ => tt) (fun _ _ _ => tt)
  (fun _ _ _ _ _ => tt) (fun _ _ _ => tt) (fun _ _ _ _ _ _ => tt) (fun _ _ _ _ _ => z) (fun _ _ _ _ _ => z) (fun _ _ _ _ _ => tt).
End Spec.
(** the amplitude of a network as a new contractor finds it, and as the sum over the torus *)
Definition trg_contract svd (p : trunc) (n : nat) (X : nat -> nat -> tensor) : C := match fresh (tensor_ops svd) p (torus (tensor_ops svd) n X) with Ok x => snd x | Fail _ => RtoC 0 end.
(** An evolution of a periodic square PEPS in which nothing goes wrong: as [PipeSpec.good_evolution], with periodic instead of open edges. *)
Definition good_torus_evolution (qr : tensor -> tensor * tensor) (svd : nat -> tensor -> tensor * list R * tensor) (tol : R) (calls : list (call * tensor * option tensor)) (P : peps) : Prop :=
  qr_exact qr /\ svd_nonnegative svd /\ sound tol P /\ p_per P = true /\ p_rows P = p_cols P /\ nonnegative P /\ calls_fit P calls /\
  (exists m, svd_up_to m svd /\ uncut qr svd tol m P calls) /\
  exists s, proper P s /\ ProjSpec.acts (p_rows P) (p_cols P) calls (wave P) s <> RtoC 0.
