(** The tensor-renormalisation-group contractor of periodic networks (C72). Every statement holds for all tensors
    and tensor operations, whether they truncate or not. *)
From Coq Require Import List Arith Lia.
From Verif Require Import Base TrgModel TrgSpec TrgMain.
Import ListNotations.

(** Init accepts exactly the periodic square networks of side 2^k or 3*2^k and throws on all others. *)
Theorem c72_init : forall o (t : trg o) (tn : network o),
  (n_periodic tn = true /\ n_rows tn = n_cols tn /\ trg_size (n_rows tn) -> exists t', init o t tn = Ok t') /\
  (~ (n_periodic tn = true /\ n_rows tn = n_cols tn /\ trg_size (n_rows tn)) -> init o t tn = Fail Throw).
Proof. exact init_accepts. Qed.
Print Assumptions c72_init.
Example c72_init_case : trg_size 12 /\ ~ trg_size 20.
Proof.
  split; [exists 2; right; reflexivity|]. intros (k & H). destruct k as [|[|[|[|[|k]]]]]; [simpl in H; lia..|].
  assert (32 <= 2 ^ S (S (S (S (S k))))) by (change 32 with (2 ^ 5); apply Nat.pow_le_mono_r; lia). lia.
Qed.

(** Any sequence of accepted moves, each changing any number of tensors: afterwards the contractor is, in every
    vector it keeps, the one a new contractor would be after its first trace of the current network; its amplitude
    and all its holes are the same, and a trial or an evaluation of any replacement returns the amplitude that a
    new contractor finds for the replaced network. *)
Theorem c72_trials : forall o (p : Prm o) n, trg_size n -> forall X moves, Forall (on_lattice o n) moves ->
  exists t0 z0 t, fresh o p (torus o n X) = Ok (t0, z0) /\ accept_all o t0 moves = Ok t /\
    (let Y := fold_left (with_replacements o) moves X in
     exists t1 z1, fresh o p (torus o n Y) = Ok (t1, z1) /\ same_contractor o t t1 /\
       (forall tn, n_periodic tn = true -> trace o t tn = Ok (t, z1)) /\
       (forall tn, punch_all_holes o t tn = punch_all_holes o t1 tn) /\
       forall reps, on_lattice o n reps -> exists t2 z2 tr, fresh o p (torus o n (with_replacements o Y reps)) = Ok (t2, z2) /\
         evaluate_replacement o t reps = Ok z2 /\ begin_trial o t reps = Ok tr /\ tr_amp tr = z2).
Proof. exact trials_fresh. Qed.
Print Assumptions c72_trials.
(** numbers for tensors on the 4x4 torus: an accepted move, then a trial *)
Example c72_case : exists t z t', fresh number_ops 1 (torus number_ops 4 ones) = Ok (t, z) /\ z = 64 /\
  accept_all number_ops t [[(0, 0, 5); (2, 3, 2)]] = Ok t' /\ evaluate_replacement number_ops t' [(1, 1, 9)] = Ok 116.
Proof.
  assert (H : (x <- fresh number_ops 1 (torus number_ops 4 ones);; t <- accept_all number_ops (fst x) [[(0, 0, 5); (2, 3, 2)]];; z <- evaluate_replacement number_ops t [(1, 1, 9)];; Ok (snd x, z)) = Ok (64, 116)) by (vm_compute; reflexivity).
  unbind H. injection H as H1 H2. destruct x as [t z]. cbn [fst snd] in *. subst. exists t, 64, x0. repeat split; assumption.
Qed.

(** The documentation recommends ClearCache to make Trace load new tensors; it also drops the layers, and the next
    Trace writes into a vector that is empty. *)
Theorem c72_clear_cache_refuted : exists (o : trg_ops) (p : Prm o) n X t z, trg_size n /\ fresh o p (torus o n X) = Ok (t, z) /\
  trace o (clear_cache o t) (torus o n X) = Fail UB.
Proof. exact clear_cache_refuted. Qed.
Print Assumptions c72_clear_cache_refuted.
(** A trial prepared before another move was accepted can still be committed: nothing notices, and the amplitude
    is then not that of the network with both moves. *)
Theorem c72_stale_trial_refuted : exists (o : trg_ops) (p : Prm o) n X m1 m2 t z tr1 tr2 t1 t2 t3 z2 zf tf,
  trg_size n /\ on_lattice o n m1 /\ on_lattice o n m2 /\ fresh o p (torus o n X) = Ok (t, z) /\ begin_trial o t m1 = Ok tr1 /\ begin_trial o t m2 = Ok tr2 /\
  commit_trial o t tr1 = Ok t1 /\ commit_trial o t1 tr2 = Ok t2 /\ trace o t2 (torus o n X) = Ok (t3, z2) /\
  fresh o p (torus o n (with_replacements o (with_replacements o X m1) m2)) = Ok (tf, zf) /\ z2 <> zf.
Proof. exact stale_trial_refuted. Qed.
Print Assumptions c72_stale_trial_refuted.
(** New truncation parameters after a trace: the next amplitude belongs to neither set of parameters. *)
Theorem c72_new_parameters_refuted : exists (o : trg_ops) (p p' : Prm o) n X m t z z1 zf tf zg tg,
  trg_size n /\ on_lattice o n m /\ fresh o p (torus o n X) = Ok (t, z) /\ evaluate_replacement o (set_params o t p') m = Ok z1 /\
  fresh o p (torus o n (with_replacements o X m)) = Ok (tf, zf) /\ fresh o p' (torus o n (with_replacements o X m)) = Ok (tg, zg) /\ z1 <> zf /\ z1 <> zg.
Proof. exact params_refuted. Qed.
Print Assumptions c72_new_parameters_refuted.
(** A network of one site is accepted and traced, but has no holes. *)
Theorem c72_one_site_holes_refuted : exists (o : trg_ops) (p : Prm o) X t z, fresh o p (torus o 1 X) = Ok (t, z) /\ punch_all_holes o t (torus o 1 X) = Fail Throw.
Proof. exact one_site_holes. Qed.
Print Assumptions c72_one_site_holes_refuted.
