(** A sweep of the loop update: algorithm/loop_update/loop_update_impl.h (LoopUpdateSweep_ and the sweeps of Execute). The loop
    projection is that of LoopModel, the passes are those of SuModel. Printing and timing are left out. *)
From Coq Require Import List Arith Bool Reals.
From Verif Require Import Base Cplx TrgTensor OptModel CgModel ProjModel LoopModel SuModel.
Import ListNotations.
Local Open Scope nat_scope.

(** LoopGateType (loop_update.h:35-38) *)
Inductive gate_kind := FirstOrder | Exponential.
(** the variables of the sweep (340-341) and peps_; a sum with the logarithm of a number that is not positive is no number. [v_seen] is
    not in the code: the plaquettes so far, each with the PEPS before it and the result. *)
Record sweeping := Sweeping { v_peps : peps; v_norm : R; v_e0 : option R; v_seen : list (site * peps * loop_result) }.
(** what LoopUpdateSweep_ returns and leaves (373, 385) *)
Record swept := Swept { w_peps : peps; w_e0 : option R; w_en : R; w_seen : list (site * peps * loop_result) }.

Section Sweep.
Context (qr : nat -> tensor -> tensor * tensor) (svd svdt : nat -> tensor -> tensor * list R * tensor) (evd : tensor -> tensor * list R) (eigvec : bool -> tensor -> list R -> tensor).
(** para_.truncate_para, para_.gate_type, para_.tau, evolve_gates_ (354-361) *)
Context (pr : loop_params) (kind : gate_kind) (tau : R) (gates : nat -> nat -> nat -> tensor).

(** 357-361: what a projection adds to the energy *)
Definition energy_share (ratio : R) : option R :=
  match kind with FirstOrder => Some ((1 - ratio) / tau)%R | Exponential => if rlt 0 ratio then Some (- ln ratio / tau)%R else None end.
(** e0 += ... (358, 360) *)
Definition add_share (e0 share : option R) : option R := match e0, share with Some a, Some b => Some (a + b)%R | _, _ => None end.
(** 353-362: one projection *)
Definition sweep_step (x : res sweeping) (p : site) : res sweeping :=
  bind x (fun v =>
  bind (loop_project qr svd svdt evd eigvec pr (gates (fst p) (snd p)) (v_peps v) (fst p) (snd p)) (fun out =>
    Ok (Sweeping (lr_peps out) (v_norm v * lr_norm out)%R (add_share (v_e0 v) (energy_share (lr_ratio out))) (v_seen v ++ [(p, v_peps v, out)])))).
(** 349-366: the projections of the four passes *)
Definition sweep_run (P : peps) (l : list site) : res sweeping := fold_left sweep_step l (Ok (Sweeping P 1%R (Some 0%R) [])).
(** 336-386 LoopUpdateSweep_ *)
Definition loop_sweep (P : peps) : res swept :=
  bind (sweep_run P (concat (loop_passes (p_rows P) (p_cols P) (p_per P)))) (fun v =>
    if rle (v_norm v) 0 then Fail Throw else Ok (Swept (v_peps v) (v_e0 v) (- ln (v_norm v) / tau)%R (v_seen v))).
(** n sweeps, one after the other (230-233: the loop of Execute, whatever stops it); the PEPS and the energies en of each sweep *)
Fixpoint loop_sweeps (n : nat) (P : peps) : res (peps * list R) :=
  match n with
  | 0 => Ok (P, [])
  | S n' => bind (loop_sweep P) (fun w => bind (loop_sweeps n' (w_peps w)) (fun '(Q, l) => Ok (Q, w_en w :: l)))
  end.
End Sweep.
