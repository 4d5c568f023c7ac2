(** When an evaluation counts as a spike, from the trace of the run alone. *)
From Coq Require Import List Arith Bool Reals.
From Verif Require Import Base OptModel OptSpec.
Import ListNotations.
Local Open Scope R_scope.

(** Exponentially weighted mean and variance of a series; the weight of a new value is 2 / (window + 1). *)
Definition weight (window : nat) : R := 2 / (INR window + 1).
Definition smooth (window : nat) (xs : list R) : option (R * R) :=
  let a := weight window in
  fold_left (fun mv x => match mv with
                         | None => Some (x, 0)
                         | Some (m, v) => Some ((1 - a) * m + a * x, (1 - a) * (v + a * (x - m) ^ 2))
                         end) xs None.
(** The threshold that [x] exceeds: [factor] times the mean of the values so far. *)
Definition exceeded (window : nat) (factor : R) (xs : list R) (x : R) : option R :=
  match smooth window xs with
  | Some (m, _) => if rlt 0 m && rlt (factor * m) x then Some (factor * m) else None
  | None => None
  end.
(** The threshold that the energy [e] exceeds: [k] standard deviations above the mean of the energies so far. *)
Definition jumped (window : nat) (k : R) (es : list R) (e : R) : option R :=
  match smooth window es with
  | Some (m, v) => if rlt 0 (sqrt v) && rlt m e && rlt (m + k * sqrt v) e then Some (m + k * sqrt v) else None
  | None => None
  end.

Section Spec.
Context {W : Type}.
Notation obs := (obs (W:=W)).
(** How often the current step has been evaluated again since it was reached (or since the last rollback). *)
Definition tries_step (pk : bool * nat) (o : obs) : bool * nat :=
  match o with
  | Eval _ _ _ _ => (true, if fst pk then 0%nat else snd pk)
  | Spike v => match v_action v with Resample => (false, S (snd pk)) | Rollback => (false, 0%nat) | _ => pk end
  | _ => pk
  end.
Definition tries (t : list obs) : nat := let pk := fold_left tries_step t (false, 0%nat) in if fst pk then 0%nat else snd pk.
(** Is there an accepted state to go back to? *)
Definition can_go_back (p : params) (t : list obs) : bool := p_rollback p && (0 <? length (accepted t))%nat && negb (rolled t).
(** What is done about a spike in the error bar, the gradient or the natural gradient. *)
Definition remedy (p : params) (t : list obs) : action :=
  if (tries t <? p_retries p)%nat then Resample else if can_go_back p t then Rollback else AcceptWithWarning.
(** The messages about an evaluation made after the trace [t]. *)
Definition about (p : params) (t : list obs) (sig : signal) (act : action) (x thr : R) : event := mkEvent (length (accepted t)) (tries t) sig act x thr.
Definition watching (p : params) (t : list obs) : bool := p_auto p && (0 <? length (accepted t))%nat.
Definition first_message (p : params) (t : list obs) (err gn : R) : list event :=
  if watching p t then
    match exceeded (p_window p) (p_ferr p) (map ev_error (accepted t)) err with
    | Some thr => [about p t S1 (remedy p t) err thr]
    | None => match exceeded (p_window p) (p_fgrad p) (map ev_gnorm (accepted t)) gn with
              | Some thr => [about p t S2 (remedy p t) gn thr]
              | None => []
              end
    end
  else [].
(** [ns]: the norms of the natural gradients of the accepted steps; [ng]: the one of this evaluation, found in [iters]
    iterations. *)
Definition natural_message (p : params) (t : list obs) (ns : list R) (ng : R) (iters : option nat) : list event :=
  if watching p t then
    let few := match iters with Some k => (k <=? p_min_iters p)%nat | None => false end in
    match exceeded (p_window p) (p_fngrad p) ns ng, smooth (p_window p) ns with
    | Some thr, _ => [about p t S3 (remedy p t) ng thr]
    | None, Some (m, _) => if few then [about p t S3 (remedy p t) ng (p_fngrad p * m)] else []
    | None, None => []
    end
  else [].
Definition energy_message (p : params) (t : list obs) (e : R) : list event :=
  if p_rollback p && (0 <? length (accepted t))%nat then
    match jumped (p_window p) (p_sigma p) (map ev_energy (accepted t)) e with
    | Some thr => [about p t S4 Rollback e thr]
    | None => []
    end
  else [].
(** The checks are made in turn until one discards the evaluation. *)
Fixpoint until_discarded (l : list event) : list event :=
  match l with [] => [] | v :: l' => if discards (v_action v) then [v] else v :: until_discarded l' end.
(** The part of a trace before the next evaluation. *)
Fixpoint before_eval (t : list obs) : list obs := match t with [] => [] | Eval _ _ _ _ :: _ => [] | o :: t' => o :: before_eval t' end.
End Spec.
