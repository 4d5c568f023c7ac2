(** What an observer can say about a run of the optimiser, from its trace alone. *)
From Coq Require Import List Arith Bool Reals.
From Verif Require Import Base OptModel.
Import ListNotations.
Local Open Scope R_scope.

Section Spec.
Context {W : Type}.
(** An evaluation: state, energy, error, gradient norm. *)
Notation evaluation := (W * R * R * R)%type.
Definition ev_state (x : evaluation) : W := fst (fst (fst x)).
Definition ev_energy (x : evaluation) : R := snd (fst (fst x)).
Definition ev_error (x : evaluation) : R := snd (fst x).
Definition ev_gnorm (x : evaluation) : R := snd x.

(** Reading a trace: an evaluation counts as accepted unless a spike message discards it (resample or
    rollback). [h_rolled]: a rollback happened since the last accepted evaluation. *)
Record history := mkH { h_settled : list evaluation; h_pending : option evaluation; h_rolled : bool }.
Definition pending_list (h : history) : list evaluation := match h_pending h with Some x => [x] | None => [] end.
Definition h_step (h : history) (o : obs (W:=W)) : history :=
  match o with
  | Eval w e err gn =>
      match h_pending h with
      | Some x => mkH (h_settled h ++ [x]) (Some (w, e, err, gn)) false
      | None => mkH (h_settled h) (Some (w, e, err, gn)) (h_rolled h)
      end
  | Spike v => match v_action v with
               | Resample => mkH (h_settled h) None (h_rolled h)
               | Rollback => mkH (h_settled h) None true
               | _ => h
               end
  | _ => h
  end.
Definition history_of (t : list (obs (W:=W))) : history := fold_left h_step t (mkH [] None false).
Definition accepted (t : list (obs (W:=W))) : list evaluation := let h := history_of t in h_settled h ++ pending_list h.
(** Has a rollback been made since the last accepted evaluation? *)
Definition rolled (t : list (obs (W:=W))) : bool := let h := history_of t in match h_pending h with Some _ => false | None => h_rolled h end.

Definition spikes (t : list (obs (W:=W))) : list event := flat_map (fun o => match o with Spike v => [v] | _ => [] end) t.
Definition count_action (a : action) (l : list event) : nat :=
  length (filter (fun v => match v_action v, a with Resample, Resample | Rollback, Rollback | AcceptWithWarning, AcceptWithWarning | Accept, Accept => true | _, _ => false end) l).
Definition count_S4 (l : list event) : nat := length (filter (fun v => match v_signal v with S4 => true | _ => false end) l).
Definition checkpoints (t : list (obs (W:=W))) : list (nat * W) := flat_map (fun o => match o with Ckpt i w => [(i, w)] | _ => [] end) t.
Definition lowest_calls (t : list (obs (W:=W))) : list (W * R) := flat_map (fun o => match o with Lowest w e => [(w, e)] | _ => [] end) t.
Definition iter_calls (t : list (obs (W:=W))) : list (nat * R * R * R) := flat_map (fun o => match o with Iter i e err gn => [(i, e, err, gn)] | _ => [] end) t.
Definition no_eval (t : list (obs (W:=W))) : Prop := forall o, In o t -> match o with Eval _ _ _ _ => False | _ => True end.
End Spec.

(** Steps since the energy last reached a new minimum. *)
Definition stalled (es : list R) : nat :=
  snd (fold_left (fun lk e => if rlt e (fst lk) then (e, 0%nat) else (fst lk, S (snd lk))) es (dbl_max, 0%nat)).
(** The stopping criterion at step [i] of the accepted energies [es] and gradient norms [gs]. *)
Definition criterion (p : params) (es gs : list R) (i : nat) : Prop :=
  (0 < i < length es)%nat /\
  (nth i gs 0 < p_gtol p \/ Rabs (nth i es 0 - nth (i - 1) es 0) < p_etol p \/ (p_patience p <= stalled (firstn (S i) es))%nat).
