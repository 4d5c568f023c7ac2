(** Transfer of states between processes (C28). *)
From Coq Require Import List Arith NArith Lia Bool.
From Verif Require Import Base MsgModel MsgSpec MsgProofs.
Import ListNotations.

(** Any number of wildcard receives, the scheduler choosing the matched source each time: every state
    arrives whole and each sender's states in order; what remains in flight is what was not received;
    choosing a source with nothing in flight blocks. *)
Theorem c28_wildcard_receive : forall (T : Type) choices (q : queues (T:=T)) pending,
  (forall s, q s = flat_map wire (pending s)) -> (forall s v, In v (pending s) -> uniform v) ->
  match take_all choices pending with
  | Some (vs, pending') => exists q', recv_all choices q = Got (vs, q') /\ forall s, q' s = flat_map wire (pending' s)
  | None => recv_all choices q = Blocks
  end.
Proof. intros T. exact recv_all_ok. Qed.
Print Assumptions c28_wildcard_receive.
(** If the number of components differs between sites, tensors are lost and the next receive reads
    a tensor where it expects a header. *)
Theorem c28_uneven_sites_refuted : exists (v w : sitps nat) (q : queues (T:=nat)) a q',
  length (p_sites v) = p_rows v * p_cols v /\ uniform w /\ q 0 = wire v ++ wire w /\
  recv 0 q = Got (a, q') /\ a <> v /\ recv 0 q' = Confused.
Proof. exact uneven_sites. Qed.
Print Assumptions c28_uneven_sites_refuted.
Example c28_wildcard_case : let a := mkS 1 2 false [[1; 2]; [3; 4]] in let b := mkS 1 1 true [[5]] in let c := mkS 2 1 false [[6]; [7]] in
  exists q', recv_all [2; 1; 2] (fun s => if s =? 1 then wire a else if s =? 2 then wire b ++ wire c else []) = Got ([(2, b); (1, a); (2, c)], q').
Proof. eexists. reflexivity. Qed.

(** Broadcast: every process ends with the root's state. *)
Theorem c28_broadcast : forall (Shell Data : Type) (no_data : Data) (is_default : Shell -> bool) pack_shell unpack_shell,
  good_packing pack_shell unpack_shell -> forall v, uniform v -> fits v ->
  (forall s t, In s (p_sites v) -> In t s -> is_default (fst t) = true -> snd t = no_data) ->
  broadcast no_data is_default pack_shell unpack_shell v = Ok v.
Proof. intros Shell Data no_data is_default pk up [A B]. exact (broadcast_ok no_data is_default pk up A). Qed.
Print Assumptions c28_broadcast.
(** Every proper prefix of a buffer is rejected, ... *)
Theorem c28_truncated_buffer_rejected : forall (Shell Data : Type) pack_shell unpack_shell, good_packing pack_shell unpack_shell ->
  forall (v : sitps (Shell * Data)) buf p q, uniform v -> fits v -> pack_state pack_shell v = Ok buf -> buf = p ++ q -> q <> [] ->
  unpack_state unpack_shell p = Fail Throw.
Proof. intros Shell Data pk up [A B]. exact (truncated pk up A B). Qed.
Print Assumptions c28_truncated_buffer_rejected.
(** ... so is every extension ... *)
Theorem c28_overlong_buffer_rejected : forall (Shell Data : Type) pack_shell unpack_shell, good_packing pack_shell unpack_shell ->
  forall (v : sitps (Shell * Data)) buf x l, uniform v -> fits v -> pack_state pack_shell v = Ok buf ->
  unpack_state unpack_shell (buf ++ x :: l) = Fail Throw.
Proof. intros Shell Data pk up [A B]. exact (too_long pk up A). Qed.
Print Assumptions c28_overlong_buffer_rejected.
(** ... and every buffer with an unknown boundary condition. *)
Theorem c28_unknown_boundary_rejected : forall (Shell : Type) (unpack_shell : list N -> option (Shell * list N)) r c d b l,
  (r < 2 ^ 64)%N -> (c < 2 ^ 64)%N -> (d < 2 ^ 64)%N -> (1 < b < 2 ^ 64)%N ->
  unpack_state unpack_shell (header r c d b ++ l) = Fail Throw.
Proof. intros Shell. exact bad_boundary. Qed.
Print Assumptions c28_unknown_boundary_rejected.
(** One-byte shells, the default one being zero. *)
Example c28_packing_case : good_packing (fun s : N => [s]) (fun l => match l with [] => None | x :: t => Some (x, t) end).
Proof. split; [reflexivity|]. intros s p q E N. destruct p as [|x p]; [reflexivity|]. destruct p; destruct q; try contradiction; discriminate. Qed.
Example c28_broadcast_case : let v := mkS 1 2 true [[(1, 10); (0, 0)]; [(2, 20); (3, 30)]]%N in uniform v /\ fits v /\
  broadcast 0%N (fun s => (s =? 0)%N) (fun s : N => [s]) (fun l => match l with [] => None | x :: t => Some (x, t) end) v = Ok v.
Proof.
  cbv zeta. split; [split; [simpl; lia|]; split; [reflexivity|]; exists 2; intros s [<-|[<-|[]]]; reflexivity|].
  split; [split; [reflexivity|]; split; [reflexivity|]; intros s [<-|[<-|[]]]; reflexivity|reflexivity].
Qed.
