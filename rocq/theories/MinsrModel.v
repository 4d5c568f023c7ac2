(** MinSR: the ring exchange and T matrix (optimizer/minsr_tmatrix.h), the pseudo-inverse
    (optimizer/minsr_eigensolve.h) and the direction (optimizer/optimizer_impl.h:1125-1215). *)
From Coq Require Import List Arith ZArith Bool Reals.
From Verif Require Import Base Cplx OptModel LbModel CgModel.
Import ListNotations.
Local Open Scope R_scope.

(** *** The ring exchange, minsr_tmatrix.h:78-118 and 183-195 *)
Section Ring.
Context {X : Type}.
(** What a rank does next: send one sample to the next rank, receive one from the previous rank, or
    return the batches it received, in order. A sample stands for the messages MPI_Send of a
    wave function consists of (C28). *)
Inductive act := ASend (x : X) (k : act) | ARecv (k : X -> act) | ADone (log : list (list X)).
(** 183-187 *)
Fixpoint send_batch (l : list X) (k : act) : act := match l with [] => k | x :: t => ASend x (send_batch t k) end.
(** 190-195: the buffer has [n] places left *)
Fixpoint recv_batch (n : nat) (buf : list X) (k : list X -> act) : act :=
  match n with O => k buf | S n' => ARecv (fun x => recv_batch n' (buf ++ [x]) k) end.
(** 88-117: [n] rounds left, [send] what send_ptr points to *)
Fixpoint ring_rounds (s : nat) (last : bool) (n : nat) (send : list X) (log : list (list X)) : act :=
  match n with
  | O => ADone log
  | S n' =>
      if last then send_batch send (recv_batch s [] (fun got => ring_rounds s last n' got (log ++ [got])))
      else recv_batch s [] (fun got => send_batch send (ring_rounds s last n' got (log ++ [got])))
  end.
(** 78: rank [r] of [P], with [s] samples *)
Definition ring_program (P s r : nat) (own : list X) : act :=
  if (1 <? P)%nat then ring_rounds s (r =? P - 1)%nat (P - 1) own [] else ADone [].

(** All ranks: what each does next, whether it is inside the send its program starts with, and what
    is in transit from it to the next rank. (minsr_tmatrix.h:86-120) *)
Record ring := mkRing { r_act : nat -> act; r_busy : nat -> bool; r_chan : nat -> list X }.
(** model helper: assignment to one rank *)
Definition upd {Y} (f : nat -> Y) (i : nat) (y : Y) : nat -> Y := fun j => if (j =? i)%nat then y else f j.
(** 79-80 *)
Definition next_rank (P r : nat) : nat := ((r + 1) mod P)%nat.
(** minsr_tmatrix.h:88-92 *)
Definition prev_rank (P r : nat) : nat := ((r + P - 1) mod P)%nat.
(** One step of one rank; messages between two ranks arrive in order. The index: the step is possible
    even if MPI buffers nothing. A send may return once its data is in transit; it is only sure to
    return once its data has been received. (minsr_tmatrix.h:93-120, 181-195) *)
Inductive rstep (P : nat) : bool -> ring -> ring -> Prop :=
| rs_send a bz ch r x k : (r < P)%nat -> a r = ASend x k -> bz r = false -> rstep P true (mkRing a bz ch) (mkRing a (upd bz r true) (upd ch r (ch r ++ [x])))
| rs_sent a bz ch r x k sure : (r < P)%nat -> a r = ASend x k -> bz r = true -> (sure = true -> ch r = []) ->
    rstep P sure (mkRing a bz ch) (mkRing (upd a r k) (upd bz r false) ch)
| rs_recv a bz ch r k x t : (r < P)%nat -> a r = ARecv k -> ch (prev_rank P r) = x :: t ->
    rstep P true (mkRing a bz ch) (mkRing (upd a r (k x)) bz (upd ch (prev_rank P r) t)).
(** runs of the processes, minsr_tmatrix.h:86-120 *)
Inductive rsteps (P : nat) : ring -> ring -> Prop :=
| rsteps_refl c : rsteps P c c
| rsteps_step c c' c'' sure : rsteps P c c' -> rstep P sure c' c'' -> rsteps P c c''.
(** minsr_tmatrix.h:55-86 *)
Definition ring_start (P s : nat) (own : nat -> list X) : ring := mkRing (fun r => ring_program P s r (own r)) (fun _ => false) (fun _ => []).
(** Every rank has returned and nothing is in transit. (minsr_tmatrix.h:120) *)
Definition ring_finished (P : nat) (c : ring) : Prop := forall r, (r < P)%nat -> (exists log, r_act c r = ADone log) /\ r_chan c r = [].
End Ring.
Arguments act : clear implicits.
Arguments ring : clear implicits.

(** *** The T matrix *)
Section T.
Variable dim : nat.
(** 70-75 and 104-111 for one [i]: the products with a batch, written from column [col] on, and added
    to the sum of the row *)
Fixpoint write_batch (oi : vec) (batch : list vec) (col : nat) (row : (nat -> C) * C) : (nat -> C) * C :=
  match batch with
  | [] => row
  | oj :: t => let ip := vdot dim oi oj in write_batch oi t (S col) (upd (fst row) col ip, (snd row + ip)%C)
  end.
(** 90-91: C++ remainders *)
Definition source_rank (P r round : nat) : nat :=
  Z.to_nat (Z.rem (Z.rem (Z.of_nat r - Z.of_nat round) (Z.of_nat P) + Z.of_nat P) (Z.of_nat P)).
(** 88-117 *)
Fixpoint write_rounds (P s r : nat) (oi : vec) (round : nat) (log : list (list vec)) (row : (nat -> C) * C) : (nat -> C) * C :=
  match log with
  | [] => row
  | b :: t => write_rounds P s r oi (S round) t (write_batch oi b (source_rank P r round * s) row)
  end.
(** 65-118: one row of rank [r], whose own samples are [own] and which received [log] *)
Definition gram_row (P s r : nat) (own : list vec) (log : list (list vec)) (oi : vec) : (nat -> C) * C :=
  write_rounds P s r oi 1 log (write_batch oi own (r * s) (fun _ => RtoC 0, RtoC 0)).
(** 120-149, and the gathering of the row blocks (minsr_eigensolve.h:101-104): entry (i, j) of the
    whole matrix, given the rows of all ranks in rank order and their number *)
Definition centred (rows : list ((nat -> C) * C)) (i j : nat) : C :=
  let n := RtoC (INR (length rows)) in
  let m := map (fun row => Cdiv (snd row) n) rows in
  let c := Cdiv (sumC (fun x => x) m) n in
  Cdiv (fst (nth i rows (fun _ => RtoC 0, RtoC 0)) j - nth i m (RtoC 0) - Cconj (nth j m (RtoC 0)) + c)%C n.
(** minsr_tmatrix.h:62-120 *)
Definition t_rows (s : nat) (ranks : list (list vec)) (log : nat -> list (list vec)) : list ((nat -> C) * C) :=
  flat_map (fun r => let own := nth r ranks [] in map (gram_row (length ranks) s r own (log r)) own) (seq 0 (length ranks)).
(** minsr_tmatrix.h:62-150 *)
Definition t_matrix (s : nat) (ranks : list (list vec)) (log : nat -> list (list vec)) : nat -> nat -> C := centred (t_rows s ranks log).
End T.

(** *** minsr_eigensolve.h:44-78 *)
Definition lambda_max (l : list R) : R := fold_left (fun m x => Rmax m (Rabs x)) l 0.
(** minsr_eigensolve.h:44-80 *)
Definition pinv (r_pinv a_pinv : R) (soft : bool) (l : list R) : list R :=
  let cutoff := r_pinv * lambda_max l + a_pinv in
  if soft then
    let cutoff6 := cutoff * cutoff * cutoff * cutoff * cutoff * cutoff in
    map (fun lam => let lam5 := lam * lam * (lam * lam) * lam in let denom := lam5 * lam + cutoff6 in
                    if Req_EM_T denom 0 then 0 else lam5 / denom) l
  else map (fun lam => if rlt cutoff (Rabs lam) then 1 / lam else 0) l.
(** 128-155 and 207-233: [z i k], component [i] of the eigenvector [k] *)
Definition apply_pinv (n : nat) (z : nat -> nat -> C) (plus : list R) (rhs : nat -> C) : nat -> C := fun i =>
  sumC (fun k => z i k * (RtoC (nth k plus 0%R) * sumC (fun j => Cconj (z j k) * rhs j) (seq 0 n)))%C (seq 0 n).

(** *** optimizer_impl.h:1138-1208 *)
(** 1143-1149 *)
Definition epsilon_bar (energies : list C) (energy : C) (n : nat) : nat -> C := fun i =>
  Cdiv (Cconj (nth i energies (RtoC 0) - energy)) (RtoC (INR n)).
(** 1178-1203: each rank's weighted sum, added on the master in rank order, minus (sum y) Ostar_mean *)
Definition local_sum (s r : nat) (own : list vec) (y : nat -> C) : vec :=
  fold_left (fun acc i => vadd acc (vscale (y (r * s + i)%nat) (nth i own vzero))) (seq 0 s) vzero.
(** optimizer_impl.h:1160-1215 *)
Definition local_y (s r : nat) (y : nat -> C) : C := fold_left (fun acc i => (acc + y (r * s + i)%nat)%C) (seq 0 s) (RtoC 0).
(** optimizer_impl.h:1160-1215 *)
Definition minsr_direction (s : nat) (ranks : list (list vec)) (mean : vec) (y : nat -> C) : vec :=
  let ysum := sumC (fun r => local_y s r y) (seq 0 (length ranks)) in
  let gathered := fold_left vadd (map (fun r => local_sum s r (nth r ranks []) y) (seq 0 (length ranks))) vzero in
  vadd gathered (vscale (Copp ysum) mean).
