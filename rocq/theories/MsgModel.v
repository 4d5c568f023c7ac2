(** Sending, receiving and broadcasting split-index TPS (two_dim_tn/tps/split_index_tps_impl.h:630-875). *)
From Coq Require Import List Arith NArith Lia Bool.
From Verif Require Import Base.
Import ListNotations.
Local Open Scope nat_scope.

(** Sites in row-major order, each with its component tensors. (split_index_tps.h, data members) *)
Record sitps (T : Type) := mkS { p_rows : nat; p_cols : nat; p_bc : bool; p_sites : list (list T) }.
Arguments mkS {T}. Arguments p_rows {T}. Arguments p_cols {T}. Arguments p_bc {T}. Arguments p_sites {T}.
(** split_index_tps.h: PhysicalDim() looks at site (0,0). (split_index_tps.h:222-230) *)
Definition phys_dim {T} (v : sitps T) : res nat := s <- idx (p_sites v) 0;; Ok (length s).

Section Messages.
Context {T : Type}.
(** split_index_tps_impl.h:650-680 *)
Inductive msg := Header (rows cols dim : nat) (bc : bool) | Ten (t : T).
(** 650-668 MPI_Send *)
Definition send (v : sitps T) : res (list msg) :=
  d <- phys_dim v;; Ok (Header (p_rows v) (p_cols v) d (p_bc v) :: map Ten (concat (p_sites v))).
(** Messages sent to this process, by source; one source's messages are received in order
    (MPI_Recv of the same communicator and tag). (MPI_Send / MPI_Recv in split_index_tps_impl.h:650-720) *)
Definition queues := nat -> list msg.
(** [Blocks]: no such message ever comes. [Confused]: a message of the wrong type is matched. (MPI_Recv, split_index_tps_impl.h:685-720) *)
Inductive got (A : Type) := Got (a : A) | Blocks | Confused.
Arguments Got {A}. Arguments Blocks {A}. Arguments Confused {A}.
(** MPI_Send / MPI_Recv in split_index_tps_impl.h:650-720 *)
Definition set_q (q : queues) (s : nat) (l : list msg) : queues := fun s' => if s' =? s then l else q s'.
(** split_index_tps_impl.h:710-718 *)
Fixpoint recv_tensors (n : nat) (l : list msg) : got (list T * list msg) :=
  match n with
  | O => Got ([], l)
  | S m => match l with
           | [] => Blocks
           | Header _ _ _ _ :: _ => Confused
           | Ten t :: l' => match recv_tensors m l' with Got (ts, r) => Got (t :: ts, r) | Blocks => Blocks | Confused => Confused end
           end
  end.
(** split_index_tps_impl.h:700-718 *)
Fixpoint recv_sites (sites dim : nat) (l : list msg) : got (list (list T) * list msg) :=
  match sites with
  | O => Got ([], l)
  | S m => match recv_tensors dim l with
           | Got (ts, l1) => match recv_sites m dim l1 with Got (ss, r) => Got (ts :: ss, r) | Blocks => Blocks | Confused => Confused end
           | Blocks => Blocks
           | Confused => Confused
           end
  end.
(** 685-722 MPI_Recv. [src]: the source whose header is matched; for MPI_ANY_SOURCE it is any source
    with a message pending, read from the status, and the tensors are received from it. *)
Definition recv (src : nat) (q : queues) : got (sitps T * queues) :=
  match q src with
  | [] => Blocks
  | Ten _ :: _ => Confused
  | Header r c d bc :: l =>
      match recv_sites (r * c) d l with
      | Got (ss, rest) => Got (mkS r c bc ss, set_q q src rest)
      | Blocks => Blocks
      | Confused => Confused
      end
  end.
(** A series of receives, the scheduler choosing the source of each. (successive calls of split_index_tps_impl.h:685-720) *)
Fixpoint recv_all (choices : list nat) (q : queues) : got (list (nat * sitps T) * queues) :=
  match choices with
  | [] => Got ([], q)
  | s :: cs => match recv s q with
               | Got (v, q1) => match recv_all cs q1 with Got (vs, q2) => Got ((s, v) :: vs, q2) | Blocks => Blocks | Confused => Confused end
               | Blocks => Blocks
               | Confused => Confused
               end
  end.
End Messages.
Arguments msg : clear implicits.
Arguments Got {A}. Arguments Blocks {A}. Arguments Confused {A}.

(** *** Broadcast *)
Notation byte := N.
(** 787-799: little-endian, 8 bytes *)
Fixpoint le_bytes (k : nat) (n : N) : list byte := match k with O => [] | S m => (n mod 256)%N :: le_bytes m (n / 256)%N end.
(** memcpy of a uint64_t, split_index_tps_impl.h:786-800 *)
Fixpoint of_bytes (l : list byte) : N := match l with [] => 0%N | b :: t => (b + 256 * of_bytes t)%N end.
(** split_index_tps_impl.h:800-826 *)
Definition append_u64 (buf : list byte) (n : N) : list byte := buf ++ le_bytes 8 n.
(** split_index_tps_impl.h:786-798 *)
Definition read_u64 (l : list byte) : res (N * list byte) := if length l <? 8 then Fail Throw else Ok (of_bytes (firstn 8 l), skipn 8 l).
Section Broadcast.
(** The tensor library: a tensor is a shell (indices and block structure) and its raw data; default
    tensors have none. [pack_shell], [unpack_shell]: PackShellForMPI / UnpackShellForMPI, the latter
    throwing on malformed input. *)
Context {Shell Data : Type} (no_data : Data) (is_default : Shell -> bool)
        (pack_shell : Shell -> list byte) (unpack_shell : list byte -> option (Shell * list byte)).
(** 808-825 *)
Definition pack_state (v : sitps (Shell * Data)) : res (list byte) :=
  d <- phys_dim v;;
  let h := append_u64 (append_u64 (append_u64 (append_u64 [] (N.of_nat (p_rows v))) (N.of_nat (p_cols v))) (N.of_nat d)) (if p_bc v then 1 else 0)%N in
  Ok (fold_left (fun buf t => buf ++ pack_shell (fst t)) (concat (p_sites v)) h).
(** split_index_tps_impl.h:855-862 *)
Fixpoint unpack_shells (n : nat) (l : list byte) : res (list Shell * list byte) :=
  match n with
  | O => Ok ([], l)
  | S m => match unpack_shell l with
           | None => Fail Throw
           | Some (s, l1) => sl <- unpack_shells m l1;; let '(ss, r) := sl in Ok (s :: ss, r)
           end
  end.
(** split_index_tps_impl.h:852-862 *)
Fixpoint unpack_sites (sites dim : nat) (l : list byte) : res (list (list Shell) * list byte) :=
  match sites with
  | O => Ok ([], l)
  | S m => sl <- unpack_shells dim l;; let '(ss, l1) := sl in rl <- unpack_sites m dim l1;; let '(rs, r) := rl in Ok (ss :: rs, r)
  end.
(** 836-866 *)
Definition unpack_state (l : list byte) : res (sitps Shell) :=
  if length l <? 32 then Fail Throw
  else
    a <- read_u64 l;; let '(rows, l1) := a in
    b <- read_u64 l1;; let '(cols, l2) := b in
    c <- read_u64 l2;; let '(dim, l3) := c in
    e <- read_u64 l3;; let '(bc, l4) := e in
    if (1 <? bc)%N then Fail Throw
    else sl <- unpack_sites (N.to_nat rows * N.to_nat cols) (N.to_nat dim) l4;;
         let '(ss, rest) := sl in
         match rest with
         | [] => Ok (mkS (N.to_nat rows) (N.to_nat cols) (bc =? 1)%N ss)
         | _ => Fail Throw
         end.
(** 868-875: raw data of every tensor that is not default, in the same order on every rank. *)
Definition fill_data (shells : list (list Shell)) (root : list (list (Shell * Data))) : list (list (Shell * Data)) :=
  map (fun sr => map (fun st => (fst st, if is_default (fst st) then no_data else snd (snd st))) (combine (fst sr) (snd sr))) (combine shells root).
(** split_index_tps_impl.h:778-882 *)
Definition broadcast (v : sitps (Shell * Data)) : res (sitps (Shell * Data)) :=
  buf <- pack_state v;; w <- unpack_state buf;;
  Ok (mkS (p_rows w) (p_cols w) (p_bc w) (fill_data (p_sites w) (p_sites v))).
End Broadcast.
