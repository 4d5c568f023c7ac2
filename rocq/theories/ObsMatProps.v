(** C88 *)
From Coq Require Import List NArith Bool.
From Verif Require Import Base ObsMatModel ObsMatSpec ObsMatProofs.
Import ListNotations.
Local Open Scope N_scope.

(** C88: every history of calls is answered as by a table of one value per site, listed row by row. *)
Theorem c88_table {T : Type} (plus : T -> T -> T) rows cols v l : rows * cols < 2 ^ 64 -> Forall fits l ->
  snd (om_calls T plus (om_new T rows cols v) l) = snd (table_calls plus (Table rows cols (fun _ _ => v)) l).
Proof. exact (refines plus rows cols v l). Qed.
Print Assumptions c88_table.

(** C88: in the flattened vector the value of site (r, c) is at position r * cols + c, and there are no others. *)
Theorem c88_row_major {T : Type} rows cols (f : N -> N -> T) : length (row_major rows cols f) = N.to_nat (rows * cols) /\
  forall r c, r < rows -> c < cols -> nth_error (row_major rows cols f) (N.to_nat (r * cols + c)) = Some (f r c).
Proof. exact (conj (row_major_length rows cols f) (row_major_nth rows cols f)). Qed.
Print Assumptions c88_row_major.

(** C88: after the data were extracted nothing can be read or written until a resize, whatever the remembered size. *)
Theorem c88_taken {T : Type} (plus : T -> T -> T) (m : om T) l : Forall keeps l -> Forall empty_reply (snd (om_calls T plus (fst (om_extract T m)) l)).
Proof. exact (taken plus l m). Qed.
Print Assumptions c88_taken.

(** C88 is false if the number of elements exceeds a size_t: sites share an element. *)
Theorem c88_overflow_refuted : let m := om_new N (2 ^ 32) (2 ^ 32 + 1) 0 in
  exists m', om_set N m 0 0 7 = Ok m' /\ om_get N m (2 ^ 32 - 1) 1 = Ok 0 /\ om_get N m' (2 ^ 32 - 1) 1 = Ok 7.
Proof. exact shared. Qed.
Print Assumptions c88_overflow_refuted.

Example c88_history : let l := [Set_ N 0 2 4; Add N 0 2 1; Get N 0 2; Get N 2 0; Add N 1 3 1; Flatten N; Extract N; Get N 0 2; Resize N 1 2 9; Get N 0 1] in
  Forall fits l /\ snd (om_calls N N.add (om_new N 2 3 0) l) =
  [Done N; Done N; Value N 5; Bad N; Bad N; Vector N [0; 0; 5; 0; 0; 0]; Vector N [0; 0; 5; 0; 0; 0]; Bad N; Done N; Value N 9].
Proof. split; [repeat constructor|reflexivity]. Qed.
