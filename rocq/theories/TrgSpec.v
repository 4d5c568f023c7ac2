(** What the TRG contractor is used for: the amplitude of a periodic network, of the network with some tensors
    replaced, and moves that are accepted one after the other. *)
From Coq Require Import List Arith Bool.
From Verif Require Import Base TrgModel.
Import ListNotations.
Local Open Scope nat_scope.

(** the sizes a contractor accepts *)
Definition trg_size (n : nat) : Prop := exists k, n = 2 ^ k \/ n = 3 * 2 ^ k.

Section Spec.
Context (o : trg_ops).
(** a periodic square network *)
Definition torus (n : nat) (X : nat -> nat -> Ten o) : network o := mkNet n n true X.
(** replacements, the later one counts *)
Definition put_ten (X : nat -> nat -> Ten o) (e : nat * nat * Ten o) : nat -> nat -> Ten o :=
  fun r c => if (r =? fst (fst e)) && (c =? snd (fst e)) then snd e else X r c.
Definition with_replacements (X : nat -> nat -> Ten o) (reps : list (nat * nat * Ten o)) : nat -> nat -> Ten o := fold_left put_ten reps X.
Definition on_lattice (n : nat) (reps : list (nat * nat * Ten o)) : Prop := Forall (fun e => fst (fst e) < n /\ snd (fst e) < n) reps.
(** a new contractor for the network, and its first trace *)
Definition fresh (p : Prm o) (tn : network o) : res (trg o * Num o) :=
  t <- init o (new_trg o (n_rows tn) (n_cols tn) p) tn;; trace o t tn.
(** accepted moves: a trial and its commit *)
Fixpoint accept_all (t : trg o) (moves : list (list (nat * nat * Ten o))) : res (trg o) :=
  match moves with
  | [] => Ok t
  | m :: rest => tr <- begin_trial o t m;; t' <- commit_trial o t tr;; accept_all t' rest
  end.
(** two vectors with the same contents *)
Definition same_arr {A} (a b : arr A) : Prop := alen a = alen b /\ forall i, i < alen a -> aval a i = aval b i.
Definition same_scale (a b : scale o) : Prop :=
  same_arr (tens a) (tens b) /\ same_arr (f2c a) (f2c b) /\ same_arr (c2f a) (c2f b) /\ same_arr (splits a) (splits b).
(** two contractors nothing can tell apart *)
Definition same_contractor (a b : trg o) : Prop :=
  t_rows a = t_rows b /\ t_cols a = t_cols b /\ t_periodic a = t_periodic b /\ t_ready a = t_ready b /\ t_prm a = t_prm b /\
  same_arr (t_sub a) (t_sub b) /\ Forall2 same_scale (t_scales a) (t_scales b).
End Spec.
