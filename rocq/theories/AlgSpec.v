(** Closed forms of the first-order methods. *)
From Coq Require Import List Arith Bool Reals.
From Verif Require Import Base Cplx Rsum MsgModel TpsModel TpsSpec.
Import ListNotations.
Local Open Scope R_scope.

(** sum over i of mu^(n-1-i) g_i *)
Definition geometric (mu : R) (gs : list C) : C :=
  sumC (fun i => RtoC (mu ^ (length gs - 1 - i)) * nth i gs (RtoC 0))%C (seq 0 (length gs)).
(** product of (1 - rate lambda) over the steps from [a] on *)
Definition kept (lam : R) (rates : list R) (a : nat) : R := fold_right Rmult 1 (map (fun r => 1 - r * lam) (skipn a rates)).
(** A parameter after steps with rates [rates] and directions [dirs], under decoupled decay [lam]. *)
Definition after_steps (lam : R) (rates : list R) (dirs : list C) (x0 : C) : C :=
  (RtoC (kept lam rates 0) * x0 - sumC (fun j => RtoC (nth j rates 0%R * kept lam rates (S j)) * nth j dirs (RtoC 0)) (seq 0 (length rates)))%C.
(** Step [j] of SGD: velocity, or the Nesterov look-ahead. *)
Definition sgd_direction (mu : R) (nesterov : bool) (gs : list C) (j : nat) : C :=
  let v := geometric mu (firstn (S j) gs) in
  if nesterov then (RtoC mu * v + nth j gs (RtoC 0))%C else v.
(** Bias-corrected exponential average of the first j+1 values. *)
Definition average_of (beta : R) (xs : list C) (j : nat) : C :=
  (RtoC ((1 - beta) / (1 - beta ^ S j)) * geometric beta (firstn (S j) xs))%C.
Definition square (x : C) : C := RtoC (Cnorm2 x).
Definition gradient_at (l : list (R * state)) (q : nat * nat * nat * nat) : list C := map (fun s => at_place (snd s) q) l.
