(** The value of a row of the network between two boundary MPSs, as a sum over the bonds.

    Between two neighbouring columns run three bonds: of the UP boundary, of the row itself and of the DOWN
    boundary.  [column] is the weight of a column given the bonds on its left and on its right; the vertical
    bonds inside it are summed.  The value of a row is the sum over all the bonds of the product of the column
    weights, the outermost bonds being zero. *)
From Coq Require Import List Arith Bool Reals.
From Verif Require Import Base Cplx WalkModel.
Import ListNotations.

Definition bonds := (nat * nat * nat)%type.
Definition all_bonds (D : nat) : list bonds :=
  list_prod (list_prod (seq 0 D) (seq 0 D)) (seq 0 D).

(** legs of the tensors: a boundary tensor has (0: one end, 1: vertical, 2: other end); in the UP boundary
    leg 2 points left, in the DOWN boundary leg 0 does.  A site tensor has (left, down, right, up). *)
Definition column (D : nat) (up site down : tensor) (l r : bonds) : C :=
  let '(ul, sl, dl) := l in let '(ur, sr, dr) := r in
  sumC (fun p => sumC (fun q => Cmul (up [ur; p; ul]) (Cmul (site [sl; q; sr; p]) (down [dl; q; dr]))) (seq 0 D)) (seq 0 D).

(** the sum over the bonds of the product of the columns, from the bonds [s] on the left to the bonds [e] *)
Fixpoint weight (D : nat) (cols : list (bonds -> bonds -> C)) (s e : bonds) : C :=
  match cols with
  | [] => if (fst (fst s) =? fst (fst e)) && (snd (fst s) =? snd (fst e)) && (snd s =? snd e) then RtoC 1 else RtoC 0
  | c :: cols' => sumC (fun m => Cmul (c s m) (weight D cols' m e)) (all_bonds D)
  end.
Definition zero_bonds : bonds := (0, 0, 0).

(** the columns of a row, left to right; [up] is the UP boundary as stored, right to left *)
Definition columns (D : nat) (up mpo opp : list tensor) : list (bonds -> bonds -> C) :=
  map (fun usd => let '(u, s, d) := usd in column D u s d) (combine (combine (rev up) mpo) opp).
Definition row_value (D : nat) (up mpo opp : list tensor) : C :=
  weight D (columns D up mpo opp) zero_bonds zero_bonds.

(** [l] with the entry at [i] replaced *)
Definition replace {X} (l : list X) (i : nat) (x : X) : list X := firstn i l ++ x :: skipn (i + 1) l.
