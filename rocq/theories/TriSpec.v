(** Triangular lattice drawn on a square one: the site in row y and column x sits at x e1 + y e2, with
    e1, e2 unit vectors at 60 degrees. Nearest neighbours are at distance 1, next-nearest at sqrt 3. *)
From Coq Require Import List Arith Bool Reals ZArith.
From Verif Require Import Base Cplx EnergySpec.
Import ListNotations.

(** |x e1 + y e2|^2 = x^2 + x y + y^2 *)
Definition distance2 (a b : site) : Z :=
  (let x := Z.of_nat (snd b) - Z.of_nat (snd a) in
   let y := Z.of_nat (fst b) - Z.of_nat (fst a) in
   x * x + x * y + y * y)%Z.
(** Each pair of sites is listed once: the first is to the left of the second, or above it. *)
Definition before (a b : site) : bool := (snd a <? snd b) || ((snd a =? snd b) && (fst a <? fst b)).
Definition at_distance2 (d : Z) (a b : site) : bool := before a b && (distance2 a b =? d)%Z.

(** H = sum of S_i . S_j over nearest neighbours + J2 sum over next-nearest neighbours. *)
Definition H_triangular (rows cols : nat) (j2 : R) : operator :=
  op_add (op_sum (fun ab => on_sites [index cols (fst ab); index cols (snd ab)] (xxz_bond 1 1)) (pairs rows cols (at_distance2 1)))
         (op_scal j2 (op_sum (fun ab => on_sites [index cols (fst ab); index cols (snd ab)] (xxz_bond 1 1)) (pairs rows cols (at_distance2 3)))).
