(** Jastrow factors: storage, fields and the ratio used by the dressed t-J moves. *)
From Coq Require Import List Arith Bool Reals.
From Verif Require Import Base ContractorModel SweepModel Cplx.
Import ListNotations.
Local Open Scope nat_scope.

(** vmc_basic/jastrow_factor.h:35-38 (constructor) and 121: packed upper triangle. *)
Record jastrow := mkJ { j_ly : nat; j_lx : nat; j_v : list R }.
(** jastrow_factor.h:37 *)
Definition j_n (j : jastrow) : nat := j_ly j * j_lx j.
(** jastrow_factor.h:36-37 *)
Definition jastrow_new (ly lx : nat) : jastrow :=
  let n := ly * lx in mkJ ly lx (repeat 0%R (n * (n - 1) / 2)).
(** 115-118 PackedUpperIndex; [size_t] subtraction, so going below zero is an error here. *)
Definition packed_upper_index (n i j : nat) : res nat := usub (i * n + j) ((i + 1) * (i + 2) / 2).
(** Access to the vector; out of range is undefined behaviour. (jastrow_factor.h:40-82) *)
Definition vec_get (v : list R) (k : nat) : res R := match nth_error v k with Some x => Ok x | None => Fail UB end.
(** jastrow_factor.h:40-43, 67-71 *)
Definition vec_set (v : list R) (k : nat) (x : R) : res (list R) :=
  if k <? length v then Ok (firstn k v ++ x :: skipn (k + 1) v) else Fail UB.
(** 41-45 Set(i,j,v); the asserted precondition is kept as undefined behaviour (release builds
    write to another slot). *)
Definition jastrow_set (j : jastrow) (a b : nat) (x : R) : res jastrow :=
  if (a <? j_n j) && (b <? j_n j) && negb (a =? b) then
    (k <- (if a <? b then packed_upper_index (j_n j) a b else packed_upper_index (j_n j) b a);;
     v <- vec_set (j_v j) k x;; Ok (mkJ (j_ly j) (j_lx j) v))
  else Fail UB.
(** 73-77 operator()(i,j) const *)
Definition jastrow_get (j : jastrow) (a b : nat) : res R :=
  if (a <? j_n j) && (b <? j_n j) then
    (if a =? b then Ok 0%R
     else k <- (if a <? b then packed_upper_index (j_n j) a b else packed_upper_index (j_n j) b a);; vec_get (j_v j) k)
  else Fail UB.
(** 66-71 Fill *)
Definition jastrow_fill (j : jastrow) (f : nat -> nat -> R) : res jastrow :=
  fold_left (fun acc ab => j' <- acc;; jastrow_set j' (fst ab) (snd ab) (f (fst ab) (snd ab)))
    (flat_map (fun i => map (fun k => (i, k)) (seq (i + 1) (j_n j - (i + 1)))) (seq 0 (j_n j))) (Ok j).
(** 48-51 SiteIdxToLinear *)
Definition site_linear (j : jastrow) (s : site) : res nat :=
  if (fst s <? j_ly j) && (snd s <? j_lx j) then Ok (fst s * j_lx j + snd s) else Fail UB.
(** 99-110 JastrowFieldAtSite: sum over all other sites, row by row. *)
Definition jastrow_field (j : jastrow) (density : nat -> nat -> nat) (s : site) : res R :=
  i <- site_linear j s;;
  fold_left (fun acc rc =>
      sum <- acc;;
      let k := fst rc * j_lx j + snd rc in
      if k =? i then Ok sum
      else v <- jastrow_get j i k;; Ok (sum + v * INR (density (fst rc) (snd rc)))%R)
    (list_prod (seq 0 (j_ly j)) (seq 0 (j_lx j))) (Ok 0%R).
(** square_nn_updater.h:404-419: ratio of Jastrow factors of an exchange. [exit] is [Fail Throw]. *)
Definition updater_jastrow_ratio (j : jastrow) (density : nat -> nat -> nat) (s1 s2 : site) : res R :=
  let d s := density (fst s) (snd s) in
  if d s1 =? d s2 then Ok 1%R
  else
    f1 <- jastrow_field j density s1;;
    f2 <- jastrow_field j density s2;;
    if (d s1 =? 0) && (d s2 =? 1) then Ok (exp (f1 - f2))
    else if (d s1 =? 1) && (d s2 =? 0) then Ok (exp (f2 - f1))
    else Fail Throw.
(** square_tJ_model.h:395-405 and 506-516: the same ratio chosen by the state of the first site
    (2 is the empty state). *)
Definition solver_jastrow_ratio (j : jastrow) (density : nat -> nat -> nat) (s1 s2 : site) (config1 : nat) : res R :=
  f1 <- jastrow_field j density s1;;
  f2 <- jastrow_field j density s2;;
  Ok (exp (if config1 =? 2 then f1 - f2 else f2 - f1))%R.
(** square_nn_updater.h:384-438: one move of the dressed t-J updater on configuration and
    densities. [psi_b], [psi_a]: the two PEPS amplitudes; [u]: the uniform number drawn. *)
Definition jastrow_tj_move (j : jastrow) (psi_a psi_b : C) (u : R) (s1 s2 : site)
    (st : (nat -> nat -> nat) * (nat -> nat -> nat)) : res (bool * ((nat -> nat -> nat) * (nat -> nat -> nat))) :=
  let (cfg, density) := st in
  let c s := cfg (fst s) (snd s) in
  let d s := density (fst s) (snd s) in
  if c s1 =? c s2 then Ok (false, st)
  else
    r <- updater_jastrow_ratio j density s1 s2;;
    let abs_ratio := (sqrt (Cnorm2 (psi_b * RtoC r)%C) / sqrt (Cnorm2 psi_a))%R in
    if (if Rle_dec 1 abs_ratio then true else if Rlt_dec u (abs_ratio * abs_ratio) then true else false)
    then Ok (true, (upd2 (upd2 cfg s1 (c s2)) s2 (c s1), upd2 (upd2 density s1 (d s2)) s2 (d s1)))
    else Ok (false, st).
