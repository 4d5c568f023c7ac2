(** Energies of the periodic solvers: loops over the sites of the torus. *)
From Coq Require Import List Arith Bool Reals.
From Verif Require Import Base ContractorModel SweepModel Cplx EnergyModel.
Import ListNotations.
Local Open Scope nat_scope.

Section Pbc.
Context (T : Type).
(** TRGContractor::Trace and EvaluateReplacement, as a function of the network's tensors. *)
Context (contract : (nat -> nat -> T) -> C) (tps : nat -> nat -> nat -> T).

(** trg_contractor_impl.h:721-741: amplitude of the network with some tensors replaced (a map
    from nodes to tensors: the last entry of a site wins). The incremental evaluation itself is
    the subject of TrgModel. *)
Definition evaluate_replacement (tn : nat -> nat -> T) (rs : list (site * nat)) : C :=
  contract (fold_left (fun n sn => upd2 n (fst sn) (tps (fst (fst sn)) (snd (fst sn)) (snd sn))) rs tn).

(** square_spin_onehalf_j1j2_xxz_pbc.h:264-293 EvaluateCouplingEnergy_;
    heisenberg_square_pbc.h:251-281 EvaluateBondEnergy_ *)
Definition pbc_coupling (jz jxy : R) (cfg : nat -> nat -> nat) (tn : nat -> nat -> T) (inv_psi : C) (s1 s2 : site) : C :=
  let c1 := cfg (fst s1) (snd s1) in
  let c2 := cfg (fst s2) (snd s2) in
  (RtoC (jz * spin_z c1 * spin_z c2) +
   (if c1 =? c2 then RtoC 0
    else RtoC (1 / 2 * jxy) * Cconj (evaluate_replacement tn [(s1, c2); (s2, c1)] * inv_psi)))%C.

(** square_spin_onehalf_j1j2_xxz_pbc.h:88-117 (lines of CalEnergyAndHolesImpl): neighbours of a site. *)
Definition site_right (lx : nat) (s : site) : site := (fst s, (snd s + 1) mod lx).
(** square_spin_onehalf_j1j2_xxz_pbc.h:95 *)
Definition site_down (ly : nat) (s : site) : site := ((fst s + 1) mod ly, snd s).
(** square_spin_onehalf_j1j2_xxz_pbc.h:103 *)
Definition site_dr (ly lx : nat) (s : site) : site := ((fst s + 1) mod ly, (snd s + 1) mod lx).
(** square_spin_onehalf_j1j2_xxz_pbc.h:104 *)
Definition site_dl (ly lx : nat) (s : site) : site := ((fst s + 1) mod ly, (snd s + lx - 1) mod lx).
(** 249-251 HasNNNInteraction_ *)
Definition has_nnn (jz2 jxy2 : R) : bool :=
  negb ((if Req_EM_T jz2 0 then true else false) && (if Req_EM_T jxy2 0 then true else false)).
(** 253-261 EvaluateTotalOnsiteEnergy_ *)
Definition pbc_onsite (pinning00 : R) (cfg : nat -> nat -> nat) : C :=
  if Req_EM_T pinning00 0 then RtoC 0 else RtoC (- pinning00 * spin_z (cfg 0 0)).
(** 57-117 CalEnergyAndHolesImpl (energy only). [1/psi] for [psi = 0] is inf: undefined here. *)
Definition pbc_xxz_energy (jz1 jxy1 jz2 jxy2 pinning00 : R) (periodic : bool) (ly lx : nat)
    (cfg : nat -> nat -> nat) (tn : nat -> nat -> T) : res C :=
  if negb periodic then Fail Throw
  else
    let psi := contract tn in
    if is_zero psi then Fail UB
    else
      let inv_psi := Cinv psi in
      let e := pbc_coupling jz1 jxy1 cfg tn inv_psi in
      let e2 := pbc_coupling jz2 jxy2 cfg tn inv_psi in
      Ok (sumC (fun x => x)
            (for_ 0 ly (fun row => for_ 0 lx (fun col =>
               let s := (row, col) in
               [e s (site_right lx s); e s (site_down ly s)] ++
               (if has_nnn jz2 jxy2 then [e2 s (site_dr ly lx s); e2 s (site_dl ly lx s)] else [])))) +
          pbc_onsite pinning00 cfg)%C.
(** heisenberg_square_pbc.h:63-128: nearest neighbours only, no pinning. *)
Definition pbc_heisenberg_energy (jz jxy : R) (periodic : bool) (ly lx : nat)
    (cfg : nat -> nat -> nat) (tn : nat -> nat -> T) : res C :=
  if negb periodic then Fail Throw
  else
    let psi := contract tn in
    if is_zero psi then Fail UB
    else
      let e := pbc_coupling jz jxy cfg tn (Cinv psi) in
      Ok (sumC (fun x => x)
            (for_ 0 ly (fun row => for_ 0 lx (fun col =>
               let s := (row, col) in [e s (site_right lx s); e s (site_down ly s)])))).

(** transverse_field_ising_square_pbc.h:53-115. The hole of PunchAllHoles contracted with the
    tensor of the flipped spin is taken as the amplitude of the replaced network; [1 - s] is
    [size_t]. *)
Definition pbc_tfim_energy (h : R) (periodic : bool) (ly lx : nat)
    (cfg : nat -> nat -> nat) (tn : nat -> nat -> T) : res C :=
  if negb periodic then Fail Throw
  else
    let psi := contract tn in
    if is_zero psi then Fail UB
    else
      let d a b := if cfg (fst a) (snd a) =? cfg (fst b) (snd b) then RtoC (-1) else RtoC 1 in
      let diag := sumC (fun x => x)
            (for_ 0 ly (fun row => for_ 0 lx (fun col =>
               let s := (row, col) in [d s (site_right lx s); d s (site_down ly s)]))) in
      let ex := sumC (fun x => x)
            (for_ 0 ly (fun row => for_ 0 lx (fun col =>
               let s := (row, col) in
               [(RtoC (- h) * Cconj (evaluate_replacement tn [(s, (1 - cfg row col)%nat)] * Cinv psi))%C]))) in
      if forallb (fun x => x) (for_ 0 ly (fun row => for_ 0 lx (fun col => [cfg row col <=? 1])))
      then Ok (diag + ex)%C else Fail UB.
End Pbc.
