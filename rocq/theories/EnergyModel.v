(** Local energies: the solvers' callbacks on bonds, plaquette diagonals and sites, and the
    evaluators that call them along the contraction programs of [SweepModel]. *)
From Coq Require Import List Arith Lia Bool Reals.
From Verif Require Import Base ContractorModel SweepModel Cplx.
Import ListNotations.
Local Open Scope nat_scope.

(** Sites a callback is invoked on, first and second (square_nnn_energy_solver.h:138, 145, 193-222;
    spin_onehalf_triangle_heisenbergJ1J2_sqrpeps.h). *)
Definition sites_of (v : visit) : list site :=
  match v with
  | VBond d s => [s; site_shift d s 1]
  | VDiag g s => let (a, b) := corners HORIZONTAL s 2 g in [a; b]
  | VFar d g s => let (a, b) := corners d s 3 g in [a; b]
  | VHole s | VSite s => [s]
  end.

(** What a model supplies: the contribution of one visit, from the local states at its sites,
    [inv_psi] (absent in the fermionic evaluators), the amplitude traced in the visited window,
    and the amplitudes of replacements in that window; and the on-site total. (the functions a solver must offer, base/square_nnn_energy_solver.h:160-260, 283-311) *)
Record model := mkModel {
  m_visit : visit -> list nat -> option C -> C -> (list nat -> C) -> res C;
  m_onsite : nat -> nat -> (nat -> nat -> nat) -> res C
}.

Section Evaluate.
Context (o : ops) (val : Amp o -> C).

(** Accumulators: inv_psi, bond_energy_set, psi_list, hole_res. (base/square_nnn_energy_solver.h:91-97, 145-152) *)
Record acc := mkAcc { a_inv : option C; a_energies : list C; a_psis : list C; a_holes : list (site * Hole o) }.

(** bmps_contractor_trace.h: the traces a callback may take in its window. The network [n] is
    the current one; [f] overrides it at the replaced sites. (impl/bmps_contractor_trace.h:208-260) *)
Definition second_layer (d : orient) (s : site) : site :=
  match d with HORIZONTAL => (fst s + 1, snd s) | VERTICAL => (fst s, snd s + 1) end.
(** impl/bmps_contractor_trace.h:208-325, 426-536 *)
Definition layer_pairs (n : net o) (d : orient) (s : site) (w : nat) : list (Ten o * Ten o) :=
  map (fun k => let a := site_shift d s k in let b := second_layer d a in
                (n (fst a) (snd a), n (fst b) (snd b))) (seq 0 w).
(** impl/bmps_contractor_trace.h:12-206, 208-325, 426-536 *)
Definition trace_win (n : net o) (q : query) (x : win o) : option (Amp o) :=
  match q, x with
  | Q1 d s k, W1 (ms, e1, e2) => Some (tr1 o d ms (map (fun y => n (fst y) (snd y)) (chain d s k)) e1 e2)
  | Q2 d s k, W2 (ms, e1, e2) => Some (tr2 o d ms (layer_pairs n d s k) e1 e2)
  | _, _ => None
  end.
(** The network with the tensors of [sites] replaced by those of the local states [ns]. (arguments of the Replace*Trace calls, impl/bmps_contractor_trace.h:31-536) *)
Definition substituted (tps : sitps o) (n : net o) (sites : list site) (ns : list nat) : net o :=
  fold_left (fun n' sn => upd2 n' (fst sn) (tps (fst (fst sn)) (snd (fst sn)) (snd sn))) (combine sites ns) n.

(** comparison with 0, square_hubbard_model.h:190-240 *)
Definition is_zero (z : C) : bool := if Ceq_dec z (RtoC 0) then true else false.

(** square_nnn_energy_solver.h:122-127, bond_traversal_mixin.h:70-75, 121-126 (zero amplitudes
    throw), transverse_field_ising_square_obc.h:225-227 (they do not, and the division yields
    inf: modelled as undefined). *)
Definition on_trace (checked : bool) (psi : C) (a : acc) : res acc :=
  if is_zero psi then Fail (if checked then Throw else UB)
  else Ok (mkAcc (Some (Cinv psi)) (a_energies a) (a_psis a ++ [psi]) (a_holes a)).

(** square_nnn_energy_solver.h:130-226, 283-310. The two diagonals of a plaquette enter the sum
    as two terms (the code adds them before storing); [hole_res(site) = Dag(PunchHole)] is
    stored without the [Dag]. *)
Definition on_visit (M : model) (tps : sitps o) (rows cols : nat) (cfg : nat -> nat -> nat) (n : net o)
    (v : visit) (x : win o) (a : acc) : res acc :=
  let sites := sites_of v in
  if forallb (in_lattice rows cols) sites then
    match v, x with
    | VHole s, W1 ([(m1, m2)], e1, e2) =>
        Ok (mkAcc (a_inv a) (a_energies a) (a_psis a) (a_holes a ++ [(s, hole_of o HORIZONTAL m1 m2 e1 e2)]))
    | VHole s, _ => Fail UB
    | _, _ =>
        match trace_win n (query_of v) x with
        | None => Fail UB
        | Some p =>
            e <- m_visit M v (map (fun y => cfg (fst y) (snd y)) sites) (a_inv a) (val p)
                   (fun ns => match trace_win (substituted tps n sites ns) (query_of v) x with
                              | Some q => val q | None => RtoC 0 end) ;;
            Ok (mkAcc (a_inv a) (a_energies a ++ [e]) (a_psis a) (a_holes a))
        end
    end
  else Fail UB.

(** The evaluator's reaction to the environments it reads: a trace alone, or a visit. (base/square_nnn_energy_solver.h:134-318, base/bond_traversal_mixin.h:40-140) *)
Fixpoint evaluate (M : model) (checked : bool) (tps : sitps o) (rows cols : nat) (cfg : nat -> nat -> nat)
    (lg : list (event o)) (a : acc) : res acc :=
  match lg with
  | [] => Ok a
  | Read n q x :: Visited v :: lg' =>
      a' <- on_visit M tps rows cols cfg n v x a ;; evaluate M checked tps rows cols cfg lg' a'
  | Read n q x :: lg' =>
      match trace_win n q x with
      | None => Fail UB
      | Some p => a' <- on_trace checked (val p) a ;; evaluate M checked tps rows cols cfg lg' a'
      end
  | _ :: _ => Fail UB
  end.

(** Result of an evaluator: energy, holes, list of traced amplitudes. The contraction program
    does not depend on the values computed, so it is run first and the callbacks are applied
    to what it reads. [std::reduce] is a sum. (base/square_nnn_energy_solver.h:82-102) *)
Record energy_result := mkER { e_total : C; e_holes : list (site * Hole o); e_psis : list C }.
(** base/square_nnn_energy_solver.h:82-102 *)
Definition energy_of {Rng} (M : model) (checked : bool) (tps : sitps o) (ker : kernel o Rng) (rows cols : nat)
    (prog : list cmd) (w : wst o Rng) : res (wst o Rng * energy_result) :=
  r <- run o tps ker prog w ;;
  a <- evaluate M checked tps rows cols (cfg w) (snd r) (mkAcc None [] [] []) ;;
  s <- m_onsite M rows cols (cfg w) ;;
  Ok (fst r, mkER (sumC (fun e => e) (a_energies a) + s)%C (a_holes a) (a_psis a)).
End Evaluate.
Arguments mkAcc {o}. Arguments a_inv {o}. Arguments a_energies {o}. Arguments a_psis {o}. Arguments a_holes {o}.
Arguments mkER {o}. Arguments e_total {o}. Arguments e_holes {o}. Arguments e_psis {o}.

Local Open Scope R_scope.

(** *** Spin-1/2 XXZ with next-nearest neighbours, square_spin_onehalf_xxz_obc.h:64-159 *)
(** 136: CalSpinSzImpl *)
Definition spin_z (c : nat) : R := INR c - 1 / 2.
(** 83-103 and 117-133: the same formula with the couplings of the bond. *)
Definition xxz_term (jz jxy : R) (cs : list nat) (inv_psi : option C) (tr : list nat -> C) : res C :=
  match cs with
  | [c1; c2] =>
      if (c1 =? c2)%nat then Ok (RtoC (1 / 4 * jz))
      else match inv_psi with
           | None => Fail UB
           | Some i => let ratio := Cconj (tr [c2; c1] * i)%C in
                       Ok (RtoC (- (1 / 4) * jz) + ratio * RtoC (1 / 2) * RtoC jxy)%C
           end
  | _ => Fail UB
  end.
Definition xxz_model (jz jxy jz2 jxy2 pinning00 : R) : model :=
  mkModel (fun v cs inv_psi psi tr =>
             match v with
             | VBond _ _ => xxz_term jz jxy cs inv_psi tr
             | VDiag _ _ => xxz_term jz2 jxy2 cs inv_psi tr
             | _ => Fail UB
             end)
          (* 138-140: EvaluateTotalOnsiteEnergy *)
          (fun rows cols c => Ok (RtoC (- pinning00 * spin_z (c 0%nat 0%nat)))).
(** SquareSpinOneHalfXXZModelOBC (no diagonals) and SquareSpinOneHalfJ1J2XXZModelOBC; (square_spin_onehalf_xxz_obc.h:60-140, 180-190; base/square_nnn_energy_solver.h:82-318) *)
Definition xxz_obc {o Rng} (val : Amp o -> C) (jz jxy pinning00 : R) (holes : bool) (tps : sitps o)
    (ker : kernel o Rng) (rows cols : nat) (w : wst o Rng) :=
  energy_of o val (xxz_model jz jxy 0 0 pinning00) true tps ker rows cols (cal_energy_and_holes holes false rows cols) w.
(** square_spin_onehalf_j1j2_xxz_obc.h:30-60; base/square_nnn_energy_solver.h:82-318 *)
Definition j1j2_xxz_obc {o Rng} (val : Amp o -> C) (jz jxy jz2 jxy2 pinning00 : R) (holes : bool) (tps : sitps o)
    (ker : kernel o Rng) (rows cols : nat) (w : wst o Rng) :=
  energy_of o val (xxz_model jz jxy jz2 jxy2 pinning00) true tps ker rows cols (cal_energy_and_holes holes true rows cols) w.

(** *** Transverse-field Ising, transverse_field_ising_square_obc.h *)
(** 161-182: CalDiagTermEnergy *)
Definition tfim_diag (rows cols : nat) (c : nat -> nat -> nat) : R :=
  let e a b := if (c (fst a) (snd a) =? c (fst b) (snd b))%nat then -1 else 1 in
  let sum l := fold_left Rplus l 0 in
  sum (for_ 0 rows (fun row => for_ 0 (cols - 1) (fun col => [e (row, col) (row, col + 1)%nat])) ++
       for_ 0 cols (fun col => for_ 0 (rows - 1) (fun row => [e (row, col) (row + 1, col)%nat]))).
(** 191-204: EvaluateOnSiteOffDiagEnergy. [1 - config] is [size_t]. *)
Definition tfim_model (h : R) : model :=
  mkModel (fun v cs inv_psi psi tr =>
             match v, cs with
             | VSite _, [c] =>
                 c' <- usub 1 c ;;
                 match inv_psi with
                 | None => Fail UB
                 | Some i => Ok (RtoC (- h) * Cconj (tr [c'] * i))%C
                 end
             | _, _ => Fail UB
             end)
          (fun rows cols c => Ok (RtoC (tfim_diag rows cols c))).
(** transverse_field_ising_square_obc.h:150-251 *)
Definition tfim_obc {o Rng} (val : Amp o -> C) (h : R) (holes : bool) (tps : sitps o)
    (ker : kernel o Rng) (rows cols : nat) (w : wst o Rng) :=
  energy_of o val (tfim_model h) false tps ker rows cols (cal_tfim holes rows cols) w.

(** *** Fermions: the amplitude is traced in the window of each bond *)
(** psi_ex / psi, conjugated; psi = 0 yields inf or nan (undefined here) except where the code
    stops the program. (square_spin_onehalf_xxz_obc.h:73-135) *)
Definition ratio (psi x : C) : res C := if is_zero psi then Fail UB else Ok (Cconj (x / psi)%C).

(** square_hubbard_model.h:190-259. States: 0 both, 1 up, 2 down, 3 empty. *)
Definition hubbard_bond (t : R) (cs : list nat) (psi : C) (tr : list nat -> C) : res C :=
  match cs with
  | [c1; c2] =>
      if (c1 =? c2)%nat then Ok (RtoC 0)
      else
        let single c := (c =? 1)%nat || (c =? 2)%nat in
        if (c1 =? 3)%nat && single c2 || (c2 =? 3)%nat && single c1 then
          r <- ratio psi (tr [c2; c1]) ;; Ok (RtoC (- t) * r)%C
        else if (c1 =? 0)%nat && single c2 || (c2 =? 0)%nat && single c1 then
          r <- ratio psi (tr [c2; c1]) ;; Ok (RtoC t * r)%C
        else if (c1 =? 1)%nat && (c2 =? 2)%nat then
          r1 <- ratio psi (tr [3; 0]%nat) ;; r2 <- ratio psi (tr [0; 3]%nat) ;; Ok (RtoC (- t) * (r1 + r2))%C
        else if (c1 =? 2)%nat && (c2 =? 1)%nat then
          r1 <- ratio psi (tr [3; 0]%nat) ;; r2 <- ratio psi (tr [0; 3]%nat) ;; Ok (RtoC t * (r1 + r2))%C
        else
          r1 <- ratio psi (tr [1; 2]%nat) ;; r2 <- ratio psi (tr [2; 1]%nat) ;; Ok (RtoC (- t) * r1 + RtoC t * r2)%C
  | _ => Fail UB
  end.
(** square_hubbard_model.h:98-115 *)
Definition count (p : nat -> bool) (rows cols : nat) (c : nat -> nat -> nat) : nat :=
  length (filter p (for_ 0 rows (fun r => for_ 0 cols (fun k => [c r k])))).
(** square_hubbard_model.h:101-116 *)
Definition hubbard_onsite (U mu : R) (rows cols : nat) (c : nat -> nat -> nat) : C :=
  let num_double := count (fun x => x =? 0)%nat rows cols c in
  let num_single := count (fun x => (x =? 1) || (x =? 2))%nat rows cols c in
  RtoC (U * INR num_double + (- mu) * INR (num_double * 2 + num_single)).
(** square_hubbard_model.h:84-116, 190-260 *)
Definition hubbard_model (t U mu : R) : model :=
  mkModel (fun v cs _ psi tr => match v with VBond _ _ => hubbard_bond t cs psi tr | _ => Fail UB end)
          (fun rows cols c => Ok (hubbard_onsite U mu rows cols c)).

(** square_spinless_fermion.h:134-221. States: 0 occupied, 1 empty. *)
Definition spinless_density (c : nat) : R := 1 - INR c.
(** square_spinless_fermion.h:135-175 *)
Definition spinless_bond (t V : R) (cs : list nat) (psi : C) (tr : list nat -> C) : res C :=
  match cs with
  | [c1; c2] =>
      let e := RtoC (V * spinless_density c1 * spinless_density c2) in
      if (c1 =? c2)%nat then Ok e
      else r <- ratio psi (tr [c2; c1]) ;; Ok (RtoC (- t) * r + e)%C
  | _ => Fail UB
  end.
(** square_spinless_fermion.h:178-212 *)
Definition spinless_nnn (t2 : R) (cs : list nat) (psi : C) (tr : list nat -> C) : res C :=
  match cs with
  | [c1; c2] =>
      if (c1 =? c2)%nat then Ok (RtoC 0)
      else r <- ratio psi (tr [c2; c1]) ;; Ok (RtoC (- t2) * r)%C
  | _ => Fail UB
  end.
(** square_spinless_fermion.h:57-85, 135-212 *)
Definition spinless_model (t t2 V : R) : model :=
  mkModel (fun v cs _ psi tr => match v with
                                | VBond _ _ => spinless_bond t V cs psi tr
                                | VDiag _ _ => spinless_nnn t2 cs psi tr
                                | _ => Fail UB end)
          (fun rows cols c => Ok (RtoC 0)).

(** square_tJ_model.h:101-134 SetSingletPairPinningField (finite delta): the stored bond starts
    at its left or upper end. *)
Definition set_pinning (a b : site) (delta : R) : res (orient * site * R) :=
  let dist x y := if (y <? x)%nat then (x - y)%nat else (y - x)%nat in
  let dr := dist (fst a) (fst b) in let dc := dist (snd a) (snd b) in
  if negb (dr + dc =? 1)%nat then Fail Throw
  else if (dr =? 0)%nat then Ok (HORIZONTAL, (if (snd b <? snd a)%nat then b else a), delta)
  else Ok (VERTICAL, (if (fst b <? fst a)%nat then b else a), delta).
(** comparison of orientations, square_tJ_model.h:260-276 *)
Definition orient_eqb (a b : orient) : bool :=
  match a, b with HORIZONTAL, HORIZONTAL | VERTICAL, VERTICAL => true | _, _ => false end.
(** 238-243: IsPinnedSingletPairBond_ *)
Definition pinned (p : option (orient * site * R)) (d : orient) (s : site) : option R :=
  match p with
  | Some (d', s', delta) => if orient_eqb d' d && site_eqb s' s then Some delta else None
  | None => None
  end.
(** 547-612: EvaluateBondSingletPairFortJModelWithPsi, (delta_dag, delta) *)
Definition singlet_pair (cs : list nat) (psi : C) (tr : list nat -> C) : res (C * C) :=
  let ratio x := if is_zero psi then Fail Throw else Ok (Cconj (x / psi)%C) in
  match cs with
  | [2; 2]%nat => r1 <- ratio (tr [0; 1]%nat) ;; r2 <- ratio (tr [1; 0]%nat) ;;
              Ok (((r1 - r2) / RtoC (sqrt 2))%C, RtoC 0)
  | [0; 1]%nat => r <- ratio (tr [2; 2]%nat) ;; Ok (RtoC 0, (r / RtoC (sqrt 2))%C)
  | [1; 0]%nat => r <- ratio (tr [2; 2]%nat) ;; Ok (RtoC 0, (- r / RtoC (sqrt 2))%C)
  | _ => Ok (RtoC 0, RtoC 0)
  end.
(** 292-350: EvaluateBondEnergy, without and with the pinning term. States: 0 up, 1 down, 2 empty.
    psi = 0 terminates the program (modelled by [Throw]). *)
Definition tj_plain (t J V : R) (cs : list nat) (psi : C) (tr : list nat -> C) : res C :=
  match cs with
  | [c1; c2] =>
      if (c1 =? c2)%nat then Ok (if (c1 =? 2)%nat then RtoC 0 else RtoC V)
      else if is_zero psi then Fail Throw
      else
        let r := Cconj (tr [c2; c1] / psi)%C in
        if (c1 =? 2)%nat || (c2 =? 2)%nat then Ok (RtoC (- t) * r)%C
        else Ok ((RtoC (- (1 / 2)) + r * RtoC (1 / 2)) * RtoC J + RtoC V)%C
  | _ => Fail UB
  end.
(** square_tJ_model.h:354-420 *)
Definition tj_bond (t J V : R) (pin : option (orient * site * R)) (d : orient) (s : site)
    (cs : list nat) (psi : C) (tr : list nat -> C) : res C :=
  e <- tj_plain t J V cs psi tr ;;
  match pinned pin d s with
  | None => Ok e
  | Some delta => p <- singlet_pair cs psi tr ;; Ok (e + RtoC delta * (fst p + snd p))%C
  end.
(** 412-460: EvaluateNNNEnergy *)
Definition tj_nnn (t2 : R) (cs : list nat) (psi : C) (tr : list nat -> C) : res C :=
  match cs with
  | [c1; c2] =>
      if Req_EM_T t2 0 then Ok (RtoC 0)
      else if (c1 =? c2)%nat || negb (c1 =? 2)%nat && negb (c2 =? 2)%nat then Ok (RtoC 0)
      else r <- ratio psi (tr [c2; c1]) ;; Ok (RtoC (- t2) * r)%C
  | _ => Fail UB
  end.
(** 205-219, 228-237: EvaluateTotalOnsiteEnergy *)
Definition tj_onsite (mu : R) (pin : option (orient * site * R)) (rows cols : nat) (c : nat -> nat -> nat) : res C :=
  let bad := match pin with
             | Some (d, s, _) => negb (in_lattice rows cols s && in_lattice rows cols (site_shift d s 1))
             | None => false
             end in
  if bad then Fail Throw
  else Ok (RtoC (- mu * INR (count (fun x => negb (x =? 2)%nat) rows cols c))).
(** square_tJ_model.h:141-300, 354-520 *)
Definition tj_model (t t2 J V mu : R) (pin : option (orient * site * R)) : model :=
  mkModel (fun v cs _ psi tr => match v with
                                | VBond d s => tj_bond t J V pin d s cs psi tr
                                | VDiag _ _ => tj_nnn t2 cs psi tr
                                | _ => Fail UB end)
          (tj_onsite mu pin).

(** Evaluators of the fermionic models. (base/square_nnn_energy_solver.h:82-318, fermionic branches) *)
Definition fermion_energy {o Rng} (val : Amp o -> C) (M : model) (nnn holes : bool) (tps : sitps o)
    (ker : kernel o Rng) (rows cols : nat) (w : wst o Rng) :=
  energy_of o val M true tps ker rows cols (cal_energy_fermion holes nnn rows cols) w.
