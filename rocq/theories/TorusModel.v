(** Components of a periodic wave function: configuration, network, TRG contractor and amplitude, the updaters that move them, and the
    energies taken from them. *)
From Coq Require Import List Arith Bool Reals.
From Verif Require Import Base Cplx ContractorModel SweepModel UpdaterModel EnergyModel TrgModel TrgTensor PbcModel.
Import ListNotations.
Local Open Scope nat_scope.

Section Component.
Context (o : trg_ops) (Rng : Type) (n : nat) (p : Prm o) (tps : nat -> nat -> nat -> TrgModel.Ten o).
(** wave_function_component.h:348-353 the members; trun_para is [p] and does not change, the dress has no effect here *)
Record comp := mkComp { k_cfg : nat -> nat -> nat; k_tn : nat -> nat -> TrgModel.Ten o; k_trg : trg o; k_amp : Num o }.
(** wave_function_component.h:160 TensorNetwork2D(sitps, config) *)
Definition project_net (c : nat -> nat -> nat) : nat -> nat -> TrgModel.Ten o := fun r k => tps r k (c r k).
(** 187-213 EvaluateAmplitude, the branch without boundary MPSs; the warning is not modelled *)
Definition evaluate_amplitude (c : nat -> nat -> nat) (X : nat -> nat -> TrgModel.Ten o) (t : trg o) : res comp :=
  x <- trace o (set_params o t p) (mkNet n n true X);; Ok (mkComp c X (fst x) (snd x)).
(** 156-163 constructor; the contractor is made without parameters *)
Definition build (c : nat -> nat -> nat) : res comp :=
  let X := project_net c in
  t <- init o (mkTrg n n false false (anew 0 true) [] None) (mkNet n n true X);; evaluate_amplitude c X t.
(** 180-185 ReplaceGlobalConfig *)
Definition replace_global (w : comp) (c : nat -> nat -> nat) : res comp :=
  let X := project_net c in
  t <- init o (k_trg w) (mkNet n n true X);; evaluate_amplitude c X t.
(** the replacements that go with new states (square_nn_updater.h:214-217, 332-335) *)
Definition reps_of (news : list (site * nat)) : list (nat * nat * TrgModel.Ten o) := map (fun sn => (fst sn, tps (fst (fst sn)) (snd (fst sn)) (snd sn))) news.
(** 231-251 BeginTrial *)
Definition begin_component (w : comp) (news : list (site * nat)) : res (comp * trial o) :=
  let t := set_params o (k_trg w) p in
  tr <- begin_trial o t (reps_of news);; Ok (mkComp (k_cfg w) (k_tn w) t (k_amp w), tr).
(** 256-303 AcceptTrial, with CommitTrial; UpdateSiteTensor: tensor_network_2d_basic_impl.h *)
Definition accept_component (w : comp) (tr : trial o) (news : list (site * nat)) : res comp :=
  t <- commit_trial o (k_trg w) tr;;
  Ok (mkComp (set_sites (k_cfg w) news)
             (fold_left (fun X sn => upd2 X (fst sn) (tps (fst (fst sn)) (snd (fst sn)) (snd sn))) news (k_tn w)) t (tr_amp tr)).
(** what a move returns: the component, the random engine, and whether it was accepted (square_nn_updater.h:243) *)
Definition moved : Type := comp * Rng * bool.
(** square_nn_updater.h:196-245 MCUpdateSquareNNExchangePBC; [accept]: the Metropolis test (227-236) *)
Definition exchange_trg (accept : Num o -> Num o -> Rng -> bool * Rng) (s1 s2 : site) (w : comp) (g : Rng) : res moved :=
  let c1 := k_cfg w (fst s1) (snd s1) in
  let c2 := k_cfg w (fst s2) (snd s2) in
  if c1 =? c2 then Ok (w, g, false)
  else
    let news := [(s1, c2); (s2, c1)] in
    x <- begin_component w news;;
    let (ok, g') := accept (k_amp w) (tr_amp (snd x)) g in
    if ok then w' <- accept_component (fst x) (snd x) news;; Ok (w', g', true) else Ok (fst x, g', false).
(** square_nn_updater.h:304-372 MCUpdateSquareNNFullSpaceUpdatePBC; [choose]: the weights and SuwaTodoStateUpdate (347-353). The two nested
    loops run over the states c1 * dim + c2 in ascending order. *)
Definition full_space_trg (dim : nat) (choose : nat -> list (Num o) -> Rng -> nat * Rng) (s1 s2 : site) (w : comp) (g : Rng) : res moved :=
  let init := k_cfg w (fst s1) (snd s1) * dim + k_cfg w (fst s2) (snd s2) in
  let news := fun state => [(s1, state / dim); (s2, state mod dim)] in
  x <- foreach (seq 0 (dim * dim)) (w, []) (fun st state =>
         if state =? init then Ok (fst st, snd st ++ [None])
         else y <- begin_component (fst st) (news state);; Ok (fst y, snd st ++ [Some (snd y)]));;
  let psis := map (fun tr => match tr with Some tr => tr_amp tr | None => k_amp w end) (snd x) in
  let (final, g') := choose init psis g in
  if final =? init then Ok (fst x, g', false)
  else match nth final (snd x) None with
       | Some tr => w' <- accept_component (fst x) tr (news final);; Ok (w', g', true)
       | None => Ok (fst x, g', true)
       end.
(** square_nn_updater.h:94-128 the sweep; [draw]: row, column and direction (113-115) *)
Fixpoint sweep_trg (move : site -> site -> comp -> Rng -> res moved) (draw : Rng -> (site * orient) * Rng) (bonds : nat) (w : comp) (g : Rng) (accepted : nat) : res (comp * Rng * nat) :=
  match bonds with
  | 0 => Ok (w, g, accepted)
  | S b =>
      let (x, g1) := draw g in
      y <- move (fst x) (pbc_partner n n (snd x) (fst x)) w g1;;
      let '(w', g', ok) := y in
      sweep_trg move draw b w' g' (if ok then S accepted else accepted)
  end.
(** square_nn_updater.h:102-104, 111: rows * cols * 2 bonds *)
Definition sweep_nn_trg (move : site -> site -> comp -> Rng -> res moved) (draw : Rng -> (site * orient) * Rng) (w : comp) (g : Rng) : res (comp * Rng * nat) :=
  sweep_trg move draw (n * n * 2) w g 0.
End Component.
Arguments mkComp {o}. Arguments k_cfg {o}. Arguments k_tn {o}. Arguments k_trg {o}. Arguments k_amp {o}.

(** *** Energies *)
Section Energy.
Context (svd : trunc -> tensor -> tensor * list R * tensor) (n : nat) (p : trunc) (tps : nat -> nat -> nat -> tensor).
Let o := tensor_ops svd.
(** square_spin_onehalf_j1j2_xxz_pbc.h:264-293, heisenberg_square_pbc.h:251-281: a coupling between two sites *)
Definition trg_coupling (cfg : nat -> nat -> nat) (t : trg o) (inv_psi : C) (q : R * R * (site * site)) : res C :=
  let '((jz, jxy), (s1, s2)) := q in
  let c1 := cfg (fst s1) (snd s1) in
  let c2 := cfg (fst s2) (snd s2) in
  let diag := RtoC (jz * spin_z c1 * spin_z c2) in
  if c1 =? c2 then Ok (diag + RtoC 0)%C
  else z <- TrgModel.evaluate_replacement o t (reps_of o tps [(s1, c2); (s2, c1)]);;
       Ok (diag + RtoC (1 / 2 * jxy) * Cconj (z * inv_psi))%C.
(** the couplings in the order of the loops: square_spin_onehalf_j1j2_xxz_pbc.h:88-111 *)
Definition couplings (jz1 jxy1 jz2 jxy2 : R) : list (R * R * (site * site)) :=
  for_ 0 n (fun row => for_ 0 n (fun col => let s := (row, col) in
    [((jz1, jxy1), (s, site_right n s)); ((jz1, jxy1), (s, site_down n s))] ++
    (if has_nnn jz2 jxy2 then [((jz2, jxy2), (s, site_dr n n s)); ((jz2, jxy2), (s, site_dl n n s))] else []))).
(** square_spin_onehalf_j1j2_xxz_pbc.h:57-117 CalEnergyAndHolesImpl without holes; [1/psi] for [psi = 0] is inf: undefined here *)
Definition trg_xxz_energy (jz1 jxy1 jz2 jxy2 pinning00 : R) (w : comp o) : res (comp o * C) :=
  x <- trace o (set_params o (k_trg w) p) (mkNet n n true (k_tn w));;
  if is_zero (snd x) then Fail UB
  else
    e <- foreach (couplings jz1 jxy1 jz2 jxy2) (RtoC 0) (fun e q => y <- trg_coupling (k_cfg w) (fst x) (Cinv (snd x)) q;; Ok (e + y)%C);;
    Ok (mkComp (k_cfg w) (k_tn w) (fst x) (k_amp w), (e + pbc_onsite pinning00 (k_cfg w))%C).
(** heisenberg_square_pbc.h:63-128 CalEnergyAndHolesImpl: the same loops, nearest neighbours only and no pinning *)
Definition trg_heisenberg_energy (jz jxy : R) (w : comp o) : res (comp o * C) :=
  x <- trace o (set_params o (k_trg w) p) (mkNet n n true (k_tn w));;
  if is_zero (snd x) then Fail UB
  else
    e <- foreach (for_ 0 n (fun row => for_ 0 n (fun col => let s := (row, col) in [((jz, jxy), (s, site_right n s)); ((jz, jxy), (s, site_down n s))])))
           (RtoC 0) (fun e q => y <- trg_coupling (k_cfg w) (fst x) (Cinv (snd x)) q;; Ok (e + y)%C);;
    Ok (mkComp (k_cfg w) (k_tn w) (fst x) (k_amp w), e).
(** transverse_field_ising_square_pbc.h:53-121 CalEnergyAndHolesImpl without holes: the flipped spin comes from the holes of PunchAllHoles.
    Contract of all four legs: as [nsum] over the shape of the first tensor. [1 - s] of a state above one is an index out of range. *)
Definition trg_tfim_energy (h : R) (w : comp o) : res (comp o * C) :=
  x <- trace o (set_params o (k_trg w) p) (mkNet n n true (k_tn w));;
  if is_zero (snd x) then Fail UB
  else
    let cfg := k_cfg w in
    let d a b := if cfg (fst a) (snd a) =? cfg (fst b) (snd b) then RtoC (-1) else RtoC 1 in
    let diag := sumC (fun x => x) (for_ 0 n (fun row => for_ 0 n (fun col => let s := (row, col) in [d s (site_right n s); d s (site_down n s)]))) in
    H <- punch_all_holes o (fst x) (mkNet n n true (k_tn w));;
    ex <- foreach (for_ 0 n (fun row => for_ 0 n (fun col => [(row, col)]))) (RtoC 0) (fun e s =>
            hole <- aget H (fst s * n + snd s);;
            if cfg (fst s) (snd s) <=? 1 then
              let alt := tps (fst s) (snd s) (1 - cfg (fst s) (snd s)) in
              let psi_ex := nsum (shape hole) (fun ix => (entry hole ix * entry alt ix)%C) in
              Ok (e + RtoC (- h) * Cconj (psi_ex * Cinv (snd x)))%C
            else Fail UB);;
    Ok (mkComp cfg (k_tn w) (fst x) (k_amp w), (diag + ex)%C).
End Energy.
