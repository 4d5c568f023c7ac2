(** Programs that drive the contractor: wave-function component, updater sweeps, bond
    traversals. The control flow of these routines depends only on the lattice size, so each
    is written as the list of contractor calls it makes; [run] executes such a list. *)
From Coq Require Import List Arith Lia Bool ZArith QArith.
From Verif Require Import Base ContractorModel.
Import ListNotations.
Local Open Scope nat_scope.

(** Windows whose environment is read from the caches. (arguments of the Replace*Trace calls, impl/bmps_contractor_trace.h:31-536) *)
Inductive query :=
| Q1 (d : orient) (s : site) (w : nat)   (* one-layer window of w sites starting at s *)
| Q2 (d : orient) (s : site) (w : nat).  (* two-layer window, left-up corner s *)

(** What a solver callback is invoked on: a nearest-neighbour bond (first site, direction),
    one of the two diagonals of a plaquette (left-up corner), a diagonal of a 2 x 3 or 3 x 2
    rectangle (left-up corner), one site whose hole is punched, or one site. (callbacks of base/bond_traversal_mixin.h:40-140 and base/square_nnn_energy_solver.h:134-318) *)
Inductive visit :=
| VBond (d : orient) (s : site)
| VDiag (g : diag) (s : site)
| VFar (d : orient) (g : diag) (s : site)
| VHole (s : site)
| VSite (s : site).
(** The window whose environment the callback may read. (base/bond_traversal_mixin.h:40-140, base/square_nnn_energy_solver.h:134-318) *)
Definition query_of (v : visit) : query :=
  match v with
  | VBond d s => Q1 d s 2
  | VDiag _ s => Q2 HORIZONTAL s 2
  | VFar d _ s => Q2 d s 3
  | VHole s | VSite s => Q1 HORIZONTAL s 1
  end.

(** the calls on the contractor, bmps_contractor.h:196-345 *)
Inductive cmd :=
| Init                                   (* BMPSContractor::Init *)
| Generate (p : pos)                     (* GenerateBMPSApproach *)
| GrowFullB (p : pos)                    (* GrowFullBMPS *)
| GrowRow (r : nat) | GrowCol (k : nat)  (* GrowBMPSForRow / GrowBMPSForCol *)
| ShiftB (p : pos)                       (* ShiftBMPSWindow *)
| DeleteInner (p : pos)                  (* DeleteInnerBMPS *)
| InitE (p : pos) (s : nat)              (* InitBTen *)
| GrowE (p : pos) (s rem : nat) (ini : bool)   (* GrowFullBTen *)
| ShiftE (p : pos)                       (* ShiftBTenWindow *)
| TruncE (p : pos) (n : nat)             (* TruncateBTen *)
| InitE2 (p : pos) (s : nat)             (* InitBTen2 *)
| GrowE2 (p : pos) (s rem : nat) (ini : bool)  (* GrowFullBTen2 *)
| ShiftE2 (p : pos) (s : nat)            (* ShiftBTen2Window *)
| Query (q : query)                      (* Trace of the current amplitude *)
| Visit (v : visit)                      (* a solver callback, or PunchHole *)
| Update (d : orient) (s : site) (w : nat)     (* TwoSiteNNUpdateLocalImpl (w=2), TNN3SiteUpdateImpl (w=3) *)
| SetSite (s : site) (n : nat)           (* UpdateLocal called directly; its amplitude argument is left out *)
| SetAmp (d : orient) (s : site) (w : nat)     (* amplitude = Trace(tn, s, d), w = 2 *)
| SetAmpC (d : orient) (s : site) (w : nat).   (* amplitude = Replace*Trace with sitps(site)[config(site)] *)

Section Wave.
Context (o : ops).

(** The environment read by a query. (results read in impl/bmps_contractor_trace.h:31-536) *)
Inductive win :=
| W1 (x : list (MTen o * MTen o) * Env o * Env o)
| W2 (x : list (MTen o * MTen o) * Env2 o * Env2 o).

(** TPSWaveFunctionComponent members, wave_function_component.h:354-358. *)
Record wst (Rng : Type) := mkW {
  cfg : nat -> nat -> nat;  (* config *)
  amp : Amp o;              (* amplitude *)
  tn : net o;               (* tn *)
  ctr : con o;              (* contractor *)
  rng : Rng                 (* random_engine_ of the updater *)
}.
Arguments mkW {Rng}. Arguments cfg {Rng}. Arguments amp {Rng}. Arguments tn {Rng}.
Arguments ctr {Rng}. Arguments rng {Rng}.

(** assignment to one site *)
Definition upd2 {X} (f : nat -> nat -> X) (s : site) (x : X) : nat -> nat -> X :=
  fun r k => if site_eqb (r, k) s then x else f r k.

(** SplitIndexTPS: one tensor per site and local state. (split_index_tps.h) *)
Definition sitps := nat -> nat -> nat -> Ten o.

(** the contractor member, wave_function_component.h:140-165 *)
Definition set_con {Rng} (w : wst Rng) (c : con o) := mkW (cfg w) (amp w) (tn w) c (rng w).

(** wave_function_component.h:361-378 UpdateSingleSite_ *)
Definition update_single_site {Rng} (tps : sitps) (s : site) (n : nat) (w : wst Rng) : wst Rng :=
  mkW (upd2 (cfg w) s n) (amp w) (upd2 (tn w) s (tps (fst s) (snd s) n))
      (erase_envs_after_update o s (ctr w)) (rng w).
(** wave_function_component.h:346-352 UpdateLocal *)
Definition update_local {Rng} (tps : sitps) (a : Amp o) (l : list (site * nat)) (w : wst Rng) : wst Rng :=
  let w' := fold_left (fun x sn => update_single_site tps (fst sn) (snd sn) x) l w in
  mkW (cfg w') a (tn w') (ctr w') (rng w').

(** The part of an updater that decides about a chain of sites: from the current local
    states, the stored amplitude, the amplitude of any replacement (a Replace*Trace call) and
    the random engine, either nothing or the new local states with the new amplitude.
    Simplification: the traces are available to the kernel as a function, and the
    environment is fetched before the kernel runs even if the kernel returns early. (square_nn_updater.h:130-370) *)
Definition kernel (Rng : Type) :=
  list nat -> Amp o -> (list nat -> Amp o) -> Rng -> option (list nat * Amp o) * Rng.

(** the sites of a window, square_nn_updater.h:36-75, square_3site_updater.h:36-90 *)
Definition chain (d : orient) (s : site) (w : nat) : list site :=
  map (fun k => site_shift d s k) (seq 0 w).
(** validity of a site *)
Definition in_lattice (rows cols : nat) (s : site) : bool := (fst s <? rows) && (snd s <? cols).

(** Tensors a kernel would substitute at the sites of the chain. (square_nn_updater.h:150-180) *)
Definition chain_tensors (tps : sitps) (l : list site) (ns : list nat) : list (Ten o) :=
  map (fun sn => tps (fst (fst sn)) (snd (fst sn)) (snd sn)) (combine l ns).

(** Observable events: an environment was read (with the network at that moment, the
    window asked for and what the caches returned); an updater tried to change a chain of
    sites and reported whether it did. (ghost) *)
Inductive event :=
| Read (n : net o) (q : query) (x : win)
| Tried (d : orient) (s : site) (k : nat) (accepted : bool)
| Visited (v : visit).

(** impl/bmps_contractor_trace.h:31-536 *)
Definition do_query (c : con o) (q : query) : res win :=
  match q with
  | Q1 d s w => x <- window1 o c d s w ;; Ok (W1 x)
  | Q2 d s w => x <- window2 o c d s w ;; Ok (W2 x)
  end.

(** Execution of one call, with the events it produces. (dispatch, wave_function_component.h:187-380 and bmps_contractor.h:196-345) *)
Definition exec {Rng} (tps : sitps) (ker : kernel Rng) (x : cmd) (w : wst Rng)
  : res (wst Rng * list event) :=
  let c := ctr w in
  let lift (r : res (con o)) := c' <- r ;; Ok (set_con w c', []) in
  match x with
  | Init => Ok (set_con w (init o c), [])
  | Generate p => lift (generate_bmps_approach o (tn w) p c)
  | GrowFullB p => lift (grow_full_bmps o (tn w) p c)
  | GrowRow r => lift (grow_bmps_for_row o (tn w) r c)
  | GrowCol k => lift (grow_bmps_for_col o (tn w) k c)
  | ShiftB p => lift (shift_bmps_window o (tn w) p c)
  | DeleteInner p => Ok (set_con w (delete_inner o c p), [])
  | InitE p s => lift (init_bten o (tn w) p s c)
  | GrowE p s rem ini => lift (grow_full_bten o (tn w) p s rem ini c)
  | ShiftE p => lift (shift_bten_window o (tn w) p c)
  | TruncE p n => Ok (set_con w (truncate_bten o c p n), [])
  | InitE2 p s => lift (init_bten2 o (tn w) p s c)
  | GrowE2 p s rem ini => lift (grow_full_bten2 o (tn w) p s rem ini c)
  | ShiftE2 p s => lift (shift_bten2_window o (tn w) p s c)
  | Query q => r <- do_query c q ;; Ok (w, [Read (tn w) q r])
  | Visit v => r <- do_query c (query_of v) ;; Ok (w, [Read (tn w) (query_of v) r; Visited v])
  | Update d s k =>
      let sites := chain d s k in
      if forallb (in_lattice (rows_ c) (cols_ c)) sites then
        r <- window1 o c d s k ;;
        let '(ms, e1, e2) := r in
        let olds := map (fun x => cfg w (fst x) (snd x)) sites in
        let '(dec, g) := ker olds (amp w)
             (fun ns => tr1 o d ms (chain_tensors tps sites ns) e1 e2) (rng w) in
        let w1 := mkW (cfg w) (amp w) (tn w) c g in
        let w2 := match dec with
                  | None => w1
                  | Some (ns, a) => update_local tps a (combine sites ns) w1
                  end in
        Ok (w2, [Read (tn w) (Q1 d s k) (W1 r);
                 Tried d s k (match dec with Some _ => true | None => false end)])
      else Fail UB
  | SetSite s n =>
      if in_lattice (rows_ c) (cols_ c) s then Ok (update_single_site tps s n w, []) else Fail UB
  | SetAmp d s k =>
      let sites := chain d s k in
      if forallb (in_lattice (rows_ c) (cols_ c)) sites then
        r <- window1 o c d s k ;;
        let '(ms, e1, e2) := r in
        let a := tr1 o d ms (map (fun x => tn w (fst x) (snd x)) sites) e1 e2 in
        Ok (mkW (cfg w) a (tn w) c (rng w), [Read (tn w) (Q1 d s k) (W1 r)])
      else Fail UB
  | SetAmpC d s k =>
      let sites := chain d s k in
      if forallb (in_lattice (rows_ c) (cols_ c)) sites then
        r <- window1 o c d s k ;;
        let '(ms, e1, e2) := r in
        let a := tr1 o d ms (chain_tensors tps sites (map (fun x => cfg w (fst x) (snd x)) sites)) e1 e2 in
        Ok (mkW (cfg w) a (tn w) c (rng w), [Read (tn w) (Q1 d s k) (W1 r)])
      else Fail UB
  end.

(** calls one after the other *)
Fixpoint run {Rng} (tps : sitps) (ker : kernel Rng) (l : list cmd) (w : wst Rng)
  : res (wst Rng * list event) :=
  match l with
  | [] => Ok (w, [])
  | x :: l' =>
      r1 <- exec tps ker x w ;;
      r2 <- run tps ker l' (fst r1) ;;
      Ok (fst r2, snd r1 ++ snd r2)
  end.

(** wave_function_component.h:155-162: constructor, up to the call of EvaluateAmplitude (the
    amplitude is not yet assigned at that point, hence the argument [a]). *)
Definition new_component {Rng} (tps : sitps) (rows cols : nat) (c : nat -> nat -> nat) (a : Amp o) (g : Rng)
  : wst Rng :=
  mkW c a (fun r k => tps r k (c r k)) (init o (new_con o rows cols)) g.

End Wave.
Arguments mkW {o Rng}. Arguments cfg {o Rng}. Arguments amp {o Rng}. Arguments tn {o Rng}.
Arguments ctr {o Rng}. Arguments rng {o Rng}.
Arguments W1 {o}. Arguments W2 {o}. Arguments Read {o}. Arguments Tried {o}. Arguments Visited {o}.

(** Loops. The C++ bounds [cols() - 1], [rows() - 2], ... are [size_t]; here they are natural
    numbers cut at zero, which agrees with the code on lattices with at least one row and one
    column (two for the 3-site sweep): below that the code wraps around, and no theorem
    covers it. (loops of square_nn_updater.h:36-75, square_3site_updater.h:36-90, base/bond_traversal_mixin.h:40-140) *)
Definition for_ {X} (a b : nat) (f : nat -> list X) : list X := flat_map f (seq a (b - a)).
(** an if statement *)
Definition when {X} (b : bool) (l : list X) : list X := if b then l else [].

(** square_nn_updater.h:36-78, MCUpdateSquareNNUpdateBaseOBC::operator() *)
Definition sweep_nn_obc (rows cols : nat) : list cmd :=
  [Generate UP] ++
  for_ 0 rows (fun row =>
    [InitE LEFT row; GrowE RIGHT row 2 true] ++
    for_ 0 (cols - 1) (fun col =>
      [Update HORIZONTAL (row, col) 2] ++
      when (col <? cols - 2) [ShiftE RIGHT]) ++
    when (row <? rows - 1) [ShiftB DOWN]) ++
  [DeleteInner LEFT; DeleteInner RIGHT; Generate LEFT] ++
  for_ 0 cols (fun col =>
    [InitE UP col; GrowE DOWN col 2 true] ++
    for_ 0 (rows - 1) (fun row =>
      [Update VERTICAL (row, col) 2] ++
      when (row <? rows - 2) [ShiftE DOWN]) ++
    when (col <? cols - 1) [ShiftB RIGHT]) ++
  [DeleteInner UP].

(** square_3site_updater.h:34-88, MCUpdateSquareTNN3SiteUpdateBase::operator() *)
Definition sweep_tnn_obc (rows cols : nat) : list cmd :=
  [Generate UP] ++
  for_ 0 rows (fun row =>
    [InitE LEFT row; GrowE RIGHT row 3 true; SetAmpC HORIZONTAL (row, 0) 3] ++
    for_ 0 (cols - 2) (fun col =>
      [Update HORIZONTAL (row, col) 3] ++
      when (col <? cols - 3) [ShiftE RIGHT]) ++
    when (row <? rows - 1) [ShiftB DOWN]) ++
  [DeleteInner LEFT; DeleteInner RIGHT; Generate LEFT] ++
  for_ 0 cols (fun col =>
    [InitE UP col; GrowE DOWN col 3 true; SetAmpC VERTICAL (0, col) 3] ++
    for_ 0 (rows - 2) (fun row =>
      [Update VERTICAL (row, col) 3] ++
      when (row <? rows - 3) [ShiftE DOWN]) ++
    when (col <? cols - 1) [ShiftB RIGHT]) ++
  [DeleteInner UP].

(** square_nn_updater.h:79-80: number of accepted moves and the divisor of the rate. *)
Definition accepted {o} (lg : list (event o)) : nat :=
  length (filter (fun e => match e with Tried _ _ _ b => b | _ => false end) lg).
(** square_nn_updater.h:79-80 *)
Definition bond_num_nn (rows cols : nat) : nat := cols * (rows - 1) + rows * (cols - 1).
(** square_nn_updater.h:80, square_3site_updater.h:90: the rate reported ([double] modelled by
    a rational). *)
Definition accept_rate (num bonds : nat) : Q := (inject_Z (Z.of_nat num) / inject_Z (Z.of_nat bonds))%Q.
(** square_3site_updater.h:89-90 *)
Definition total_flip_num_tnn (rows cols : nat) : nat := cols * (rows - 2) + rows * (cols - 2).

(** wave_function_component.h:196-200, EvaluateAmplitude (BMPS workflow) *)
Definition evaluate_amplitude : list cmd :=
  [GrowRow 0; GrowE RIGHT 0 2 true; InitE LEFT 0; SetAmp HORIZONTAL (0, 0) 2].

(** bond_traversal_mixin.h:57-104 TraverseHorizontalBonds. [nnn] tells whether a functor for
    the diagonal links is passed (the two diagonals of a plaquette use the same two-layer
    window). Simplifications: the amplitude traced at the start of a row is not zero (the code
    throws otherwise); no off-diagonal long-range functor is passed. *)
Definition traverse_horizontal (nnn : bool) (rows cols : nat) : list cmd :=
  [Generate UP] ++
  for_ 0 rows (fun row =>
    [InitE LEFT row; GrowE RIGHT row 1 true; Query (Q1 HORIZONTAL (row, 0) 2)] ++
    for_ 0 (cols - 1) (fun col =>
      [Visit (VBond HORIZONTAL (row, col)); ShiftE RIGHT]) ++
    when (nnn && (row <? rows - 1))
      ([InitE2 LEFT row; GrowE2 RIGHT row 2 true] ++
       for_ 0 (cols - 1) (fun col =>
         [Visit (VDiag LEFTUP_TO_RIGHTDOWN (row, col)); Visit (VDiag LEFTDOWN_TO_RIGHTUP (row, col));
          ShiftE2 RIGHT row])) ++
    when (row <? rows - 1) [ShiftB DOWN]).

(** bond_traversal_mixin.h:112-142 TraverseVerticalBonds *)
Definition traverse_vertical (rows cols : nat) : list cmd :=
  [Generate LEFT] ++
  for_ 0 cols (fun col =>
    [InitE UP col; GrowE DOWN col 2 true; Query (Q1 VERTICAL (0, col) 2)] ++
    for_ 0 (rows - 1) (fun row =>
      [Visit (VBond VERTICAL (row, col))] ++
      when (row <? rows - 2) [ShiftE DOWN]) ++
    when (col <? cols - 1) [ShiftB RIGHT]).

(** bond_traversal_mixin.h:32-46 TraverseAllBonds *)
Definition traverse_all (nnn : bool) (rows cols : nat) : list cmd :=
  traverse_horizontal nnn rows cols ++ traverse_vertical rows cols.

(** square_nnn_energy_solver.h:107-266, CalHorizontalBondEnergyAndHolesImpl and
    CalHorizontalBondEnergyAndHolesSweepRowImpl with [calchols = holes]; boson branch
    ([Trace] at the start of each row). *)
Definition cal_horizontal (holes nnn : bool) (rows cols : nat) : list cmd :=
  [Generate UP] ++
  for_ 0 rows (fun row =>
    [InitE LEFT row; GrowE RIGHT row 1 true; Query (Q1 HORIZONTAL (row, 0) 2)] ++
    for_ 0 cols (fun col =>
      when holes [Visit (VHole (row, col))] ++
      when (col <? cols - 1) [Visit (VBond HORIZONTAL (row, col)); ShiftE RIGHT]) ++
    when (nnn && (row <? rows - 1))
      ([InitE2 LEFT row; GrowE2 RIGHT row 2 true] ++
       for_ 0 (cols - 1) (fun col =>
         [Visit (VDiag LEFTUP_TO_RIGHTDOWN (row, col)); Visit (VDiag LEFTDOWN_TO_RIGHTUP (row, col));
          ShiftE2 RIGHT row])) ++
    when (row <? rows - 1) [ShiftB DOWN]).
(** square_nnn_energy_solver.h:82-102 CalEnergyAndHolesImpl (the vertical part is
    CalVerticalBondEnergyImpl, 269-315, which calls TraverseVerticalBonds) *)
Definition cal_energy_and_holes (holes nnn : bool) (rows cols : nat) : list cmd :=
  cal_horizontal holes nnn rows cols ++ traverse_vertical rows cols.

(** square_nnn_energy_solver.h:116-266 with fermionic tensors: no trace at the start of a row.
    (The amplitude returned by the first non-trivial bond of a row, kept in psi_list, is left out.) *)
Definition cal_horizontal_fermion (holes nnn : bool) (rows cols : nat) : list cmd :=
  [Generate UP] ++
  for_ 0 rows (fun row =>
    [InitE LEFT row; GrowE RIGHT row 1 true] ++
    for_ 0 cols (fun col =>
      when holes [Visit (VHole (row, col))] ++
      when (col <? cols - 1) [Visit (VBond HORIZONTAL (row, col)); ShiftE RIGHT]) ++
    when (nnn && (row <? rows - 1))
      ([InitE2 LEFT row; GrowE2 RIGHT row 2 true] ++
       for_ 0 (cols - 1) (fun col =>
         [Visit (VDiag LEFTUP_TO_RIGHTDOWN (row, col)); Visit (VDiag LEFTDOWN_TO_RIGHTUP (row, col));
          ShiftE2 RIGHT row])) ++
    when (row <? rows - 1) [ShiftB DOWN]).
(** base/square_nnn_energy_solver.h:134-318, fermionic branches *)
Definition cal_energy_fermion (holes nnn : bool) (rows cols : nat) : list cmd :=
  cal_horizontal_fermion holes nnn rows cols ++ traverse_vertical rows cols.

(** transverse_field_ising_square_obc.h:211-247 CalEnergyAndHolesImplParsed *)
Definition cal_tfim (holes : bool) (rows cols : nat) : list cmd :=
  [Generate UP] ++
  for_ 0 rows (fun row =>
    [InitE LEFT row; GrowE RIGHT row 1 true; Query (Q1 HORIZONTAL (row, 0) 2)] ++
    for_ 0 cols (fun col =>
      when holes [Visit (VHole (row, col))] ++ [Visit (VSite (row, col))] ++
      when (col <? cols - 1) [ShiftE RIGHT]) ++
    when (row <? rows - 1) [ShiftB DOWN]).

(** Routines a Monte-Carlo run executes on one wave-function component. (monte_carlo_engine.h:146-200, wave_function_component.h:155-260) *)
Inductive routine :=
| NNSweep                              (* MCUpdateSquareNNUpdateBaseOBC::operator() *)
| TNNSweep                             (* MCUpdateSquareTNN3SiteUpdateBase::operator() *)
| Evaluate                             (* TPSWaveFunctionComponent::EvaluateAmplitude *)
| Traverse (nnn : bool)                (* BondTraversalMixin::TraverseAllBonds *)
| Energy (holes nnn : bool).           (* CalEnergyAndHolesImpl *)
(** the routines above, by name *)
Definition program (rows cols : nat) (r : routine) : list cmd :=
  match r with
  | NNSweep => sweep_nn_obc rows cols
  | TNNSweep => sweep_tnn_obc rows cols
  | Evaluate => evaluate_amplitude
  | Traverse nnn => traverse_all nnn rows cols
  | Energy holes nnn => cal_energy_and_holes holes nnn rows cols
  end.

(** wave_function_component.h:180-185 ReplaceGlobalConfig, up to the call of EvaluateAmplitude:
    new configuration, projection of the whole network, contractor Init (which leaves the
    boundary-tensor caches as they are). *)
Definition replace_config {o Rng} (tps : sitps o) (c : nat -> nat -> nat) (w : wst o Rng) : wst o Rng :=
  mkW c (amp w) (fun r k => tps r k (c r k)) (init o (ctr w)) (rng w).

(** What can happen to a component between its construction and the end of a run. (monte_carlo_engine.h:125-200) *)
Inductive action := Do (r : routine) | ReplaceGlobalConfig (c : nat -> nat -> nat).
(** monte_carlo_engine.h:125-200, wave_function_component.h:180-186 *)
Definition act {o Rng} (rows cols : nat) (tps : sitps o) (ker : kernel o Rng) (a : action) (w : wst o Rng)
  : res (wst o Rng * list (event o)) :=
  match a with
  | Do r => run o tps ker (program rows cols r) w
  | ReplaceGlobalConfig c => run o tps ker evaluate_amplitude (replace_config tps c w)
  end.
(** a history of such actions *)
Fixpoint acts {o Rng} (rows cols : nat) (tps : sitps o) (ker : kernel o Rng) (l : list action) (w : wst o Rng)
  : res (wst o Rng * list (event o)) :=
  match l with
  | [] => Ok (w, [])
  | a :: l' =>
      r1 <- act rows cols tps ker a w ;;
      r2 <- acts rows cols tps ker l' (fst r1) ;;
      Ok (fst r2, snd r1 ++ snd r2)
  end.

(** wave_function_component.h:155-162: the complete constructor. *)
Definition construct {o Rng} (tps : sitps o) (ker : kernel o Rng) (rows cols : nat) (c : nat -> nat -> nat)
  (a0 : Amp o) (g : Rng) : res (wst o Rng * list (event o)) :=
  run o tps ker evaluate_amplitude (new_component o tps rows cols c a0 g).
