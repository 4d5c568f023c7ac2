(** Properties of the Monte-Carlo updaters. *)
From Coq Require Import List Arith Lia Bool Permutation Reals Lra.
From Verif Require Import Base ContractorModel SweepModel SweepSpec HistoryMain ProductInstance UpdaterModel UpdaterSpec SuwaTodoProofs UpdaterProofs UpdaterChain BlockChain UpdaterMain.
Import ListNotations.
Local Open Scope nat_scope.

(** *** C03 *)
(** Whatever is run with the nearest-neighbour exchange updater, and however its acceptance test
    decides, the number of sites in every local state stays the same. *)
Theorem c03_exchange_conserves_occupations :
  forall (o : ops) (Rng : Type) (rows cols : nat) (tps : sitps o) accept l (w w' : wst o Rng) lg v,
  rows_ (ctr w) = rows -> cols_ (ctr w) = cols -> Forall is_routine l ->
  acts rows cols tps (exchange_kernel o Rng accept) l w = Ok (w', lg) ->
  occupation rows cols v (cfg w') = occupation rows cols v (cfg w).
Proof. exact exchange_occupation. Qed.
Print Assumptions c03_exchange_conserves_occupations.
(** The same for the three-site updater. *)
Theorem c03_three_site_conserves_occupations :
  forall (o : ops) (Rng : Type) (rows cols : nat) (tps : sitps o) choose l (w w' : wst o Rng) lg v,
  in_range choose -> rows_ (ctr w) = rows -> cols_ (ctr w) = cols -> Forall is_routine l ->
  acts rows cols tps (three_site_kernel o Rng choose) l w = Ok (w', lg) ->
  occupation rows cols v (cfg w') = occupation rows cols v (cfg w).
Proof. exact three_occupation. Qed.
Print Assumptions c03_three_site_conserves_occupations.
(** The same for the periodic exchange sweep, whatever bonds are drawn. *)
Theorem c03_periodic_exchange_conserves_occupations :
  forall (o : ops) (Rng : Type) (rows cols : nat) draw trial accept (w : pst o Rng) v,
  (forall g, fst (fst (fst (draw g))) < rows /\ snd (fst (fst (draw g))) < cols) ->
  let w' := fst (sweep_nn_pbc o Rng rows cols draw trial (exchange_kernel o Rng accept) w) in
  occupation rows cols v (pcfg w') = occupation rows cols v (pcfg w).
Proof. exact exchange_pbc_occupation. Qed.
Print Assumptions c03_periodic_exchange_conserves_occupations.
(** The three-site updater offers exactly the distinct rearrangements of the three states. *)
Theorem c03_three_site_alternatives :
  forall s1 s2 s3, ~ (s1 = s2 /\ s2 = s3) ->
  exists alts, perms_from 6 (sorted_states [s1; s2; s3]) = Ok alts /\ NoDup alts /\
    forall l, In l alts <-> Permutation l [s1; s2; s3].
Proof. exact three_alts. Qed.
Print Assumptions c03_three_site_alternatives.

(** A 3 x 3 Neel-like start, always accepting: the sweep moves states but keeps their numbers. *)
Definition greedy (a b : term) (g : unit) : bool * unit := (true, g).
Definition start33 (r c : nat) : nat := if (r =? 0) then 1 else 0.
Example c03_concrete :
  match construct (o := free_ops) free_tps (exchange_kernel free_ops unit greedy) 3 3 start33 (TTen 0) tt with
  | Ok (w, _) =>
      match acts 3 3 free_tps (exchange_kernel free_ops unit greedy) [Do NNSweep; Do Evaluate] w with
      | Ok (w', _) => occupation 3 3 1 (cfg w) = 3 /\ occupation 3 3 1 (cfg w') = 3 /\
                      flat 3 3 (cfg w) <> flat 3 3 (cfg w')
      | Fail _ => False end
  | Fail _ => False
  end.
Proof. vm_compute. repeat split. intros H; discriminate H. Qed.
(** Choices that satisfy [in_range]: always the last alternative, or cycling through them. *)
Definition last_choice {A} (i : nat) (l : list A) (g : unit) : nat * unit := (length l - 1, g).
Example last_choice_in_range : in_range (@last_choice term).
Proof. intros i l g H. unfold last_choice. simpl. lia. Qed.
Example c03_three_concrete :
  match construct (o := free_ops) free_tps (three_site_kernel free_ops unit last_choice) 3 3 (fun r c => if r =? 2 then 1 else 0) (TTen 0) tt with
  | Ok (w, _) =>
      match acts 3 3 free_tps (three_site_kernel free_ops unit last_choice) [Do TNNSweep] w with
      | Ok (w', _) => occupation 3 3 1 (cfg w') = 3 /\ flat 3 3 (cfg w) <> flat 3 3 (cfg w')
      | Fail _ => False end
  | Fail _ => False
  end.
Proof. vm_compute. split; [reflexivity|intros H; discriminate H]. Qed.

(** *** C04 *)
(** The Hubbard updater keeps all local states valid and conserves the numbers of up and of
    down particles separately. *)
Theorem c04_hubbard_conserves_particle_numbers :
  forall (o : ops) (Rng : Type) (rows cols : nat) (tps : sitps o) choose l (w w' : wst o Rng) lg,
  in_range choose -> rows_ (ctr w) = rows -> cols_ (ctr w) = cols -> Forall is_routine l ->
  all_states rows cols (fun x => x < 4) (cfg w) ->
  acts rows cols tps (hubbard_kernel o Rng choose) l w = Ok (w', lg) ->
  all_states rows cols (fun x => x < 4) (cfg w') /\
  total rows cols n_up (cfg w') = total rows cols n_up (cfg w) /\
  total rows cols n_down (cfg w') = total rows cols n_down (cfg w).
Proof. exact hubbard_conserves. Qed.
Print Assumptions c04_hubbard_conserves_particle_numbers.
(** The candidates are exactly the pairs with the same particle numbers, each once, the current
    pair included. *)
Theorem c04_hubbard_candidates :
  forall c1 c2, c1 < 4 -> c2 < 4 ->
  let alts := hubbard_alts (n_up c1 + n_up c2) (n_down c1 + n_down c2) in
  NoDup alts /\ In [c1; c2] alts /\
  forall n1 n2, In [n1; n2] alts <->
    n1 < 4 /\ n2 < 4 /\ n_up n1 + n_up n2 = n_up c1 + n_up c2 /\ n_down n1 + n_down n2 = n_down c1 + n_down c2.
Proof. exact hubbard_candidates. Qed.
Print Assumptions c04_hubbard_candidates.
(** An accepted move goes to another member of that list, with the amplitude of that member. *)
Theorem c04_hubbard_move :
  forall (o : ops) (Rng : Type) choose c1 c2 a tr g ns b g', in_range choose -> c1 < 4 -> c2 < 4 ->
  hubbard_kernel o Rng choose [c1; c2] a tr g = (Some (ns, b), g') ->
  In ns (hubbard_alts (n_up c1 + n_up c2) (n_down c1 + n_down c2)) /\ ns <> [c1; c2] /\ b = tr ns.
Proof. exact hubbard_stays_in_class. Qed.
Print Assumptions c04_hubbard_move.
Example c04_concrete :
  match construct (o := free_ops) free_tps (hubbard_kernel free_ops unit last_choice) 2 3 (fun r c => r + c) (TTen 0) tt with
  | Ok (w, _) =>
      match acts 2 3 free_tps (hubbard_kernel free_ops unit last_choice) [Do NNSweep] w with
      | Ok (w', _) => total 2 3 n_up (cfg w) = 3 /\ total 2 3 n_down (cfg w) = 3 /\
                      total 2 3 n_up (cfg w') = 3 /\ flat 2 3 (cfg w) <> flat 2 3 (cfg w')
      | Fail _ => False end
  | Fail _ => False
  end.
Proof. vm_compute. repeat split. intros H; discriminate H. Qed.

(** *** C05 *)
(** The full-space updater numbers pairs of local states by c1*dim+c2: a bijection between
    pairs and codes below dim^2. *)
Theorem c05_pair_code_bijection :
  forall dim, (forall c1 c2, c1 < dim -> c2 < dim ->
    c1 * dim + c2 < dim * dim /\ (c1 * dim + c2) / dim = c1 /\ (c1 * dim + c2) mod dim = c2) /\
  (forall s, s < dim * dim -> s / dim < dim /\ s mod dim < dim /\ (s / dim) * dim + s mod dim = s).
Proof. exact full_code_bijection. Qed.
Print Assumptions c05_pair_code_bijection.
(** The move: the choice sees the amplitudes of all dim^2 pairs in code order (the stored one
    for the current pair); the pair it names is installed together with its amplitude,
    and nothing happens if it names the current pair. *)
Theorem c05_full_space_move :
  forall (o : ops) (Rng : Type) dim (choose : nat -> list (Amp o) -> Rng -> nat * Rng) c1 c2 a tr g k g',
  c1 < dim -> c2 < dim ->
  let psis := map (fun s => if s =? c1 * dim + c2 then a else tr [s / dim; s mod dim]) (seq 0 (dim * dim)) in
  choose (c1 * dim + c2) psis g = (k, g') -> k < dim * dim ->
  full_space_kernel o Rng dim choose [c1; c2] a tr g =
    (if k =? c1 * dim + c2 then None else Some ([k / dim; k mod dim], tr [k / dim; k mod dim]), g').
Proof. exact full_kernel_spec. Qed.
Print Assumptions c05_full_space_move.
(** Local states never leave the range of the physical index, on open and periodic lattices. *)
Theorem c05_full_space_states_stay_valid :
  forall (o : ops) (Rng : Type) dim choose rows cols (tps : sitps o) l (w w' : wst o Rng) lg,
  in_range choose -> rows_ (ctr w) = rows -> cols_ (ctr w) = cols -> Forall is_routine l ->
  all_states rows cols (fun x => x < dim) (cfg w) ->
  acts rows cols tps (full_space_kernel o Rng dim choose) l w = Ok (w', lg) ->
  all_states rows cols (fun x => x < dim) (cfg w').
Proof. exact full_states. Qed.
Print Assumptions c05_full_space_states_stay_valid.
Theorem c05_periodic_full_space_states_stay_valid :
  forall (o : ops) (Rng : Type) dim choose rows cols draw trial (w : pst o Rng),
  in_range choose -> (forall g, fst (fst (fst (draw g))) < rows /\ snd (fst (fst (draw g))) < cols) ->
  all_states rows cols (fun x => x < dim) (pcfg w) ->
  all_states rows cols (fun x => x < dim)
    (pcfg (fst (sweep_nn_pbc o Rng rows cols draw trial (full_space_kernel o Rng dim choose) w))).
Proof. exact full_states_pbc. Qed.
Print Assumptions c05_periodic_full_space_states_stay_valid.
Example c05_concrete :
  match construct (o := free_ops) free_tps (full_space_kernel free_ops unit 3 last_choice) 2 2 (fun r c => r + c) (TTen 0) tt with
  | Ok (w, _) =>
      match acts 2 2 free_tps (full_space_kernel free_ops unit 3 last_choice) [Do NNSweep] w with
      | Ok (w', _) => flat 2 2 (cfg w) = [0; 1; 1; 2] /\ flat 2 2 (cfg w') = [2; 2; 2; 2]
      | Fail _ => False end
  | Fail _ => False
  end.
Proof. vm_compute. split; reflexivity. Qed.

(** *** C06 *)
(** An exchange of two different states is accepted with probability min(1, |psi_b|^2/|psi_a|^2):
    exactly when the uniform number is below that value. *)
Theorem c06_exchange_acceptance :
  forall (o : ops) (Rng : Type) (abs : Amp o -> R) (draw : Rng -> R * Rng) c1 c2 a tr g,
  (forall x, 0 <= abs x)%R -> (0 <= fst (draw g) < 1)%R -> c1 <> c2 ->
  let b := tr [c2; c1] in
  let out := exchange_kernel o Rng (metropolis_accept abs draw) [c1; c2] a tr g in
  ((fst (draw g) < accept_prob (abs a) (abs b))%R -> fst out = Some ([c2; c1], b)) /\
  ((accept_prob (abs a) (abs b) <= fst (draw g))%R -> fst out = None).
Proof. exact exchange_decision. Qed.
Print Assumptions c06_exchange_acceptance.
(** Detailed balance with respect to |psi|^2. *)
Theorem c06_detailed_balance :
  forall pa pb : R, (0 <= pa)%R -> (0 <= pb)%R ->
  (pa * pa * accept_prob pa pb = pb * pb * accept_prob pb pa)%R.
Proof. exact detailed_balance. Qed.
Print Assumptions c06_detailed_balance.
(** Any sequence of bond exchanges (so any sweep, with bonds in any order) leaves the
    distribution |psi|^2 on all configurations unchanged. *)
Theorem c06_sweeps_leave_distribution_stationary :
  forall dim n (psi : list nat -> R) bonds,
  (forall l, (0 <= psi l)%R) -> Forall (fun b => fst b < n /\ snd b < n) bonds ->
  forall l', In l' (all_configs dim n) ->
  pushes (all_configs dim n) (fun l => psi l * psi l)%R
    (map (fun b => exchange_K list_eqb (exchange (fst b) (snd b)) (fun l t => accept_prob (psi l) (psi t))) bonds) l'
  = (psi l' * psi l')%R.
Proof. exact exchange_sweep_stationary. Qed.
Print Assumptions c06_sweeps_leave_distribution_stationary.
(** The move on the lattice is the move on the list of states used above. *)
Theorem c06_lattice_exchange_is_list_exchange :
  forall rows cols c s1 s2, fst s1 < rows -> snd s1 < cols -> fst s2 < rows -> snd s2 < cols -> s1 <> s2 ->
  flat rows cols (set_sites c (combine [s1; s2] [c (fst s2) (snd s2); c (fst s1) (snd s1)]))
  = exchange (pos_of cols s1) (pos_of cols s2) (flat rows cols c).
Proof. exact flat_exchange. Qed.
Print Assumptions c06_lattice_exchange_is_list_exchange.
Example c06_concrete : accept_prob 2 1 = (1 / 4)%R /\ accept_prob 1 2 = 1%R /\ accept_prob 0 0 = 1%R /\
  In [1; 0; 2] (all_configs 3 3) /\ exchange 0 2 [1; 0; 2] = [2; 0; 1].
Proof.
  split; [rewrite accept_prob_lt by lra; lra|]. split; [apply accept_prob_ge; lra|].
  split; [apply accept_prob_ge; lra|]. split; [|reflexivity].
  apply all_configs_in. split; [reflexivity|]. repeat constructor.
Qed.

(** *** C07 *)
(** Suwa-Todo: the result is one of the offered states and never one of weight zero. *)
Theorem c07_result_valid :
  forall weights init u, init < length weights -> u < nth init weights 0 ->
  suwa_todo weights init u < length weights /\ 0 < nth (suwa_todo weights init u) weights 0.
Proof. exact suwa_range. Qed.
Print Assumptions c07_result_valid.
(** Global balance: over all source states and all positions inside their intervals, state
    [j] is reached as often as its weight says. *)
Theorem c07_global_balance :
  forall weights j, j < length weights ->
  list_sum (map (fun i => length (filter (fun u => suwa_todo weights i u =? j) (seq 0 (nth i weights 0))))
                (seq 0 (length weights))) = nth j weights 0.
Proof. exact suwa_balance_filter. Qed.
Print Assumptions c07_global_balance.
(** Rejection-free: if no weight exceeds the sum of the others, the state always changes. *)
Theorem c07_rejection_free :
  forall weights init u, init < length weights -> u < nth init weights 0 ->
  (forall k, k < length weights -> 2 * nth k weights 0 <= list_sum weights) ->
  suwa_todo weights init u <> init.
Proof. exact suwa_moves. Qed.
Print Assumptions c07_rejection_free.
(** A common factor in the weights does not change the choice. *)
Theorem c07_normalisation_irrelevant :
  forall c r weights init u, r < c ->
  suwa_todo (map (Nat.mul c) weights) init (c * u + r) = suwa_todo weights init u.
Proof. exact suwa_scale. Qed.
Print Assumptions c07_normalisation_irrelevant.
(** As the updaters call it, the choice keeps a state of positive weight in range and positive. *)
Theorem c07_choice_in_range :
  forall (A Rng : Type) (weight : A -> nat) (draw : nat -> Rng -> nat * Rng) init psis g d,
  (forall n g, 0 < n -> fst (draw n g) < n) -> init < length psis -> 0 < weight (nth init psis d) ->
  let k := fst (suwa_todo_choose weight draw init psis g) in
  k < length psis /\ 0 < weight (nth k psis d).
Proof. exact @suwa_choose_range. Qed.
Print Assumptions c07_choice_in_range.
(** Any sequence of full-space, Hubbard or three-site updates leaves the distribution given by
    the weights of the configurations unchanged. *)
Theorem c07_full_space_stationary :
  forall dim n (W : list nat -> nat) blocks,
  Forall (fun ps => NoDup ps /\ Forall (fun i => i < n) ps /\ length ps = 2) blocks ->
  forall l', In l' (all_configs dim n) ->
  pushes (all_configs dim n) (fun l => INR (W l)) (map (block_K W (rule_full dim)) blocks) l' = INR (W l').
Proof. exact (fun dim n W blocks => block_sweep_stationary dim n 2 (rule_full dim) W blocks (full_class dim)). Qed.
Print Assumptions c07_full_space_stationary.
Theorem c07_hubbard_stationary :
  forall n (W : list nat -> nat) blocks,
  Forall (fun ps => NoDup ps /\ Forall (fun i => i < n) ps /\ length ps = 2) blocks ->
  forall l', In l' (all_configs 4 n) ->
  pushes (all_configs 4 n) (fun l => INR (W l)) (map (block_K W rule_hubbard) blocks) l' = INR (W l').
Proof. exact (fun n W blocks => block_sweep_stationary 4 n 2 rule_hubbard W blocks hubbard_class). Qed.
Print Assumptions c07_hubbard_stationary.
Theorem c07_three_site_stationary :
  forall dim n (W : list nat -> nat) blocks,
  Forall (fun ps => NoDup ps /\ Forall (fun i => i < n) ps /\ length ps = 3) blocks ->
  forall l', In l' (all_configs dim n) ->
  pushes (all_configs dim n) (fun l => INR (W l)) (map (block_K W rule_three) blocks) l' = INR (W l').
Proof. exact (fun dim n W blocks => block_sweep_stationary dim n 3 rule_three W blocks (three_class dim)). Qed.
Print Assumptions c07_three_site_stationary.
Example c07_concrete : map (fun i => map (suwa_todo [2; 5; 3] i) (seq 0 (nth i [2; 5; 3] 0))) [0; 1; 2]
  = [[1; 1]; [0; 0; 2; 2; 2]; [1; 1; 1]].
Proof. vm_compute. reflexivity. Qed.

(** *** C08, periodic lattices *)
(** The periodic exchange sweep keeps the stored amplitude equal to the amplitude of the stored
    configuration. *)
Theorem c08_periodic_amplitude_belongs_to_configuration :
  forall (o : ops) (Rng : Type) (rows cols : nat) draw trial accept (w : pst o Rng),
  pamp w = trial (pcfg w) ->
  let w' := fst (sweep_nn_pbc o Rng rows cols draw trial (exchange_kernel o Rng accept) w) in
  pamp w' = trial (pcfg w').
Proof. exact exchange_pbc_amplitude. Qed.
Print Assumptions c08_periodic_amplitude_belongs_to_configuration.
