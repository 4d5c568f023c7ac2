(** Conjugate gradients (utility/conjugate_gradient_solver.h), the stochastic-reconfiguration matrix
    (optimizer/stochastic_reconfiguration_smatrix.h) and MinSR (optimizer/minsr_tmatrix.h,
    minsr_eigensolve.h, optimizer_impl.h:1127-1215).
    Vectors are functions on 0..dim-1; a [double] vector is one with zero imaginary parts. *)
From Coq Require Import List Arith Bool Reals.
From Verif Require Import Base Cplx OptModel LbModel.
Import ListNotations.
Local Open Scope R_scope.

(** VectorType, conjugate_gradient_solver.h:105-140 *)
Definition vec := nat -> C.
(** conjugate_gradient_solver.h:183-200 *)
Definition vzero : vec := fun _ => RtoC 0.
(** operator+ of VectorType, conjugate_gradient_solver.h:105-140 *)
Definition vadd (u v : vec) : vec := fun i => (u i + v i)%C.
(** operator- of VectorType, conjugate_gradient_solver.h:105-140 *)
Definition vsub (u v : vec) : vec := fun i => (u i - v i)%C.
(** scalar product of VectorType, conjugate_gradient_solver.h:105-140 *)
Definition vscale (c : C) (v : vec) : vec := fun i => (c * v i)%C.
(** u * v of the vector type; it conjugates the left factor (split_index_tps_impl.h:357-377) *)
Definition vdot (dim : nat) (u v : vec) : C := sumC (fun i => (Cconj (u i) * v i)%C) (seq 0 dim).
(** NormSquare(); (as called in conjugate_gradient_solver.h:183-275) *)
Definition vnsq (dim : nat) (v : vec) : R := fst (vdot dim v v).

(** optimizer_params.h:50-57; an interval below 1 disables recomputation *)
Record cg_params := mkCg { c_max : nat; c_rel : R; c_abs : R; c_interval : nat; c_ortho : R }.
(** 74-80; kNumericalBreakdown needs a NaN or an infinity, which reals do not have *)
Inductive reason := Converged | MaxIter | Indefinite | Stagnated.
(** conjugate_gradient_solver.h:99-112 *)
Record cg_result := mkRes { g_x : vec; g_norm : R; g_iter : nat; g_reason : reason }.
(** The solver as a program that asks for matrix-vector products and returns a result: the serial
    solver computes each product itself, the parallel one gets it from all ranks. (conjugate_gradient_solver.h:183-275, 413-527) *)
Inductive prog := Mul (v : vec) (k : vec -> prog) | Ret (r : cg_result).

Section CG.
Variable dim : nat.
Variable p : cg_params.
Variable b : vec.
Notation dot := (vdot dim).
Notation nsq := (vnsq dim).
(** 137-143 *)
Definition pap_is_valid (z : C) : bool := rlt 0 (fst z) && rlt (Rabs (snd z)) (/ 10 ^ 10).
(** 195-196 and 422-423 *)
Definition tol_sq : R := Rmax (c_rel p * c_rel p * nsq b) (c_abs p * c_abs p).
(** 234, 464 *)
Definition recompute (k : nat) : bool := (0 <? c_interval p)%nat && (k mod c_interval p =? c_interval p - 1)%nat.
(** 212-272 serial, 441-521 on the master: iteration [k] with [n] left, [rn] the squared norm of the
    residual, [stag] the stagnation count. *)
Fixpoint cg_loop (n k : nat) (x r d best : vec) (bn : R) (r_prev : vec) (rn : R) (stag : nat) : prog :=
  match n with
  | O => Ret (mkRes best (sqrt bn) (c_max p) MaxIter)
  | S n' =>
      Mul d (fun ap =>
        let pap := dot d ap in
        if negb (pap_is_valid pap) then Ret (mkRes best (sqrt bn) k Indefinite)
        else
          let alpha := Cdiv (RtoC rn) pap in
          let x' := vadd x (vscale alpha d) in
          let small := rlt (Cnorm2 alpha * nsq d) (dbl_eps * dbl_eps * nsq x') in
          let stag' := if small then S stag else 0%nat in
          if small && (3 <=? stag')%nat then Ret (mkRes best (sqrt bn) (k + 1) Stagnated)
          else
            let continue := fun r' : vec =>
              let rn' := nsq r' in
              let best' := if rlt rn' bn then x' else best in
              let bn' := if rlt rn' bn then rn' else bn in
              if rle rn' tol_sq then Ret (mkRes x' (sqrt rn') (k + 1) Converged)
              else if (0 <? k)%nat && rlt (c_ortho p * rn') (Rabs (fst (dot r_prev r'))) then
                cg_loop n' (S k) x' r' r' best' bn' r' rn' stag'
              else
                cg_loop n' (S k) x' r' (vadd r' (vscale (RtoC (rn' / rn)) d)) best' bn' r' rn' stag' in
            if recompute k then Mul x' (fun ax => continue (vsub b ax)) else continue (vsub r (vscale alpha ap)))
  end.
(** 183-276 and 401-526 *)
Definition cg (x0 : vec) : prog :=
  Mul x0 (fun ax0 =>
    let r := vsub b ax0 in let rn := nsq r in
    if rle rn tol_sq then Ret (mkRes x0 (sqrt rn) 0 Converged)
    else cg_loop (c_max p) 0 x0 r r x0 rn r rn 0).
End CG.
(** The serial solver: every product is matrix_a * v. Also the number of products. (conjugate_gradient_solver.h:183-275) *)
Fixpoint run_prog (A : vec -> vec) (q : prog) : cg_result := match q with Mul v k => run_prog A (k (A v)) | Ret r => r end.
(** ghost counter of the products, conjugate_gradient_solver.h:183-275 *)
Fixpoint products (A : vec -> vec) (q : prog) : nat := match q with Mul v k => S (products A (k (A v))) | Ret _ => 0 end.
(** conjugate_gradient_solver.h:183-275 *)
Definition cg_serial (dim : nat) (p : cg_params) (A : vec -> vec) (b x0 : vec) : cg_result := run_prog A (cg dim p b x0).

(** *** The distributed solver, 357-611 *)
Inductive instr := IStart | IMult | IFinish.
(** What a broadcast carries: an instruction (383-397), the vector of a product (561, 601), or the
    scalar that the matrix broadcasts inside its product (stochastic_reconfiguration_smatrix.h:59-62). *)
Inductive msg := MInstr (i : instr) | MVec (v : vec) | MScalar (z : C).
(** What the master does next: broadcast, receive a vector from any source, or return. (conjugate_gradient_solver.h:413-527, 548-591) *)
Inductive act := ABcast (m : msg) (k : act) | ARecv (k : vec -> act) | ADone (r : cg_result).
(** 574-590: [n] more results to receive; they are then added in the order of arrival *)
Fixpoint recv_all (n : nat) (got : list vec) (k : vec -> act) (own : vec) : act :=
  match n with
  | O => k (fold_left vadd got own)
  | S n' => ARecv (fun v => recv_all n' (got ++ [v]) k own)
  end.
(** 545-590: MatrixMultiplyVectorMaster, with [slaves] other ranks. [mean v]: the scalar the master
    broadcasts inside its own product; [own v z]: its own product. *)
Definition multiply (slaves : nat) (mean : vec -> C) (own : vec -> C -> vec) (v : vec) (k : vec -> act) : act :=
  ABcast (MVec v) (ABcast (MScalar (mean v)) (recv_all slaves [] k (own v (mean v)))).
(** 401-526: the master runs the solver; the first product follows the instruction [start], the others
    [multiplication], and every return is preceded by [finish]. *)
Fixpoint master (slaves : nat) (mean : vec -> C) (own : vec -> C -> vec) (i : instr) (q : prog) : act :=
  match q with
  | Mul v k => ABcast (MInstr i) (multiply slaves mean own v (fun w => master slaves mean own IMult (k w)))
  | Ret r => ABcast (MInstr IFinish) (ADone r)
  end.
(** 530-542 and 594-611. Waiting for the first instruction, for the vector, for the scalar; about to
    send a result; inside MPI_Send; waiting for the next instruction; returned. [SBad]: it received a
    message of another kind than the one it waits for. *)
Inductive slave := SStart | SVec | SScalar (v : vec) | SSend (w : vec) | SSending | SNext | SEnd | SBad.
(** A slave receives a broadcast; [mul]: its own product. (conjugate_gradient_solver.h:531-543, 596-612) *)
Definition slave_recv (mul : vec -> C -> vec) (s : slave) (m : msg) : option slave :=
  match s, m with
  | SStart, MInstr _ => Some SVec
  | SVec, MVec v => Some (SScalar v)
  | SScalar v, MScalar z => Some (SSend (mul v z))
  | SNext, MInstr IFinish => Some SEnd
  | SNext, MInstr _ => Some SVec
  | SStart, _ | SVec, _ | SScalar _, _ | SNext, _ => Some SBad
  | _, _ => None
  end.
(** One slave with the broadcasts not yet delivered to it and its results not yet received. (conjugate_gradient_solver.h:531-543, 596-612) *)
Record node := mkNode { n_state : slave; n_down : list msg; n_up : list vec }.
(** [busy]: the master is inside the broadcast its program starts with. (conjugate_gradient_solver.h:413-612) *)
Record net := mkNet { t_master : act; t_busy : bool; t_nodes : list node }.
(** model helper for the step relation below, conjugate_gradient_solver.h:413-612 *)
Definition set_node (i : nat) (x : node) (l : list node) : list node := firstn i l ++ x :: skipn (S i) l.
Section Net.
Variable muls : nat -> vec -> C -> vec.
(** One step of one rank. The index says whether it can happen even if MPI buffers nothing: a
    broadcast or a send may return as soon as its data is in transit, but is only sure to return
    when the data has been received. Messages between two ranks arrive in order. (conjugate_gradient_solver.h:383-401, 413-612) *)
Inductive step : bool -> net -> net -> Prop :=
| st_bcast m k l : step true (mkNet (ABcast m k) false l) (mkNet (ABcast m k) true (map (fun x => mkNode (n_state x) (n_down x ++ [m]) (n_up x)) l))
| st_bcast_done m k l sure : (sure = true -> forall x, In x l -> n_down x = []) -> step sure (mkNet (ABcast m k) true l) (mkNet k false l)
| st_recv k l i x v up : nth_error l i = Some x -> n_up x = v :: up ->
    step true (mkNet (ARecv k) false l) (mkNet (k v) false (set_node i (mkNode (n_state x) (n_down x) up) l))
| st_slave a bz l i x m down s' : nth_error l i = Some x -> n_down x = m :: down -> slave_recv (muls i) (n_state x) m = Some s' ->
    step true (mkNet a bz l) (mkNet a bz (set_node i (mkNode s' down (n_up x)) l))
| st_send a bz l i x w : nth_error l i = Some x -> n_state x = SSend w ->
    step true (mkNet a bz l) (mkNet a bz (set_node i (mkNode SSending (n_down x) (n_up x ++ [w])) l))
| st_sent a bz l i x sure : nth_error l i = Some x -> n_state x = SSending -> (sure = true -> n_up x = []) ->
    step sure (mkNet a bz l) (mkNet a bz (set_node i (mkNode SNext (n_down x) (n_up x)) l)).
(** runs of the processes, conjugate_gradient_solver.h:413-612 *)
Inductive steps : net -> net -> Prop :=
| steps_refl c : steps c c
| steps_step c c' c'' sure : steps c c' -> step sure c' c'' -> steps c c''.
(** Every rank has returned, and nothing is in transit. (both functions returned, conjugate_gradient_solver.h:525-527, 531-543) *)
Definition finished (c : net) : Prop :=
  (exists r, t_master c = ADone r) /\ forall x, In x (t_nodes c) -> x = mkNode SEnd [] [].
End Net.
(** conjugate_gradient_solver.h:357-373 *)
Definition net_start (a : act) (slaves : nat) : net := mkNet a false (repeat (mkNode SStart [] []) slaves).

(** *** stochastic_reconfiguration_smatrix.h:48-92: one rank's product; [z] is the broadcast
    mean * v0. An empty sample list is undefined behaviour (index 0). *)
Section SR.
Variable dim : nat.
(** stochastic_reconfiguration_smatrix.h:40-100 *)
Definition sr_rank (samples : list vec) (world : nat) (v : vec) (z : C) : res vec :=
  match samples with
  | [] => Fail UB
  | o :: t =>
      let delta o := (vdot dim o v - z)%C in
      let r := fold_left (fun acc o => vadd acc (vscale (delta o) o)) t (vscale (delta o) o) in
      Ok (vscale (RtoC (1 / INR (length samples * world))) r)
  end.
(** 86-88: on the master, the shift *)
Definition sr_master (samples : list vec) (world : nat) (shift : C) (v : vec) (z : C) : res vec :=
  r <- sr_rank samples world v z;; Ok (if Ceq_dec shift (RtoC 0) then r else vadd r (vscale shift v)).
(** The product assembled by the master from all ranks. (stochastic_reconfiguration_smatrix.h:40-100 through conjugate_gradient_solver.h:548-612) *)
Definition sr_product (ranks : list (list vec)) (mean : vec) (shift : C) (v : vec) : res vec :=
  let z := vdot dim mean v in
  match ranks with
  | [] => Fail UB
  | own :: others =>
      m <- sr_master own (length ranks) shift v z;;
      l <- (fix go (l : list (list vec)) : res (list vec) := match l with [] => Ok [] | s :: t => r <- sr_rank s (length ranks) v z;; rs <- go t;; Ok (r :: rs) end) others;;
      Ok (fold_left vadd l m)
  end.
End SR.
