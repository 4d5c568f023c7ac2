(** MeasureStructureFactor:
    include/qlpeps/algorithm/vmc_update/model_solvers/base/structure_factor_measurement_mixin.h:89-225.

    Tensors and walkers as in WalkModel.v (bosonic branches, every leg padded to [0 .. D-1]). *)
From Coq Require Import List Arith Lia Bool ZArith Reals.
From Verif Require Import Base Cplx WalkModel.
Import ListNotations.

(** one entry of the flat output: y1, x1, y2, x2, value; (structure_factor_measurement_mixin.h:200-215) *)
Definition entry := (nat * nat * nat * nat * C)%type.

Section Sf.
Variable D : nat.
(** MultiplyMPO, used by BMPSWalker::Evolve (bmps_walker.h:13-20) *)
Variable absorb : list tensor -> list tensor -> list tensor.

(** a call on a walker; an exception or undefined behaviour ends the measurement; (structure_factor_measurement_mixin.h:120-215) *)
Definition call_ok (r : walker * outcome) : res walker :=
  match snd r with Done | Value _ => Ok (fst r) | Threw => Fail Throw | Undefined => Fail UB end.
(** structure_factor_measurement_mixin.h:120-215 *)
Definition value_ok (r : outcome) : res C :=
  match r with Value c => Ok c | Threw => Fail Throw | _ => Fail UB end.

Section Lattice.
Variables (Ly Lx : nat) (tn : nat -> nat -> tensor) (tps : nat -> nat -> nat -> tensor) (cfg : nat -> nat -> nat).

(** TensorNetwork2D::get_row; (duomatrix.h:308, structure_factor_measurement_mixin.h:110-215) *)
Definition get_row (y : nat) : list tensor := map (tn y) (seq 0 Lx).
(** assignment to one tensor of the row, structure_factor_measurement_mixin.h:130-180 *)
Definition put_at {X} (l : list X) (i : nat) (x : X) : list X := firstn i l ++ x :: skipn (i + 1) l.

(** 175-196: the scan of the target row from column [k - 1] down to column 0; the values come out from left
    to right (199-205) *)
Fixpoint scan_row (src : bool) (y2 : nat) (bottom : list tensor) (k : nat) (w : walker) : res (walker * list C) :=
  match k with
  | 0 => Ok (w, [])
  | S x2 =>
    v <- (if src && (cfg y2 x2 =? 1) then value_ok (trace_with D w (tps y2 x2 0) x2 bottom) else Ok (RtoC 0)) ;;
    w' <- (if 0 <? x2 then call_ok (grow_right_step D w (get_row y2) bottom) else Ok w) ;;
    r <- scan_row src y2 bottom x2 w' ;;
    Ok (fst r, snd r ++ [v])
  end.
(** structure_factor_measurement_mixin.h:195-215 *)
Definition entries (y1 x1 y2 : nat) (vs : list C) : list entry :=
  map (fun xv => (y1, x1, y2, fst xv, snd xv)) (combine (seq 0 (length vs)) vs).

(** 143-215: the target rows below [y1], top to bottom.  A row whose DOWN environment is missing from the stack is
    recorded as zeros and, by the [continue] of 156, not absorbed. *)
Fixpoint targets (down_stack : list (list tensor)) (src : bool) (y1 x1 : nat) (ys : list nat) (w : walker) : res (list entry) :=
  match ys with
  | [] => Ok []
  | y2 :: ys' =>
    i <- usub (Ly - 1) y2 ;;
    match nth_error down_stack i with
    | None =>
      r <- targets down_stack src y1 x1 ys' w ;;
      Ok (entries y1 x1 y2 (repeat (RtoC 0) Lx) ++ r)
    | Some bottom =>
      w1 <- call_ok (init_left D w (get_row y2) bottom Lx) ;;
      last <- usub Lx 1 ;;
      w2 <- call_ok (init_right D w1 (get_row y2) bottom last) ;;
      s <- scan_row src y2 bottom Lx w2 ;;
      w3 <- call_ok (clear (fst s)) ;;
      w4 <- (if y2 <? Ly - 1 then call_ok (evolve absorb w3 (get_row y2)) else Ok w3) ;;
      r <- targets down_stack src y1 x1 ys' w4 ;;
      Ok (entries y1 x1 y2 (snd s) ++ r)
    end
  end.

(** 122-142: one source site; [w] is a copy of the main walker *)
Definition source (down_stack : list (list tensor)) (y1 x1 : nat) (w : walker) : res (list entry) :=
  let src := cfg y1 x1 =? 0 in
  let row := if src then put_at (get_row y1) x1 (tps y1 x1 1) else get_row y1 in
  w1 <- call_ok (evolve absorb w row) ;;
  targets down_stack src y1 x1 (seq (y1 + 1) (Ly - 1 - y1)) w1.
(** structure_factor_measurement_mixin.h:110-215 *)
Fixpoint source_row (down_stack : list (list tensor)) (y1 : nat) (xs : list nat) (w : walker) : res (list entry) :=
  match xs with
  | [] => Ok []
  | x1 :: xs' => a <- source down_stack y1 x1 w ;; b <- source_row down_stack y1 xs' w ;; Ok (a ++ b)
  end.
(** 119-219: the source rows *)
Fixpoint source_rows (down_stack : list (list tensor)) (ys : list nat) (main : walker) : res (list entry) :=
  match ys with
  | [] => Ok []
  | y1 :: ys' =>
    a <- source_row down_stack y1 (seq 0 Lx) main ;;
    main' <- call_ok (evolve absorb main (get_row y1)) ;;
    b <- source_rows down_stack ys' main' ;;
    Ok (a ++ b)
  end.
(** 97-224.  [Ly - 1] wraps on an empty lattice. *)
Definition structure_factor (up_stack down_stack : list (list tensor)) : res (list entry) :=
  match up_stack with
  | [] => Ok []
  | vac :: _ => m <- usub Ly 1 ;; source_rows down_stack (seq 0 m) (fresh vac 1)
  end.
End Lattice.
End Sf.
