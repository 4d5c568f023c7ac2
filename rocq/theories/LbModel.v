(** L-BFGS (optimizer/optimizer_impl.h:619-675, 1399-1660) and learning-rate schedules
    (optimizer/lr_schedulers.h). *)
From Coq Require Import List Arith Bool Reals.
From Verif Require Import Base Cplx OptModel MsgModel TpsModel.
Import ListNotations.
Local Open Scope R_scope.

(** optimizer_params.h:119-152 *)
Record lb_params := mkLbP {
  l_size : nat; l_tol_grad : R; l_tol_change : R; l_max_eval : nat; l_wolfe : bool; l_c1 : R; l_c2 : R; l_min_step : R; l_max_step : R;
  l_min_curv : R; l_damping : bool; l_max_norm : R; l_fallback : bool; l_fb_scale : R }.
(** optimizer.h: LBFGSHistoryPair; (optimizer.h:348-352) *)
Record pair := mkPair { h_s : state; h_y : state; h_rho : R }.
(** Members lbfgs_* of optimizer.h:389-396 and the locals 209-213 of one iteration. An anchor: the
    state and gradient of the last accepted step; [None]: has_anchor is false. *)
Record lb := mkLb { h_hist : list pair; h_anchor : option (state * state); h_skips : nat; h_damps : nat; h_resets : nat;
                    h_snap : option (list pair * option (state * state));
                    h_start : list pair * option (state * state); h_updated : bool }.
(** std::numeric_limits<double>::epsilon(); (used in optimizer_impl.h:1443-1545) *)
Definition dbl_eps : R := / 2 ^ 52.

(** 1399-1401 *)
Definition real_inner (a b : state) : res R := x <- inner a b;; Ok (fst x).
(** 1404-1413 *)
Definition lb_reset (a : lb) : lb := mkLb [] None 0 0 0 None (h_start a) (h_updated a).
(** 1416-1425 *)
Definition lb_save (a : lb) : lb := mkLb (h_hist a) (h_anchor a) (h_skips a) (h_damps a) (h_resets a) (Some (h_hist a, h_anchor a)) (h_start a) (h_updated a).
(** 1428-1440, with the flag cleared in 278, 713, 756 *)
Definition lb_restore (a : lb) : lb :=
  match h_snap a with
  | None => let r := lb_reset a in mkLb (h_hist r) (h_anchor r) (h_skips r) (h_damps r) (h_resets r) (h_snap r) (h_start r) false
  | Some (h, an) => mkLb h an (h_skips a) (h_damps a) (h_resets a) (h_snap a) (h_start a) false
  end.
(** 206-220 *)
Definition lb_begin (a : lb) : lb := mkLb (h_hist a) (h_anchor a) (h_skips a) (h_damps a) (h_resets a) (h_snap a) (h_hist a, h_anchor a) false.
(** 222-231 *)
Definition lb_resample (a : lb) : lb := mkLb (fst (h_start a)) (snd (h_start a)) (h_skips a) (h_damps a) (h_resets a) (h_snap a) (h_start a) false.
(** 1482-1484 *)
Definition keep_last {X} (n : nat) (l : list X) : list X := skipn (length l - n) l.
(** 1458-1470: the pair and its curvature; the flag: damping was applied *)
Definition lb_pair (p : lb_params) (s y : state) : res (state * R * bool) :=
  c <- real_inner s y;;
  if rle c (l_min_curv p) && l_damping p then
    yy <- real_inner y y;;
    if rlt dbl_eps yy then
      x <- scale (RtoC ((l_min_curv p - c + / 10 ^ 15) / yy)) s;; y' <- add_to y x;; c' <- real_inner s y';; Ok (y', c', true)
    else Ok (y, c, false)
  else Ok (y, c, false).
(** 1443-1485 *)
Definition lb_update (p : lb_params) (a : lb) (w g : state) : res lb :=
  match h_anchor a with
  | None => Ok a
  | Some (w0, g0) =>
      if (l_size p =? 0)%nat then Fail Throw
      else
        s <- sub w w0;; y <- sub g g0;; yc <- lb_pair p s y;;
        let '(y', c, damped) := yc in
        let damps := if damped then S (h_damps a) else h_damps a in
        if rle c (l_min_curv p) then Ok (mkLb (h_hist a) (h_anchor a) (S (h_skips a)) damps (h_resets a) (h_snap a) (h_start a) (h_updated a))
        else Ok (mkLb (keep_last (l_size p) (h_hist a ++ [mkPair s y' (1 / c)])) (h_anchor a) (h_skips a) damps (h_resets a) (h_snap a) (h_start a) (h_updated a))
  end.
(** 244-249 *)
Definition lb_seen (p : lb_params) (a : lb) (w g : state) : res lb :=
  if h_updated a then Ok a
  else b <- lb_update p a w g;; Ok (mkLb (h_hist b) (h_anchor b) (h_skips b) (h_damps b) (h_resets b) (h_snap b) (h_start b) true).
(** 1501-1504: newest pair first; the weights alpha in the same order *)
Fixpoint lb_down (l : list pair) (q : state) : res (state * list R) :=
  match l with
  | [] => Ok (q, [])
  | h :: t => x <- real_inner (h_s h) q;; let al := h_rho h * x in
              u <- scale (RtoC (- al)) (h_y h);; q' <- add_to q u;; r <- lb_down t q';; Ok (fst r, al :: snd r)
  end.
(** 1515-1518: oldest pair first *)
Fixpoint lb_up (l : list (pair * R)) (r : state) : res state :=
  match l with
  | [] => Ok r
  | (h, al) :: t => x <- real_inner (h_y h) r;; u <- scale (RtoC (al - h_rho h * x)) (h_s h);; r' <- add_to r u;; lb_up t r'
  end.
(** 1506-1512 *)
Definition lb_gamma (p : lb_params) (h : pair) : res R :=
  yy <- real_inner (h_y h) (h_y h);; sy <- real_inner (h_s h) (h_y h);;
  Ok (if rlt dbl_eps yy && rlt (l_min_curv p) sy then sy / yy else 1).
(** 1523-1528 *)
Definition lb_cap (p : lb_params) (d : state) : res state :=
  if rlt 0 (l_max_norm p) then
    n <- norm_square d;;
    if rlt (l_max_norm p) (sqrt n) && rlt 0 (sqrt n) then scale_by (RtoC (l_max_norm p / sqrt n)) d else Ok d
  else Ok d.
(** 1488-1531 on the master *)
Definition lb_direction (p : lb_params) (hist : list pair) (g : state) : res state :=
  d0 <- scale (RtoC (-1)) g;;
  if (l_size p =? 0)%nat then Fail Throw
  else
    d <- match rev hist with
         | [] => Ok d0
         | last :: _ =>
             qa <- lb_down (rev hist) g;; gamma <- lb_gamma p last;;
             r <- scale (RtoC gamma) (fst qa);; r' <- lb_up (combine hist (rev (snd qa))) r;; scale (RtoC (-1)) r'
         end;;
    lb_cap p d.
(** 1534-1544 *)
Definition fixed_step (w d : state) (lr : R) : res (state * R) :=
  let al := Rmax 0 lr in u <- scale (RtoC al) d;; w' <- add_to w u;; Ok (w', al).

(** *** Strong-Wolfe search, 1547-1660. [probe n alpha]: energy, slope and trial state of the [n]-th
    evaluation (1586-1601). A result carries the number of evaluations made. *)
Section Wolfe.
Context {W : Type}.
Variable p : lb_params.
Variable probe : nat -> R -> res (R * R * W).
Variables phi0 dphi0 : R.
(** optimizer.h:362-366, optimizer_impl.h:1551-1560 *)
Inductive wolfe := Accepted (w : W) (alpha : R) (evals : nat) | Failed (evals : nat).
(** optimizer_impl.h:1570-1600 *)
Definition threshold : R := Rmax (- l_c2 p * dphi0) (l_tol_grad p).
(** 1603-1633; [n]: evaluations left, [k]: evaluations made *)
Fixpoint zoom (n k : nat) (alo phi_alo ahi : R) : res wolfe :=
  match n with
  | O => Ok (Failed k)
  | S n' =>
      let alpha := 1 / 2 * (alo + ahi) in
      x <- probe k alpha;;
      let '(phi, dphi, w) := x in
      if rlt (phi0 + l_c1 p * alpha * dphi0) phi || rle phi_alo phi then
        if rle (Rabs (alpha - alo)) (l_tol_change p) then Ok (Failed (S k)) else zoom n' (S k) alo phi_alo alpha
      else if rle (Rabs dphi) threshold then Ok (Accepted w alpha (S k))
      else
        let ahi' := if rle 0 (dphi * (ahi - alo)) then alo else ahi in
        if rle (Rabs (ahi' - alpha)) (l_tol_change p) then Ok (Failed (S k)) else zoom n' (S k) alpha phi ahi'
  end.
(** 1642-1658; [first]: outer = 0 *)
Fixpoint bracket (n k : nat) (first : bool) (alpha alpha_prev phi_prev : R) : res wolfe :=
  match n with
  | O => Ok (Failed k)
  | S n' =>
      x <- probe k alpha;;
      let '(phi, dphi, w) := x in
      if rlt (phi0 + l_c1 p * alpha * dphi0) phi || (negb first && rle phi_prev phi) then zoom n' (S k) alpha_prev phi_prev alpha
      else if rle (Rabs dphi) threshold then Ok (Accepted w alpha (S k))
      else if rle 0 dphi then zoom n' (S k) alpha phi alpha_prev
      else
        let next := Rmin (alpha * 2) (l_max_step p) in
        if rle (next - alpha) (l_tol_change p) then Ok (Failed (S k)) else bracket n' (S k) false next alpha phi
  end.
(** 1557-1570, 1635-1640; std::clamp requires its bounds in order *)
Definition first_step (lr : R) : res R :=
  if rlt (l_max_step p) (l_min_step p) then Fail UB
  else let c := Rmin (Rmax (Rmax lr (l_min_step p)) (l_min_step p)) (l_max_step p) in Ok (if rle c 0 then l_min_step p else c).
(** optimizer_impl.h:1551-1660 *)
Definition strong_wolfe (lr : R) : res wolfe :=
  if rle (l_c1 p) 0 || rle 1 (l_c1 p) || rle (l_c2 p) (l_c1 p) || rle 1 (l_c2 p) then Fail Throw
  else if (l_max_eval p =? 0)%nat then Fail Throw
  else if rlt (l_tol_grad p) 0 then Fail Throw
  else if rle 0 dphi0 then Ok (Failed 0)
  else al <- first_step lr;; bracket (l_max_eval p) 0 true al 0 phi0.
End Wolfe.

(** 1586-1601; [ev n w]: answer of the evaluator to its [n]-th call; [k0]: calls made before *)
Definition lb_probe (ev : nat -> state -> R * state * R) (k0 : nat) (w d : state) (n : nat) (alpha : R) : res (R * R * state) :=
  u <- scale (RtoC alpha) d;; w' <- add_to w u;;
  let '(e, g, _) := ev (k0 + n)%nat w' in
  x <- real_inner g d;; Ok (e, x, w').
(** 619-672: accumulators, next state, rate used, evaluator calls made. The energy of the current
    state is [e]. *)
Definition lb_step (p : lb_params) (ev : nat -> state -> R * state * R) (e : R) (calls : nat) (a : lb) (w g : state) (lr : R) : res (lb * (state * R) * nat) :=
  d <- lb_direction p (h_hist a) g;; s0 <- real_inner g d;;
  ads <- (if rle 0 s0 then
            d' <- scale (RtoC (-1)) g;; s' <- real_inner g d';;
            Ok (lb_reset (mkLb (h_hist a) (h_anchor a) (h_skips a) (h_damps a) (S (h_resets a)) (h_snap a) (h_start a) (h_updated a)), d', s')
          else Ok (a, d, s0));;
  let '(a', d', s') := ads in
  if negb (l_wolfe p) then ws <- fixed_step w d' lr;; Ok (a', ws, 0%nat)
  else
    r <- strong_wolfe p (lb_probe ev calls w d') e s' lr;;
    match r with
    | Accepted w' al k => Ok (a', (w', al), k)
    | Failed k => if l_fallback p then ws <- fixed_step w d' (Rmax (l_min_step p) (lr * l_fb_scale p));; Ok (a', ws, k) else Fail Throw
    end.
(** L-BFGS in the optimisation loop. The loop hands the step the evaluation it was made with; [eval]
    is the evaluator, so the energy of the current state is its answer to the last call. (optimizer_impl.h:180, 247, 277, 619-675, 712, 755, 843) *)
Definition lb_algorithm (p : lb_params) (eval : nat -> state -> R * state * R) : algorithm (W:=state) (G:=state) (A:=lb) (P:=unit) :=
  {| a_natural := false; a_selectable := false;
     a_begin := lb_begin; a_seen := lb_seen p; a_resample := lb_resample; a_rollback := lb_restore;
     a_prepare := fun _ _ _ => Ok tt; a_trial := fun _ _ w _ _ => w;
     a_step := fun k a _ w g lr =>
       r <- lb_step p eval (fst (fst (eval (k - 1)%nat w))) k a w g lr;; Ok (fst (fst r), snd (fst r), (0, None), snd r);
     a_save := lb_save;
     a_accept := fun a w g => mkLb (h_hist a) (Some (w, g)) (h_skips a) (h_damps a) (h_resets a) (h_snap a) (h_start a) (h_updated a) |}.
(** optimizer_impl.h:1404-1413 *)
Definition lb_fresh : lb := mkLb [] None 0 0 0 None ([], None) false.

(** *** lr_schedulers.h *)
(** 56-79; std::pow with a real exponent *)
Definition exponential_lr (lr0 rate : R) (steps i : nat) : R := lr0 * Rpower rate (INR i / INR steps).
(** 82-104; integer division *)
Definition step_lr (lr0 : R) (size : nat) (gamma : R) (i : nat) : res R :=
  if (size =? 0)%nat then Fail UB else Ok (lr0 * gamma ^ (i / size)).
(** 153-161 *)
Definition cosine_lr (hi : R) (T : nat) (lo : R) (i : nat) : R :=
  if (T =? 0)%nat then lo else lo + 1 / 2 * (hi - lo) * (1 + cos (PI * INR (Nat.min i T) / INR T)).
(** 188-193 *)
Definition warmup_lr (base : R) (steps : nat) (lo : R) (i : nat) : R :=
  if (steps =? 0)%nat then base else if (steps <=? i)%nat then base else lo + (base - lo) * (INR (i + 1) / INR steps).
(** 216-227: std::upper_bound on the sorted milestones *)
Fixpoint upper_bound (l : list nat) (i : nat) : nat :=
  match l with [] => 0 | m :: t => if (m <=? i)%nat then S (upper_bound t i) else 0%nat end.
(** std::sort, lr_schedulers.h:217 *)
Fixpoint insert_sorted (x : nat) (l : list nat) : list nat :=
  match l with [] => [x] | y :: t => if (x <=? y)%nat then x :: l else y :: insert_sorted x t end.
(** std::sort, lr_schedulers.h:217 *)
Definition sort_up (l : list nat) : list nat := fold_right insert_sorted [] l.
(** lr_schedulers.h:219-223 *)
Definition multistep_lr (lr0 : R) (milestones : list nat) (gamma : R) (i : nat) : R := lr0 * gamma ^ (upper_bound (sort_up milestones) i).
(** 107-133: mutable rate, counter and best energy *)
Record plateau := mkPl { pl_lr : R; pl_count : nat; pl_best : R }.
(** lr_schedulers.h:114-119 *)
Definition plateau_fresh (lr0 : R) : plateau := mkPl lr0 0 dbl_max.
(** lr_schedulers.h:120-133 *)
Definition plateau_lr (factor : R) (patience : nat) (thr : R) (s : plateau) (e : R) : R * plateau :=
  let s' := if rlt e (pl_best s - thr) then mkPl (pl_lr s) 0 e
            else if (patience <=? S (pl_count s))%nat then mkPl (pl_lr s * factor) 0 e
            else mkPl (pl_lr s) (S (pl_count s)) (pl_best s) in
  (pl_lr s', s').
(** Successive calls. (lr_schedulers.h:120-133) *)
Fixpoint plateau_rates (factor : R) (patience : nat) (thr : R) (s : plateau) (es : list R) : list R :=
  match es with [] => [] | e :: t => let '(r, s') := plateau_lr factor patience thr s e in r :: plateau_rates factor patience thr s' t end.
