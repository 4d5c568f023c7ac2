(** First-order updates of the optimizer (optimizer/optimizer_impl.h) on split-index TPS. *)
From Coq Require Import List Arith Bool Reals.
From Verif Require Import Base Cplx OptModel MsgModel TpsModel.
Import ListNotations.
Local Open Scope R_scope.

(** 307-318: preprocessing of the gradient on the master; [None]: clipping not requested *)
Definition preprocess (cv cn : option R) (g : state) : res state :=
  g1 <- match cv with Some c => if rlt 0 c then clip_value c g else Ok g | None => Ok g end;;
  match cn with Some c => if rlt 0 c then clip_norm c g1 else Ok g1 | None => Ok g1 end.

(** *** SGD, optimizer_params.h:67-74 *)
Record sgd_params := mkSgd { d_momentum : R; d_nesterov : bool; d_decay : R }.
(** WaveFunctionT(gradient.rows(), gradient.cols(), gradient.PhysicalDim()); (optimizer_impl.h:957-960, 1011-1014) *)
Definition blank_like (g : state) : res state := d <- phys_dim g;; Ok (blank (p_rows g) (p_cols g) d).
(** optimizer_impl.h:963-969, 1351-1356 *)
Definition decay_by (wd lr : R) (w : state) : res state := if rlt 0 wd then scale_by (RtoC (1 - lr * wd)) w else Ok w.
(** 949-997; the velocity is [None] until its lazy initialisation *)
Definition sgd_update (master : bool) (p : sgd_params) (vel : option state) (cur g : state) (lr : R) : res (state * option state) :=
  if negb master then Ok (cur, vel)
  else
    v0 <- match vel with Some v => Ok v | None => blank_like g end;;
    u <- decay_by (d_decay p) lr cur;;
    if rlt 0 (d_momentum p) then
      mv <- scale (RtoC (d_momentum p)) v0;; v1 <- add mv g;;
      if d_nesterov p then
        mv1 <- scale (RtoC (d_momentum p)) v1;; n <- add mv1 g;;
        s <- scale (RtoC (- lr)) n;; u' <- add_to u s;; Ok (u', Some v1)
      else s <- scale (RtoC (- lr)) v1;; u' <- add_to u s;; Ok (u', Some v1)
    else s <- scale (RtoC (- lr)) g;; u' <- add_to u s;; Ok (u', Some v0).
(** 1001-1029; a const member function: it returns a state and changes nothing *)
Definition sgd_preview (master : bool) (p : sgd_params) (vel : option state) (cur g : state) (lr : R) : res state :=
  if negb master then Ok cur
  else
    u <- decay_by (d_decay p) lr cur;;
    if rlt 0 (d_momentum p) then
      v0 <- match vel with Some v => Ok v | None => blank_like g end;;
      mv <- scale (RtoC (d_momentum p)) v0;; v1 <- add mv g;;
      if d_nesterov p then
        mv1 <- scale (RtoC (d_momentum p)) v1;; n <- add mv1 g;;
        s <- scale (RtoC (- lr)) n;; add_to u s
      else s <- scale (RtoC (- lr)) v1;; add_to u s
    else s <- scale (RtoC (- lr)) g;; add_to u s.

(** 1266-1275, 1337-1349: tensors with the indices of the gradient, filled with a constant. On an
    unset gradient tensor the library is used outside its contract. *)
Definition filled_like (x : R) (g : state) : res state :=
  d <- phys_dim g;;
  ss <- map_res (fun rc => map_res (fun i => t <- comp g (fst rc) (snd rc) i;;
                                             match t with Some l => Ok (Some (map (fun _ => RtoC x) l)) | None => Fail UB end) (seq 0 d))
          (sites_of (p_rows g) (p_cols g));;
  Ok (mkS (p_rows g) (p_cols g) false ss).
(** 1291-1300, 1383-1390: updated[i] += -(ElementWiseMultiply(rates[i], dir[i]) * lr), for all
    components of every site *)
Definition step_ten (x y z : ten) (lr : R) : res ten :=
  match x, y, z with
  | Some a, Some b, Some u =>
      m <- zip_ten Cmul a b;; r <- zip_ten Cadd u (map (fun e => - (e * RtoC lr))%C m);; Ok (Some r)
  | _, _, _ => Fail UB
  end.
(** optimizer_impl.h:1291-1300, 1383-1390: the loop over sites and components *)
Definition adaptive_step (cur u rates dir : state) (lr : R) : res state :=
  ss <- map_res (fun rc => s <- site_of cur (fst rc) (snd rc);; us <- site_of u (fst rc) (snd rc);;
                           new <- map_res (fun i => x <- comp rates (fst rc) (snd rc) i;; y <- comp dir (fst rc) (snd rc) i;;
                                                    z <- idx us i;; step_ten x y z lr) (seq 0 (length s));;
                           Ok (new ++ skipn (length s) us))
          (sites_of (p_rows cur) (p_cols cur));;
  Ok (mkS (p_rows u) (p_cols u) (p_bc u) ss).

Section Adaptive.
(** The library's element-wise safe inverse; see TpsModel. *)
Variable inv : R -> C -> C.
(** *** AdaGrad, 1252-1307 *)
Record adagrad_params := mkAda { ada_eps : R; ada_init : R }.
(** optimizer_impl.h:1252-1307 *)
Definition adagrad_update (master : bool) (p : adagrad_params) (acc : option state) (cur g : state) (lr : R) : res (state * option state) :=
  if negb master then Ok (cur, acc)
  else
    a0 <- match acc with Some a => Ok a | None => filled_like (ada_init p) g end;;
    sq <- elem_sq_norm g;; a1 <- add_to a0 sq;;
    rt <- elem_sqrt a1;; rates <- elem_inverse inv (ada_eps p) rt;;
    u <- adaptive_step cur cur rates g lr;; Ok (u, Some a1).
(** *** Adam, 1327-1396 *)
Record adam_params := mkAdam { b1 : R; b2 : R; adam_eps : R; adam_decay : R }.
(** optimizer.h:383-386, optimizer_impl.h:1337-1349 *)
Record adam_state := mkAS { am : state; av : state; at_step : nat }.
(** optimizer_impl.h:1327-1396 *)
Definition adam_update (master : bool) (p : adam_params) (acc : option adam_state) (cur g : state) (lr : R) : res (state * option adam_state) :=
  if negb master then Ok (cur, acc)
  else
    a0 <- match acc with Some a => Ok a | None => m <- filled_like 0 g;; v <- filled_like 0 g;; Ok (mkAS m v 0) end;;
    let t := S (at_step a0) in
    u <- decay_by (adam_decay p) lr cur;;
    x <- scale (RtoC (b1 p)) (am a0);; y <- scale (RtoC (1 - b1 p)) g;; m <- add x y;;
    sq <- elem_sq_norm g;;
    x2 <- scale (RtoC (b2 p)) (av a0);; y2 <- scale (RtoC (1 - b2 p)) sq;; v <- add x2 y2;;
    mh <- scale (RtoC (1 / (1 - b1 p ^ t))) m;;
    vh <- scale (RtoC (1 / (1 - b2 p ^ t))) v;;
    sv <- elem_sqrt vh;; den <- elem_inverse inv (adam_eps p) sv;;
    u' <- adaptive_step cur u den mh lr;; Ok (u', Some (mkAS m v t)).
End Adaptive.

(** A sequence of updates: rate and gradient of each. (successive calls of the update, optimizer_impl.h:550-600) *)
Fixpoint updates {A} (up : option A -> state -> state -> R -> res (state * option A)) (l : list (R * state)) (acc : option A) (w : state) : res (state * option A) :=
  match l with
  | [] => Ok (w, acc)
  | (lr, g) :: t => wa <- up acc w g lr;; updates up t (snd wa) (fst wa)
  end.

(** *** SGD as the optimisation loop runs it. 306-318, 553-555; trial states: 417-428. Where a member
    function would fail on states of different layouts the trial state is left unchanged: the step
    itself fails then. *)
Definition sgd_algorithm (p : sgd_params) (cv cn : option R) : algorithm (W:=state) (G:=state) (A:=option state) (P:=unit) :=
  {| a_natural := false; a_selectable := true;
     a_begin := fun a => a; a_seen := fun a _ _ => Ok a; a_resample := fun a => a; a_rollback := fun a => a;
     a_prepare := fun _ _ _ => Ok tt;
     a_trial := fun a _ w g lr => match (g' <- preprocess cv cn g;; sgd_preview true p a w g' lr) with Ok w' => w' | Fail _ => w end;
     a_step := fun _ a _ w g lr => g' <- preprocess cv cn g;; wv <- sgd_update true p a w g' lr;;
                                   Ok (snd wv, (fst wv, lr), (0, None), 0%nat);
     a_save := fun a => a; a_accept := fun a _ _ => a |}.
