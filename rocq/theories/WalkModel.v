(** The boundary-MPS walker: include/qlpeps/two_dim_tn/tensor_network_2d/bmps/impl/bmps_walker.h, the class
    in bmps_contractor.h:357-640 and the contractions of impl/bten_operations.h (bosonic branches).

    A tensor is its table of elements, a function of the list of its index values.  Every leg ranges over
    [0 .. D-1]: legs of smaller dimension are padded with zeros.  The fermionic branches, and the check
    in ContractRow that the dimensions of the six residual legs are one, are not modelled. *)
From Coq Require Import List Arith Lia Bool ZArith Reals.
From Verif Require Import Base Cplx.
Import ListNotations.

(** QLTensor as used in impl/bmps_walker.h:13-465 *)
Definition tensor := list nat -> C.

Section Contract.
Variable D : nat.

(** all the index values of [n] legs; (index values of a contraction, impl/bmps_walker.h:130-165) *)
Fixpoint tuples (n : nat) : list (list nat) :=
  match n with
  | 0 => [[]]
  | S m => flat_map (fun x => map (cons x) (tuples m)) (seq 0 D)
  end.

(** qlten::Contract, impl/bmps_walker.h:130-165 *)
Fixpoint find_axis (i : nat) (l : list nat) : option nat :=
  match l with [] => None | x :: l' => if x =? i then Some 0 else option_map S (find_axis i l') end.
(** the index of a tensor of rank [r] whose axes [l] take the values [v] and whose axes [f] take [o]; (qlten::Contract, impl/bmps_walker.h:130-165) *)
Definition index (r : nat) (l v f o : list nat) : list nat :=
  map (fun i => match find_axis i l with
                | Some k => nth k v 0
                | None => match find_axis i f with Some k => nth k o 0 | None => 0 end
                end) (seq 0 r).
(** qlten's Contract: sum over the paired axes [la] of [a] and [lb] of [b]; the result carries the axes
    [fa] of [a], then [fb] of [b]; (as called in impl/bmps_walker.h:130-165) *)
Definition contract (ra : nat) (a : tensor) (la fa : list nat) (rb : nat) (b : tensor) (lb fb : list nat) : tensor :=
  fun o => sumC (fun v => Cmul (a (index ra la v fa (firstn (length fa) o)))
                               (b (index rb lb v fb (skipn (length fa) o)))) (tuples (length la)).
(** Contract(&a, la, &b, lb, &c): the free axes keep their order; (qlten::Contract, impl/bmps_walker.h:130-165) *)
Definition free_axes (r : nat) (l : list nat) : list nat :=
  filter (fun i => negb (existsb (Nat.eqb i) l)) (seq 0 r).
(** qlten::Contract, impl/bmps_walker.h:130-165 *)
Definition contract_axes ra a la rb b lb : tensor := contract ra a la (free_axes ra la) rb b lb (free_axes rb lb).
(** Contract<..>(a, b, sa, sb, n, c): [n] consecutive axes, cyclically, from [sa] and from [sb]; the free
    axes follow them cyclically; (impl/bten_operations.h:20-120) *)
Definition cyclic (r s n : nat) : list nat := map (fun k => (s + k) mod r) (seq 0 n).
(** impl/bten_operations.h:20-120 *)
Definition contract_cyclic ra (a : tensor) (sa : nat) rb (b : tensor) (sb n : nat) : tensor :=
  contract ra a (cyclic ra sa n) (cyclic ra (sa + n) (ra - n)) rb b (cyclic rb sb n) (cyclic rb (sb + n) (rb - n)).

(** bten_operations.h:67-95 and 108-138: one at index zero of every leg *)
Definition vacuum : tensor := fun o => if forallb (Nat.eqb 0) o then RtoC 1 else RtoC 0.
(** bten_operations.h:155-188, GrowBTenLeftStep *)
Definition grow_left (bten up site down : tensor) : tensor :=
  let tmp1 := contract_cyclic 3 up 2 3 bten 0 1 in
  let tmp2 := contract_cyclic 4 tmp1 1 4 site 3 2 in
  contract_axes 4 tmp2 [0; 2] 3 down [0; 1].
(** bten_operations.h:205-233, GrowBTenRightStep *)
Definition grow_right (bten down site up : tensor) : tensor :=
  let tmp1 := contract_cyclic 3 down 2 3 bten 0 1 in
  let tmp2 := contract_cyclic 4 tmp1 1 4 site 1 2 in
  contract_axes 4 tmp2 [0; 2] 3 up [0; 1].
(** bten_operations.h:250-278, TraceBTen *)
Definition trace (up left site down right : tensor) : C :=
  let tmp0 := contract_cyclic 3 up 2 3 left 0 1 in
  let tmp1 := contract_cyclic 4 tmp0 1 4 site 3 2 in
  let tmp2 := contract_axes 4 tmp1 [0; 2] 3 down [0; 1] in
  contract_axes 3 tmp2 [0; 1; 2] 3 right [2; 1; 0] [].

(** the data members, bmps_contractor.h:625-640.  The UP boundary MPS is stored from right to left.  The
    column counters are [size_t]; [Z] with explicit wrapping. *)
Record walker := mkWalker {
  w_up : list tensor;
  w_left : list tensor;  w_left_col : Z;
  w_right : list tensor; w_right_col : Z;
  w_stack : nat
}.
(** size_t arithmetic, impl/bmps_walker.h:23-45 *)
Definition wrap (z : Z) : Z := (z mod 2 ^ 64)%Z.

(** what a call does besides changing the walker; (return, exception or undefined behaviour of impl/bmps_walker.h:13-465) *)
Inductive outcome := Done | Value (c : C) | Threw | Undefined.

(** operator[] of the vectors, impl/bmps_walker.h:57-465 *)
Definition get (l : list tensor) (i : nat) (k : tensor -> walker * outcome) (w : walker) : walker * outcome :=
  match nth_error l i with Some t => k t | None => (w, Undefined) end.

(** bmps_walker.h:55-207, ContractRow, called on an UP walker with a DOWN boundary.  One column: *)
Definition column_tensor (top site bot : tensor) : tensor :=
  let top_site := contract_axes 3 top [1] 4 site [3] in
  contract_axes 5 top_site [3] 3 bot [1].
(** impl/bmps_walker.h:115-190 *)
Fixpoint row_loop (n i : nat) (k : nat) (up mpo opp : list tensor) (acc : tensor) : option tensor :=
  match k with
  | 0 => Some acc
  | S k' =>
    match nth_error up i, nth_error mpo (n - 1 - i), nth_error opp (n - 1 - i) with
    | Some top, Some site, Some bot =>
      let column := column_tensor top site bot in
      let acc' := if i =? 0 then column
                  else if i =? 1 then contract_axes 6 acc [1; 2; 4] 6 column [0; 3; 5]
                  else contract_axes 6 acc [3; 4; 5] 6 column [0; 3; 5] in
      row_loop n (i + 1) k' up mpo opp acc'
    | _, _, _ => None
    end
  end.
(** impl/bmps_walker.h:57-203 *)
Definition contract_row (w : walker) (mpo opp : list tensor) : outcome :=
  let n := length (w_up w) in
  if (n =? 0) || negb (length mpo =? n) || negb (length opp =? n) then Threw
  else match row_loop n 0 n (w_up w) mpo opp (fun _ => RtoC 0) with
       | Some acc => Value (acc [0; 0; 0; 0; 0; 0])
       | None => Undefined
       end.

(** impl/bmps_walker.h:88-97, 212-216 *)
Definition mismatch (w : walker) (mpo opp : list tensor) : bool :=
  let n := length (w_up w) in (n =? 0) || negb (length mpo =? n) || negb (length opp =? n).

(** bmps_walker.h:263-306, GrowBTenLeftStep *)
Definition grow_left_step (w : walker) (mpo opp : list tensor) : walker * outcome :=
  let n := length (w_up w) in
  if mismatch w mpo opp then (w, Threw) else
  match w_left w with
  | [] => if negb (w_left_col w =? 0)%Z then (w, Threw) else
      let w1 := mkWalker (w_up w) [vacuum] (w_left_col w) (w_right w) (w_right_col w) (w_stack w) in
      get (w_up w) (n - 1 - 0) (fun u => get mpo 0 (fun s => get opp 0 (fun d =>
        (mkWalker (w_up w) [vacuum; grow_left vacuum u s d] (wrap (w_left_col w + 1)) (w_right w) (w_right_col w) (w_stack w), Done)) w1) w1) w1
  | _ =>
    if (Z.of_nat n <=? w_left_col w)%Z then (w, Threw) else
    let col := Z.to_nat (w_left_col w) in
    match rev (w_left w) with
    | b :: _ =>
      get (w_up w) (n - 1 - col) (fun u => get mpo col (fun s => get opp col (fun d =>
        (mkWalker (w_up w) (w_left w ++ [grow_left b u s d]) (wrap (w_left_col w + 1)) (w_right w) (w_right_col w) (w_stack w), Done)) w) w) w
    | [] => (w, Undefined)
    end
  end.

(** bmps_walker.h:308-340, GrowBTenRightStep: the sizes are not checked *)
Definition grow_right_step (w : walker) (mpo opp : list tensor) : walker * outcome :=
  let n := length (w_up w) in
  match rev (w_right w) with
  | [] => (w, Threw)
  | b :: _ =>
    if (w_right_col w =? 0)%Z then (w, Threw) else
    let col := Z.to_nat (w_right_col w - 1) in
    if n <=? col then (w, Undefined) else
    get opp col (fun d => get mpo col (fun s => get (w_up w) (n - 1 - col) (fun u =>
      (mkWalker (w_up w) (w_left w) (w_left_col w) (w_right w ++ [grow_right b d s u]) (wrap (w_right_col w - 1)) (w_stack w), Done)) w) w) w
  end.

(** the while loops of bmps_walker.h:231-233 and 256-258 *)
Fixpoint init_left_loop (fuel : nat) (target : nat) (mpo opp : list tensor) (w : walker) : walker * outcome :=
  if ((w_left_col w <? Z.of_nat target) && (w_left_col w <? Z.of_nat (length (w_up w))))%Z then
    match fuel with
    | 0 => (w, Undefined)
    | S f => match grow_left_step w mpo opp with
             | (w', Done) => init_left_loop f target mpo opp w'
             | r => r
             end
    end
  else (w, Done).
(** impl/bmps_walker.h:234-258 *)
Fixpoint init_right_loop (fuel : nat) (target : nat) (mpo opp : list tensor) (w : walker) : walker * outcome :=
  if ((wrap (Z.of_nat target + 1) <? w_right_col w) && (0 <? w_right_col w))%Z then
    match fuel with
    | 0 => (w, Undefined)
    | S f => match grow_right_step w mpo opp with
             | (w', Done) => init_right_loop f target mpo opp w'
             | r => r
             end
    end
  else (w, Done).
(** bmps_walker.h:209-235, InitBTenLeft *)
Definition init_left (w : walker) (mpo opp : list tensor) (target : nat) : walker * outcome :=
  if mismatch w mpo opp then (w, Threw) else
  init_left_loop (length (w_up w)) target mpo opp
    (mkWalker (w_up w) [vacuum] 0 (w_right w) (w_right_col w) (w_stack w)).
(** bmps_walker.h:237-261, InitBTenRight *)
Definition init_right (w : walker) (mpo opp : list tensor) (target : nat) : walker * outcome :=
  if mismatch w mpo opp then (w, Threw) else
  init_right_loop (length (w_up w)) target mpo opp
    (mkWalker (w_up w) (w_left w) (w_left_col w) [vacuum] (Z.of_nat (length (w_up w))) (w_stack w)).

(** bmps_walker.h:342-366, ShiftBTenWindow *)
Definition shift_left (w : walker) (mpo opp : list tensor) : walker * outcome :=
  match w_left w with
  | [] => (w, Threw)
  | _ => grow_right_step (mkWalker (w_up w) (removelast (w_left w)) (wrap (w_left_col w - 1)) (w_right w) (w_right_col w) (w_stack w)) mpo opp
  end.
(** bmps_contractor.h:560-640, impl/bmps_walker.h:380-465 *)
Definition shift_right (w : walker) (mpo opp : list tensor) : walker * outcome :=
  match w_right w with
  | [] => (w, Threw)
  | _ => grow_left_step (mkWalker (w_up w) (w_left w) (w_left_col w) (removelast (w_right w)) (wrap (w_right_col w + 1)) (w_stack w)) mpo opp
  end.
(** bmps_contractor.h:584, ClearBTen *)
Definition clear (w : walker) : walker * outcome := (mkWalker (w_up w) [] 0 [] 0 (w_stack w), Done).

(** bmps_walker.h:368-407, TraceWithBTen *)
Definition trace_with (w : walker) (site : tensor) (col : nat) (opp : list tensor) : outcome :=
  let n := length (w_up w) in
  match w_left w, w_right w with
  | [], _ | _, [] => Threw
  | _, _ =>
    if (w_left_col w <? Z.of_nat col)%Z then Threw else
    if (Z.of_nat col + 1 <? w_right_col w)%Z then Threw else
    match nth_error (w_left w) col with
    | None => Undefined
    | Some l =>
      (* n - 1 - col wraps to a huge index when col >= n *)
      if (n <=? col) || (length (w_right w) <=? n - 1 - col) then Threw else
      match nth_error (w_right w) (n - 1 - col), nth_error (w_up w) (n - 1 - col), nth_error opp col with
      | Some r, Some u, Some d => Value (trace u l site d r)
      | _, _, _ => Undefined
      end
    end
  end.
(** bmps_walker.h:409-461, TraceWithTwoSiteBTen *)
Definition trace_two (w : walker) (site_a site_b : tensor) (col : nat) (opp : list tensor) : outcome :=
  let n := length (w_up w) in
  if n <=? col + 1 then Threw else
  match w_left w, w_right w with
  | [], _ | _, [] => Threw
  | _, _ =>
    if (w_left_col w <? Z.of_nat col)%Z then Threw else
    if (Z.of_nat col + 2 <? w_right_col w)%Z then Threw else
    if length (w_left w) <=? col then Threw else
    if length (w_right w) <=? n - 2 - col then Threw else
    match nth_error (w_left w) col, nth_error (w_right w) (n - 2 - col),
          nth_error (w_up w) (n - 1 - col), nth_error opp col,
          nth_error (w_up w) (n - 1 - (col + 1)), nth_error opp (col + 1) with
    | Some l, Some r, Some ua, Some da, Some ub, Some db =>
      Value (trace ub (grow_left l ua site_a da) site_b db r)
    | _, _, _, _, _, _ => Undefined
    end
  end.

(** bmps_walker.h:13-20, Evolve: the boundary is replaced; the cached boundary tensors are not touched.
    [absorb] stands for MultiplyMPO. *)
Variable absorb : list tensor -> list tensor -> list tensor.
(** impl/bmps_walker.h:13-21 *)
Definition evolve (w : walker) (mpo : list tensor) : walker * outcome :=
  (mkWalker (absorb (w_up w) mpo) (w_left w) (w_left_col w) (w_right w) (w_right_col w) (w_stack w), Done).

(** bmps_walker.h:22-45, EvolveStep, the choice of the row or column to absorb; [None] is the early return,
    [Some (Fail UB)] an index outside the lattice *)
Definition evolve_choice (p : pos) (rows cols stack : nat) : option (res nat) :=
  match p with
  | UP => match usub rows 1 with
          | Fail e => Some (Fail e)
          | Ok m => if m <=? stack - 1 then None else Some (Ok (stack - 1))
          end
  | LEFT => match usub cols 1 with
            | Fail e => Some (Fail e)
            | Ok m => if m <=? stack - 1 then None else Some (Ok (stack - 1))
            end
  | DOWN => Some (usub rows stack)
  | RIGHT => Some (usub cols stack)
  end.

(** calls on a walker with one row of site tensors and one opposite boundary; (bmps_contractor.h:350-640) *)
Inductive call :=
| InitLeft (target : nat)
| InitRight (target : nat)
| GrowLeft
| GrowRight
| ShiftLeft
| ShiftRight
| Clear.
(** dispatch, impl/bmps_walker.h:13-465 *)
Definition step (mpo opp : list tensor) (c : call) (w : walker) : walker * outcome :=
  match c with
  | InitLeft t => init_left w mpo opp t
  | InitRight t => init_right w mpo opp t
  | GrowLeft => grow_left_step w mpo opp
  | GrowRight => grow_right_step w mpo opp
  | ShiftLeft => shift_left w mpo opp
  | ShiftRight => shift_right w mpo opp
  | Clear => clear w
  end.
(** a history; a call that throws leaves the walker as it stands, and the caller may go on; (successive calls, impl/bmps_walker.h:13-465) *)
Fixpoint run (mpo opp : list tensor) (l : list call) (w : walker) : walker :=
  match l with [] => w | c :: l' => run mpo opp l' (fst (step mpo opp c w)) end.
End Contract.

(** GetWalker, bmps_walker.h:47-53, and the default members *)
Definition fresh (up : list tensor) (stack : nat) : walker := mkWalker up [] 0 [] 0 stack.
