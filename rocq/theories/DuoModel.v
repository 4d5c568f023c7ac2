(** DuoMatrix: owned cells on a heap (two_dim_tn/framework/duomatrix.h). Elements are values of an
    arbitrary type; the raw-pointer setter (187-189), which hands ownership to the caller, is left out. *)
From Coq Require Import List Arith Lia Bool.
From Verif Require Import Base.
Import ListNotations.

Section Duo.
Context {V : Type}.
(** Value of [new ElemT] without arguments. *)
Context (fresh : V).
(** [None]: freed. New cells are appended, so a freed location is never handed out again and every
    use of a stale pointer is visible. ([new] and [delete] in duomatrix.h:45-255) *)
Definition heap := list (option V).
(** raw_data_: vectors of pointers, [None] = nullptr. (duomatrix.h:45, raw_data_) *)
Definition grid := list (list (option nat)).
(** Program variables of type DuoMatrix; [None]: not constructed or destroyed. (objects in scope) *)
Record state := mkState { st_heap : heap; st_objs : list (option grid) }.

(** The four memory primitives. (duomatrix.h:160-180) *)
Definition deref (h : heap) (l : nat) : res V := match nth_error h l with Some (Some v) => Ok v | _ => Fail UB end.
(** assignment to a vector element, duomatrix.h:45-255 *)
Fixpoint put {X} (l : list X) (i : nat) (x : X) : list X :=
  match l, i with [], _ => [] | _ :: t, O => x :: t | a :: t, S j => a :: put t j x end.
(** duomatrix.h:173-180 *)
Definition store (h : heap) (l : nat) (v : V) : res heap := match nth_error h l with Some (Some _) => Ok (put h l (Some v)) | _ => Fail UB end.
(** [delete], duomatrix.h:67-80, 143-152, 234-255 *)
Definition free (h : heap) (l : nat) : res heap := match nth_error h l with Some (Some _) => Ok (put h l None) | _ => Fail UB end.
(** [new ElemT], duomatrix.h:53-60, 222-230 *)
Definition new (h : heap) (v : V) : heap * nat := (h ++ [Some v], length h).

(** A loop that threads the heap and collects results. (loops of duomatrix.h:53-60, 67-90, 248-255) *)
Fixpoint traverse {X Y} (f : heap -> X -> res (heap * Y)) (h : heap) (l : list X) : res (heap * list Y) :=
  match l with
  | [] => Ok (h, [])
  | x :: t => hy <- f h x;; let '(h1, y) := hy in hys <- traverse f h1 t;; let '(h2, ys) := hys in Ok (h2, y :: ys)
  end.
(** 260, 265 *)
Definition g_rows (g : grid) : nat := length g.
(** duomatrix.h:265 *)
Definition g_cols (g : grid) : nat := match g with [] => 0 | r :: _ => length r end.
(** duomatrix.h:187-198 *)
Definition cell (g : grid) (r c : nat) : res (option nat) := row <- idx g r;; idx row c.
(** duomatrix.h:187-192 *)
Definition set_cell (g : grid) (r c : nat) (p : option nat) : res grid := row <- idx g r;; _ <- idx row c;; Ok (put g r (put row c p)).
(** 45 *)
Definition blank (rows cols : nat) : grid := repeat (repeat None cols) rows.
(** 51-60 and 79-87: fresh cells for the elements that are set. *)
Definition clone_ptr (h : heap) (p : option nat) : res (heap * option nat) :=
  match p with
  | None => Ok (h, None)
  | Some l => v <- deref h l;; let '(h', l') := new h v in Ok (h', Some l')
  end.
(** duomatrix.h:51-60, 80-88 *)
Definition copy_grid (h : heap) (g : grid) : res (heap * grid) :=
  traverse (fun h i => traverse (fun h j => p <- cell g i j;; clone_ptr h p) h (seq 0 (g_cols g))) h (seq 0 (g_rows g)).
(** 69-75, 124-130, 143-149: delete every element that is set. *)
Definition free_ptr (h : heap) (p : option nat) : res heap := match p with None => Ok h | Some l => free h l end.
(** duomatrix.h:67-80, 143-152, 248-255 *)
Definition free_grid (h : heap) (g : grid) : res heap :=
  fold_left (fun acc row => fold_left (fun acc p => h <- acc;; free_ptr h p) row acc) g (Ok h).

Inductive op :=
| Construct (x rows cols : nat)      (* 45; x: the variable *)
| Copy (x y : nat)                   (* 51: DuoMatrix x(y) *)
| Assign (x y : nat)                 (* 67: x = y *)
| Move (x y : nat)                   (* 113: DuoMatrix x(std::move(y)) *)
| MoveAssign (x y : nat)             (* 124: x = std::move(y) *)
| Write (x r c : nat) (v : V)        (* 173: x({r,c}) = v *)
| Alloc (x r c : nat)                (* 222 *)
| Dealloc (x r c : nat)              (* 234 *)
| Clear (x : nat)                    (* 248 *)
| Destroy (x : nat).                 (* 143 *)

(** objects in scope *)
Definition obj (s : state) (x : nat) : res grid := match nth_error (st_objs s) x with Some (Some g) => Ok g | _ => Fail UB end.
(** objects in scope *)
Definition set_obj (s : state) (h : heap) (x : nat) (g : option grid) : state := mkState h (put (st_objs s) x g).
(** Constructing needs a free variable. (declaration of a variable) *)
Definition vacant (s : state) (x : nat) : res unit := match nth_error (st_objs s) x with Some None => Ok tt | _ => Fail UB end.

(** 234-239 *)
Definition dealloc_in (hg : heap * grid) (r c : nat) : res (heap * grid) :=
  let '(h, g) := hg in
  p <- cell g r c;;
  match p with None => Ok (h, g) | Some l => h' <- free h l;; g' <- set_cell g r c None;; Ok (h', g') end.

Definition step (s : state) (o : op) : res state :=
  match o with
  | Construct x rows cols => _ <- vacant s x;; Ok (set_obj s (st_heap s) x (Some (blank rows cols)))
  | Copy x y => _ <- vacant s x;; g <- obj s y;; hg <- copy_grid (st_heap s) g;; let '(h, g') := hg in Ok (set_obj s h x (Some g'))
  | Assign x y =>
      gx <- obj s x;; gy <- obj s y;;
      h <- free_grid (st_heap s) gx;;
      (* 76-78: raw_data_ becomes a matrix of null pointers of rhs's size; when x and y are the same
         variable, rhs is that matrix from here on *)
      let src := if x =? y then blank (g_rows gy) (g_cols gy) else gy in
      hg <- copy_grid h src;; let '(h', g') := hg in Ok (set_obj s h' x (Some g'))
  | Move x y =>
      _ <- vacant s x;; g <- obj s y;;
      (* 116-118: rows() and cols() are read after the move, so y is left with no rows *)
      let s1 := set_obj s (st_heap s) x (Some g) in Ok (set_obj s1 (st_heap s1) y (Some (blank 0 0)))
  | MoveAssign x y =>
      gx <- obj s x;; gy <- obj s y;;
      h <- free_grid (st_heap s) gx;;
      (* self-move of a std::vector leaves it in an unspecified state *)
      if x =? y then Fail UB
      else let s1 := set_obj s h x (Some gy) in Ok (set_obj s1 h y (Some (blank 0 0)))
  | Write x r c v =>
      g <- obj s x;; p <- cell g r c;;
      match p with
      | Some l => h <- store (st_heap s) l v;; Ok (set_obj s h x (Some g))
      | None => let '(h, l) := new (st_heap s) fresh in g' <- set_cell g r c (Some l);; h' <- store h l v;; Ok (set_obj s h' x (Some g'))
      end
  | Alloc x r c =>
      g <- obj s x;; p <- cell g r c;;
      h <- free_ptr (st_heap s) p;;
      let '(h', l) := new h fresh in g' <- set_cell g r c (Some l);; Ok (set_obj s h' x (Some g'))
  | Dealloc x r c => g <- obj s x;; hg <- dealloc_in (st_heap s, g) r c;; let '(h, g') := hg in Ok (set_obj s h x (Some g'))
  | Clear x =>
      g <- obj s x;;
      hg <- fold_left (fun acc i => fold_left (fun acc j => hg <- acc;; dealloc_in hg i j) (seq 0 (g_cols g)) acc) (seq 0 (g_rows g)) (Ok (st_heap s, g));;
      let '(h, g') := hg in Ok (set_obj s h x (Some g'))
  | Destroy x => g <- obj s x;; h <- free_grid (st_heap s) g;; Ok (set_obj s h x None)
  end.
(** a sequence of member calls, duomatrix.h:45-255 *)
Definition run (s : state) (ops : list op) : res state := fold_left (fun acc o => s <- acc;; step s o) ops (Ok s).
(** n variables, nothing constructed. (before any declaration) *)
Definition start (n : nat) : state := mkState [] (repeat None n).

(** 160-164: reading an element; a null pointer or a freed cell is undefined. *)
Definition read (s : state) (x r c : nat) : res V :=
  g <- obj s x;; p <- cell g r c;; match p with Some l => deref (st_heap s) l | None => Fail UB end.

(** 92-107 operator==, on pointers and cells. *)
Context (eqv : V -> V -> bool).
(** duomatrix.h:92-107 *)
Definition equal (s : state) (x y : nat) : res bool :=
  gx <- obj s x;; gy <- obj s y;;
  if negb ((g_rows gx =? g_rows gy) && (g_cols gx =? g_cols gy)) then Ok false
  else fold_left (fun acc i => fold_left (fun acc j =>
         b <- acc;; if negb b then Ok false else
         p <- cell gx i j;; q <- cell gy i j;;
         match p, q with
         | Some l, Some m => v <- deref (st_heap s) l;; w <- deref (st_heap s) m;; Ok (eqv v w)
         | _, _ => Ok false
         end) (seq 0 (g_cols gx)) acc) (seq 0 (g_rows gx)) (Ok true).
End Duo.
Arguments op : clear implicits.
Arguments state : clear implicits.

(** *** Iterators, 321-446. Positions only. [None] stands for [cols() - 1] with no columns, which
    wraps to the largest size_t. *)
Definition increment (rows cols : nat) (p : nat * nat) : nat * nat :=
  let '(r, c) := p in
  if match cols with O => true | S m => c <? m end then (r, S c)
  else if match rows with O => true | S m => r <? m end then (S r, 0)
  else (rows, cols).
(** [for (auto &e : m)]: positions dereferenced before end() is reached; dereferencing outside the
    vectors is undefined. Fuel counts loop tests. (duomatrix.h:321-386) *)
Fixpoint iterate (fuel rows cols : nat) (p : nat * nat) (seen : list (nat * nat)) : option (res (list (nat * nat))) :=
  match fuel with
  | O => None
  | S f =>
      if (fst p =? rows) && (snd p =? cols) then Some (Ok (rev seen))
      else if (fst p <? rows) && (snd p <? cols) then iterate f rows cols (increment rows cols p) (p :: seen)
      else Some (Fail UB)
  end.
