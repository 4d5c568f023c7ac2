(** Configuration: files, random generation, message passing (vmc_basic/configuration.h). *)
From Coq Require Import String Ascii List Arith NArith Lia Bool Permutation.
From Verif Require Import Base.
Import ListNotations.
Local Open Scope nat_scope.

Notation text := (list ascii).
(** string literals of configuration.h:284-430 *)
Definition str (s : string) : text := list_ascii_of_string s.

(** *** Formatted output and input of size_t; (the stream insertion used in configuration.h:306, 457-465) *)
Definition digit (d : N) : ascii := ascii_of_N (48 + d).
(** [os << n]: decimal, no padding. Fuel: the number itself is always enough. (as used in configuration.h:306, 457-465) *)
Fixpoint digits (fuel : nat) (n : N) (acc : text) : text :=
  match fuel with
  | O => acc
  | S f => if (n <? 10)%N then digit n :: acc else digits f (n / 10)%N (digit (n mod 10)%N :: acc)
  end.
(** [os << n] in configuration.h:306, 457-465 *)
Definition render (n : N) : text := digits (S (N.to_nat (N.log2 n))) n [].
(** white space skipped by [is >> n], configuration.h:366, 403, 446-455 *)
Definition is_space (c : ascii) : bool := let n := N_of_ascii c in ((n =? 32) || ((9 <=? n) && (n <=? 13)))%N.
(** digits read by [is >> n], configuration.h:366, 403, 446-455 *)
Definition is_digit (c : ascii) : bool := let n := N_of_ascii c in ((48 <=? n) && (n <=? 57))%N.
(** [is >> n], configuration.h:366, 403, 446-455 *)
Fixpoint skip_spaces (s : text) : text := match s with c :: t => if is_space c then skip_spaces t else s | [] => [] end.
(** [is >> n], configuration.h:366, 403, 446-455 *)
Fixpoint take_digits (s : text) (acc : N) (seen : bool) : N * bool * text :=
  match s with
  | c :: t => if is_digit c then take_digits t (10 * acc + (N_of_ascii c - 48))%N true else (acc, seen, s)
  | [] => (acc, seen, [])
  end.
(** range of size_t *)
Definition limit : N := 2 ^ 64.
(** [is >> n] for size_t in the classic locale: skip white space (an exhausted stream fails and leaves
    the variable alone), an optional sign, decimal digits. No digit: zero is stored and the stream
    fails; too large: the largest value is stored and it fails; a minus sign negates modulo 2^64. *)
Inductive extracted := Read (n : N) (rest : text) | Stored (n : N) | Untouched.
(** [is >> n], configuration.h:366, 403, 446-455 *)
Definition extract (s : text) : extracted :=
  match skip_spaces s with
  | [] => Untouched
  | c :: t =>
      let neg := Ascii.eqb c "-" in
      let body := if neg || Ascii.eqb c "+" then t else c :: t in
      let '(n, seen, rest) := take_digits body 0%N false in
      if negb seen then Stored 0
      else if (limit <=? n)%N then Stored (limit - 1)
      else Read (if neg then (limit - n) mod limit else n)%N rest
  end.

(** *** Configurations: cells by row and column; [None]: no readable value (null or uninitialised). (DuoMatrix<size_t>, configuration.h:57) *)
Record cfg := mkCfg { c_rows : nat; c_cols : nat; c_cell : nat -> nat -> option N }.
(** assignment to one site, configuration.h:127-215, 436-455 *)
Definition set_c (f : nat -> nat -> option N) (r c : nat) (v : option N) : nat -> nat -> option N :=
  fun r' c' => if (r' =? r) && (c' =? c) then v else f r' c'.
(** reading one site, configuration.h:222-250, 457-465 *)
Definition cell_of (k : cfg) (r c : nat) : res N := match c_cell k r c with Some n => Ok n | None => Fail UB end.
(** the row-column loops of configuration.h:284-465 *)
Fixpoint for_res {X A} (l : list X) (a : A) (f : A -> X -> res A) : res A :=
  match l with [] => Ok a | x :: t => a' <- f a x;; for_res t a' f end.

(** 440-447 StreamWrite *)
Definition stream_write (k : cfg) : res text :=
  for_res (seq 0 (c_rows k)) [] (fun out row =>
    last <- usub (c_cols k) 1;;
    out1 <- for_res (seq 0 last) out (fun out col => n <- cell_of k row col;; Ok (out ++ render n ++ str " "));;
    n <- cell_of k row last;; Ok (out1 ++ render n ++ [ascii_of_N 10])).
(** 429-438 StreamRead: [inl]: finished; [inr]: threw, with the cells as they were left. *)
Fixpoint read_cells (l : list (nat * nat)) (s : text) (f : nat -> nat -> option N) : (nat -> nat -> option N) + (nat -> nat -> option N) :=
  match l with
  | [] => inl f
  | (r, c) :: t =>
      match extract s with
      | Read n rest => read_cells t rest (set_c f r c (Some n))
      | Stored n => inr (set_c f r c (Some n))
      | Untouched => inr f
      end
  end.
(** the double loops of configuration.h:68-74, 224-230, 446-465 *)
Definition positions (rows cols : nat) : list (nat * nat) := flat_map (fun r => map (fun c => (r, c)) (seq 0 cols)) (seq 0 rows).

(** *** Files; (file names, configuration.h:284-430) *)
Definition path := text.
(** the file system seen by configuration.h:284-430 *)
Definition fs := path -> option text.
(** comparison of file names *)
Definition text_eqb (a b : text) : bool := if list_eq_dec ascii_dec a b then true else false.
(** Opening for writing truncates; characters are appended in order. A crash can fall between any
    two of these; buffering only delays appends of one file. (std::ofstream in configuration.h:287-307, 320-338) *)
Inductive event := Truncate (p : path) | Append (p : path) (c : ascii).
(** std::ofstream in configuration.h:287-307, 320-338 *)
Definition effect (d : fs) (e : event) : fs :=
  match e with
  | Truncate p => fun q => if text_eqb q p then Some [] else d q
  | Append p c => fun q => if text_eqb q p then match d q with Some s => Some (s ++ [c]) | None => Some [c] end else d q
  end.
(** effect of a prefix of the steps, configuration.h:284-340 *)
Definition apply_events (d : fs) (es : list event) : fs := fold_left effect es d.
(** 283, 289, 346: names *)
Definition data_path (dir : path) (label : N) : path := dir ++ str "/configuration" ++ render label.
(** configuration.h:303, 334, 362, 399 *)
Definition shape_path (dir : path) (label : N) : path := data_path dir label ++ str ".shape".
(** configuration.h:287-307, 320-338 *)
Definition write_file (p : path) (s : text) : list event := Truncate p :: map (Append p) s.
(** 281-305 Dump, without I/O errors *)
Definition dump (k : cfg) (dir : path) (label : N) : res (list event) :=
  s <- stream_write k;;
  Ok (write_file (data_path dir label) s ++
      write_file (shape_path dir label) (render (N.of_nat (c_rows k)) ++ str " " ++ render (N.of_nat (c_cols k)) ++ [ascii_of_N 10])).
(** 352-359 *)
Definition shape_ok (s : text) (k : cfg) : bool :=
  match extract s with
  | Read r rest => match extract rest with Read c _ => ((r =? N.of_nat (c_rows k)) && (c =? N.of_nat (c_cols k)))%N | _ => false end
  | _ => false
  end.
(** 345-381 Load *)
Definition load (d : fs) (dir : path) (label : N) (k : cfg) : bool * cfg :=
  if match d (shape_path dir label) with Some s => negb (shape_ok s k) | None => false end then (false, k)
  else match d (data_path dir label) with
       | None => (false, k)
       | Some s =>
           match read_cells (positions (c_rows k) (c_cols k)) s (c_cell k) with
           | inl f => (true, mkCfg (c_rows k) (c_cols k) f)
           | inr f => (false, mkCfg (c_rows k) (c_cols k) f)
           end
       end.

(** *** Random generation, 130-222 *)
(** 420-426 SetFromList; vector::at *)
Definition set_from_list (rows cols : nat) (l : list nat) : res (list (list nat)) :=
  for_res (seq 0 rows) [] (fun out row =>
    r <- for_res (seq 0 cols) [] (fun out col => x <- at_ l (row * cols + col);; Ok (out ++ [x]));; Ok (out ++ [r])).
(** 130-165 / 181-213: the list before the shuffle; the map version passes (state, number) pairs. *)
Definition fill_states (occ : list (nat * nat)) : list nat := flat_map (fun so => repeat (fst so) (snd so)) occ.
(** [shuffle]: what std::shuffle makes of the list. (configuration.h:127-175, 182-215) *)
Definition random_config (rows cols : nat) (shuffle : list nat -> list nat) (occ : list (nat * nat)) : res (list (list nat)) :=
  let sum := fold_left (fun s so => s + snd so) occ 0 in
  if negb (sum =? rows * cols) then Fail Throw
  else set_from_list rows cols (shuffle (fill_states occ)).
(** configuration.h:127-175 *)
Definition random_occupancy (rows cols : nat) (shuffle : list nat -> list nat) (occ : list nat) : res (list (list nat)) :=
  random_config rows cols shuffle (combine (seq 0 (length occ)) occ).
(** 236-252 CountOccupancy, over the elements in iteration order *)
Fixpoint bump (l : list nat) (i : nat) : list nat := match l, i with [], _ => [] | a :: t, O => S a :: t | a :: t, S j => a :: bump t j end.
(** configuration.h:238-255 *)
Definition count_occupancy (k : list (list nat)) : list nat :=
  let elems := concat k in
  match elems with
  | [] => []
  | _ => let m := fold_left Nat.max elems 0 in fold_left bump elems (repeat 0 (S m))
  end.

(** *** Messages of plain numbers, 462-563: row-major packing into one buffer. *)
Definition pack (k : cfg) : res (list N) :=
  for_res (positions (c_rows k) (c_cols k)) (repeat 0%N (c_rows k * c_cols k)) (fun buf p =>
    n <- cell_of k (fst p) (snd p);;
    let i := fst p * c_cols k + snd p in
    if i <? length buf then Ok (firstn i buf ++ n :: skipn (S i) buf) else Fail UB).
(** configuration.h:478-568 *)
Definition unpack (buf : list N) (k : cfg) : res cfg :=
  f <- for_res (positions (c_rows k) (c_cols k)) (c_cell k) (fun f p =>
         n <- idx buf (fst p * c_cols k + snd p);; Ok (set_c f (fst p) (snd p) (Some n)));;
  Ok (mkCfg (c_rows k) (c_cols k) f).
