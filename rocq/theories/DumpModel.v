(** Dumping and loading split-index TPS, TPS and PEPS (two_dim_tn/tps/split_index_tps_impl.h,
    two_dim_tn/tps/tps_impl.h, two_dim_tn/peps/square_lattice_peps_basic_impl.h,
    two_dim_tn/framework/ten_matrix.h).
    A directory maps file names to contents. Writing a file first makes it empty, then fills it. The stream
    format of a tensor belongs to the tensor library: a tensor file is either complete or torn, and reading a
    torn one fails. Metadata are modelled character by character. Names in a directory are distinct for
    distinct site and component; that "%d_%d_%d" is injective is not modelled. *)
From Coq Require Import String Ascii List Arith Bool Decimal DecimalNat.
From Verif Require Import Base MsgModel.
Import ListNotations.
Local Open Scope nat_scope.

(** *** Text; (the characters of split_index_tps_impl.h:301-440) *)
Inductive char := C0 | C1 | C2 | C3 | C4 | C5 | C6 | C7 | C8 | C9 | Blank.
(** std::to_string / operator<<, split_index_tps_impl.h:301-440 *)
Fixpoint chars (u : uint) : list char :=
  match u with
  | Nil => [] | D0 u => C0 :: chars u | D1 u => C1 :: chars u | D2 u => C2 :: chars u | D3 u => C3 :: chars u | D4 u => C4 :: chars u
  | D5 u => C5 :: chars u | D6 u => C6 :: chars u | D7 u => C7 :: chars u | D8 u => C8 :: chars u | D9 u => C9 :: chars u
  end.
(** [ofs << n]; (split_index_tps_impl.h:322) *)
Definition print (n : nat) : list char := chars (Nat.to_uint n).
(** operator>>, split_index_tps_impl.h:333-380 *)
Fixpoint take (l : list char) : uint * list char :=
  match l with
  | C0 :: t => let '(u, r) := take t in (D0 u, r) | C1 :: t => let '(u, r) := take t in (D1 u, r)
  | C2 :: t => let '(u, r) := take t in (D2 u, r) | C3 :: t => let '(u, r) := take t in (D3 u, r)
  | C4 :: t => let '(u, r) := take t in (D4 u, r) | C5 :: t => let '(u, r) := take t in (D5 u, r)
  | C6 :: t => let '(u, r) := take t in (D6 u, r) | C7 :: t => let '(u, r) := take t in (D7 u, r)
  | C8 :: t => let '(u, r) := take t in (D8 u, r) | C9 :: t => let '(u, r) := take t in (D9 u, r)
  | _ => (Nil, l)
  end.
(** operator>>, split_index_tps_impl.h:333-380 *)
Fixpoint skip (l : list char) : list char := match l with Blank :: t => skip t | _ => l end.
(** [ifs >> n]; [None]: the stream fails and stays failed; (split_index_tps_impl.h:333-380) *)
Definition scan (l : list char) : option (nat * list char) :=
  match take (skip l) with (Nil, _) => None | (u, r) => Some (Nat.of_uint u, r) end.

(** *** Files *)
Section D.
Context {T : Type}.
(** file names, split_index_tps_impl.h:267-330 *)
Inductive file := TenFile (r c k : nat) | MetaFile | OldMetaFile.
(** file contents, split_index_tps_impl.h:301-330 and ten_matrix.h:97-130 *)
Inductive content := Torn | Tensor (t : T) | Text (l : list char).
(** comparison of the names above *)
Definition file_eq_dec (a b : file) : {a = b} + {a <> b}.
Proof. decide equality; apply Nat.eq_dec. Defined.
(** the directory of split_index_tps_impl.h:301-440 *)
Definition dir := file -> option content.
(** an empty directory, the start of split_index_tps_impl.h:301 *)
Definition fresh : dir := fun _ => None.
(** replacing one file, ten_matrix.h:97-130 *)
Definition put (d : dir) (f : file) (x : content) : dir := fun g => if file_eq_dec g f then Some x else d g.
(** what a process does to the directory, one step at a time; (split_index_tps_impl.h:301-330, ten_matrix.h:97-130) *)
Inductive event := Open (f : file) | WriteTensor (f : file) (t : T) | OpenMeta | WriteChar (c : char).
(** effect of one step, split_index_tps_impl.h:301-330, ten_matrix.h:97-130 *)
Definition apply_event (d : dir) (e : event) : dir :=
  match e with
  | Open f => put d f Torn
  | WriteTensor f t => put d f (Tensor t)
  | OpenMeta => put d MetaFile (Text [])
  | WriteChar c => put d MetaFile (Text (match d MetaFile with Some (Text l) => l ++ [c] | _ => [c] end))
  end.
(** a prefix of the steps: what is on disk when the process stops *)
Definition apply_events (d : dir) (l : list event) : dir := fold_left apply_event l d.
(** the directory left by a process that dies after [n] steps; (firstn of the steps of split_index_tps_impl.h:301-330) *)
Definition crash (n : nat) (d : dir) (l : list event) : dir := apply_events d (firstn n l).

(** *** SplitIndexTPS::Dump, 301-330; [phy_dim] is the number of components of site (0,0). A site with fewer
    components is undefined behaviour. The result of DumpTen is ignored; failing writes are not modelled. *)
Fixpoint map_r {X Y} (f : X -> res Y) (l : list X) : res (list Y) :=
  match l with [] => Ok [] | x :: t => y <- f x;; ys <- map_r f t;; Ok (y :: ys) end.
(** loops of split_index_tps_impl.h:305-315 *)
Definition triples (rows cols d : nat) : list (nat * nat * nat) :=
  flat_map (fun r => flat_map (fun c => map (fun k => (r, c, k)) (seq 0 d)) (seq 0 cols)) (seq 0 rows).
(** split_index_tps_impl.h:267-282 *)
Definition ten_at (v : sitps T) (p : nat * nat * nat) : res T :=
  let '(r, c, k) := p in s <- idx (p_sites v) (r * p_cols v + c);; idx s k.
(** split_index_tps_impl.h:322 *)
Definition meta_text (rows cols d : nat) (bc : bool) : list char :=
  print rows ++ Blank :: print cols ++ Blank :: print d ++ Blank :: print (if bc then 1 else 0).
(** split_index_tps_impl.h:301-330 *)
Definition dump (v : sitps T) : res (list event) :=
  d <- phys_dim v;;
  ts <- map_r (fun p => t <- ten_at v p;; let '(r, c, k) := p in Ok [Open (TenFile r c k); WriteTensor (TenFile r c k) t]) (triples (p_rows v) (p_cols v) d);;
  Ok (concat ts ++ OpenMeta :: map WriteChar (meta_text (p_rows v) (p_cols v) d (p_bc v))).

(** *** SplitIndexTPS::Load, 333-437; [None]: returns false. [self]: the shape of the object, used for the old
    format. After a failed extraction of the boundary condition the error state is cleared (349-351), so the
    check that follows never fires; numbers not read are zero. *)
Definition scan_meta (l : list char) : nat * nat * nat * bool :=
  match scan l with
  | None => (0, 0, 0, false)
  | Some (rows, l) => match scan l with
    | None => (rows, 0, 0, false)
    | Some (cols, l) => match scan l with
      | None => (rows, cols, 0, false)
      | Some (d, l) => (rows, cols, d, match scan l with Some (1, _) => true | _ => false end)
      end end end.
(** split_index_tps_impl.h:284-298, ten_matrix.h:76-90 *)
Definition read_ten (d : dir) (p : nat * nat * nat) : option T :=
  let '(r, c, k) := p in match d (TenFile r c k) with Some (Tensor t) => Some t | _ => None end.
(** a loop that returns false at the first failure, split_index_tps_impl.h:380-435 *)
Fixpoint all_some {X Y} (f : X -> option Y) (l : list X) : option (list Y) :=
  match l with [] => Some [] | x :: t => match f x, all_some f t with Some y, Some ys => Some (y :: ys) | _, _ => None end end.
(** split_index_tps_impl.h:380-435 *)
Definition read_sites (d : dir) (rows cols phy : nat) : option (list (list T)) :=
  all_some (fun rc => all_some (fun k => read_ten d (fst rc, snd rc, k)) (seq 0 phy)) (list_prod (seq 0 rows) (seq 0 cols)).
(** split_index_tps_impl.h:333-435 *)
Definition load (self_rows self_cols : nat) (self_bc : bool) (d : dir) : option (sitps T) :=
  let '(rows, cols, phy, bc) :=
    match d MetaFile with
    | Some (Text l) => scan_meta l
    | Some _ => (0, 0, 0, false)
    | None => match d OldMetaFile with
              | Some (Text l) => match scan l with Some (phy, _) => (self_rows, self_cols, phy, self_bc) | None => (self_rows, self_cols, 0, self_bc) end
              | _ => (self_rows, self_cols, 0, self_bc) end
    end in
  if phy =? 0 then None
  else match read_sites d rows cols phy with Some ss => Some (mkS rows cols bc ss) | None => None end.

(** *** TPS::Dump and Load, tps_impl.h:103-149: one tensor per site (component 0), metadata first. *)
Record tps := mkT { t_rows : nat; t_cols : nat; t_bc : bool; t_tens : list T }.
(** tps_impl.h:110-119 *)
Definition tps_meta (v : tps) : list char :=
  print (t_rows v) ++ Blank :: print (t_cols v) ++ Blank :: print (if t_bc v then 1 else 0) ++ [Blank].
(** loops of tps_impl.h:103-160 *)
Definition pairs_of (rows cols : nat) : list (nat * nat) := list_prod (seq 0 rows) (seq 0 cols).
(** tps_impl.h:103-120 *)
Definition tps_dump (v : tps) : res (list event) :=
  ts <- map_r (fun rc => t <- idx (t_tens v) (fst rc * t_cols v + snd rc);; Ok [Open (TenFile (fst rc) (snd rc) 0); WriteTensor (TenFile (fst rc) (snd rc) 0) t]) (pairs_of (t_rows v) (t_cols v));;
  Ok (OpenMeta :: map WriteChar (tps_meta v) ++ concat ts).
(** tps_impl.h:123-165 *)
Definition tps_load (self_rows self_cols : nat) (self_bc : bool) (d : dir) : option tps :=
  let '(rows, cols, bc) :=
    match d MetaFile with
    | Some (Text l) => match scan l with
        | Some (r, l) => match scan l with
          | Some (c, l) => match scan l with
            | Some (b, _) => (r, c, b =? 1)
            | None => (self_rows, self_cols, self_bc) end
          | None => (self_rows, self_cols, self_bc) end
        | None => (self_rows, self_cols, self_bc) end
    | _ => (self_rows, self_cols, self_bc)
    end in
  match all_some (fun rc => read_ten d (fst rc, snd rc, 0)) (pairs_of rows cols) with Some ts => Some (mkT rows cols bc ts) | None => None end.
End D.
Arguments event : clear implicits. Arguments content : clear implicits. Arguments dir : clear implicits. Arguments tps : clear implicits.

(** *** SquareLatticePEPS::Dump and Load, square_lattice_peps_basic_impl.h:398-506. A file name is the path
    argument, possibly a slash, and one of gamma_ten_, lam_v_, lam_h_ with two numbers; the second part is the
    constructor [pname], the first a string in which repeated slashes are one. Complete dumps only. *)
Inductive pname := Gamma (r c : nat) | LamV (r c : nat) | LamH (r c : nat).
(** comparison of names *)
Definition pname_eq_dec (a b : pname) : {a = b} + {a <> b}.
Proof. decide equality; apply Nat.eq_dec. Defined.
(** repeated slashes in a path mean one, as the operating system reads them *)
Fixpoint squeeze (s : string) : string :=
  match s with
  | EmptyString => EmptyString
  | String a t => match t with String b _ => if (Ascii.eqb a "/" && Ascii.eqb b "/")%bool then squeeze t else String a (squeeze t) | EmptyString => String a EmptyString end
  end.
Section P.
Context {T : Type}.
(** the directory of square_lattice_peps_basic_impl.h:398-505 *)
Definition pdir := string -> pname -> option T.
(** writing one file, square_lattice_peps_basic_impl.h:398-470 *)
Definition pput (d : pdir) (p : string) (n : pname) (t : T) : pdir :=
  fun p' n' => if (string_dec p' (squeeze p)) then if pname_eq_dec n' n then Some t else d p' n' else d p' n'.
(** reading one file, square_lattice_peps_basic_impl.h:472-505 *)
Definition pget (d : pdir) (p : string) (n : pname) : option T := d (squeeze p) n.
(** the tensors of a PEPS: gamma rows*cols, lambda_vert and lambda_horiz with the shapes of the object; (square_lattice_peps.h, data members Gamma, lambda_vert, lambda_horiz) *)
Record peps := mkP { g_shape : nat * nat; v_shape : nat * nat; h_shape : nat * nat; p_ten : pname -> T }.
(** loops of square_lattice_peps_basic_impl.h:398-430 *)
Definition pnames (v : peps) : list pname :=
  map (fun rc => Gamma (fst rc) (snd rc)) (pairs_of (fst (g_shape v)) (snd (g_shape v))) ++
  map (fun rc => LamV (fst rc) (snd rc)) (pairs_of (fst (v_shape v)) (snd (v_shape v))) ++
  map (fun rc => LamH (fst rc) (snd rc)) (pairs_of (fst (h_shape v)) (snd (h_shape v))).
(** the const Dump, 398-432: no slash *)
Definition peps_dump_const (path : string) (v : peps) (d : pdir) : pdir := fold_left (fun d n => pput d path n (p_ten v n)) (pnames v) d.
(** Dump(path, release_mem), 435-469 *)
Definition peps_dump (path : string) (v : peps) (d : pdir) : pdir := fold_left (fun d n => pput d (path ++ "/") n (p_ten v n)) (pnames v) d.
(** Load, 472-506, into an object of the shapes of [v]: the tensors read, in order *)
Definition peps_load (path : string) (v : peps) (d : pdir) : option (list T) := all_some (pget d (path ++ "/")) (pnames v).
End P.
Arguments pdir : clear implicits. Arguments peps : clear implicits.
