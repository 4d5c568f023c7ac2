(** Canonical-form bookkeeping of the boundary MPS: include/qlpeps/one_dim_tn/boundary_mps/bmps.h and
    bmps_impl.h.

    The tensor library is external, so the tensors are abstract.  A record lists the operations the code
    calls: [qr] and [lq] (and the SVD used the same way), the contractions that absorb a bond matrix into a
    neighbouring tensor, and the transposition that [Reverse] applies.  The fermionic leg permutations
    ([Transpose({0, 1, 3, 2})]) are not modelled. *)
From Coq Require Import List Arith Lia Bool.
From Verif Require Import Base.
Import ListNotations.

(** the qlten operations called in bmps_impl.h:153-330; abstract *)
Record tensors := {
  mps_tensor : Type;
  bond_matrix : Type;
  qr : mps_tensor -> mps_tensor * bond_matrix;
  lq : mps_tensor -> bond_matrix * mps_tensor;
  svd : mps_tensor -> bond_matrix * mps_tensor;
  svd_truncated : mps_tensor -> bond_matrix * mps_tensor;
  absorb_left : bond_matrix -> mps_tensor -> mps_tensor;
  absorb_right : mps_tensor -> bond_matrix -> mps_tensor;
  transpose : mps_tensor -> mps_tensor;
  normalize : mps_tensor -> mps_tensor
}.

(** qlmps' MPSTenCanoType, used in bmps.h and bmps_impl.h; (bmps.h:25, 358) *)
Inductive flag := NONE | LEFT_FLAG | RIGHT_FLAG.
(** the tests on tens_cano_type_, bmps_impl.h:130-151 *)
Definition is_left (f : flag) : bool := match f with LEFT_FLAG => true | _ => false end.
(** the tests on tens_cano_type_, bmps_impl.h:130-151 *)
Definition is_right (f : flag) : bool := match f with RIGHT_FLAG => true | _ => false end.

(** the data members: the tensor vector, [tens_cano_type_] and [center_] ([None] is
    kUncentralizedCenterIdx); (bmps.h:357-358) *)
Record mps (A : tensors) := mkMps {
  tens : list (mps_tensor A);
  flags : list flag;
  center : option nat
}.
Arguments mkMps {A} tens flags center.
Arguments tens {A} m.
Arguments flags {A} m.
Arguments center {A} m.

(** writing through [operator[]]: undefined when out of range; (assignments through operator[], bmps_impl.h:153-195) *)
Fixpoint put {X} (l : list X) (i : nat) (x : X) : res (list X) :=
  match l, i with
  | [], _ => Fail UB
  | _ :: l', 0 => Ok (x :: l')
  | y :: l', S i' => r <- put l' i' x ;; Ok (y :: r)
  end.

Section Mps.
Context (A : tensors).
Notation ten := (mps_tensor A).

(** bmps.h, BMPS(position, size) followed by the caller filling in the tensors: nothing is claimed; (bmps.h:160-164) *)
Definition raw (l : list ten) : mps A := mkMps l (map (fun _ => NONE) l) None.

(** bmps_impl.h:21-57 and 60-97, the product-state constructors: every flag is RIGHT and the centre is 0.
    The tensors are 1x1x1 with element one; they are passed in here. *)
Definition product (l : list ten) : mps A := mkMps l (map (fun _ => RIGHT_FLAG) l) (Some 0).

(** bmps_impl.h:153-177, LeftCanonicalizeTen *)
Definition left_ten (m : mps A) (i : nat) : res (mps A) :=
  t <- idx (tens m) i ;;
  let (q, r) := qr A t in
  l1 <- put (tens m) i q ;;
  t' <- idx l1 (i + 1) ;;
  l2 <- put l1 (i + 1) (absorb_left A r t') ;;
  f1 <- put (flags m) i LEFT_FLAG ;;
  f2 <- put f1 (i + 1) NONE ;;
  Ok (mkMps l2 f2 (center m)).

(** bmps_impl.h:179-199 (LQ) and 201-227 (SVD without truncation): the same data flow *)
Definition right_ten_with (factor : ten -> bond_matrix A * ten) (m : mps A) (i : nat) : res (mps A) :=
  j <- usub i 1 ;;
  t <- idx (tens m) i ;;
  let (l, q) := factor t in
  l1 <- put (tens m) i q ;;
  t' <- idx l1 j ;;
  l2 <- put l1 j (absorb_right A t' l) ;;
  f1 <- put (flags m) i RIGHT_FLAG ;;
  f2 <- put f1 j NONE ;;
  Ok (mkMps l2 f2 (center m)).
(** bmps_impl.h:177-195 *)
Definition right_ten := right_ten_with (lq A).
(** bmps_impl.h:199-222 *)
Definition right_ten_svd := right_ten_with (svd A).

(** bmps_impl.h:229-270, RightCanonicalizeTruncate: the tensors change, the flags do not *)
Definition truncate (m : mps A) (i : nat) : res (mps A) :=
  j <- usub i 1 ;;
  t <- idx (tens m) i ;;
  let (l, q) := svd_truncated A t in
  l1 <- put (tens m) i q ;;
  t' <- idx l1 j ;;
  l2 <- put l1 j (absorb_right A t' l) ;;
  Ok (mkMps l2 (flags m) (center m)).

(** the scan of bmps_impl.h:131-137: the first site from [i] on, [k] of them in all, whose flag is not
    LEFT; [None] when there is none *)
Fixpoint scan_left (f : list flag) (i k : nat) : res (option nat) :=
  match k with
  | 0 => Ok None
  | S k' => x <- idx f i ;; if is_left x then scan_left f (i + 1) k' else Ok (Some i)
  end.
(** the loop of bmps_impl.h:138 *)
Fixpoint left_loop (m : mps A) (i k : nat) : res (mps A) :=
  match k with
  | 0 => Ok m
  | S k' => m' <- left_ten m i ;; left_loop m' (i + 1) k'
  end.
(** bmps_impl.h:129-139, LeftCanonicalize *)
Definition left_canonicalize (m : mps A) (stop : nat) : res (mps A) :=
  s <- scan_left (flags m) 0 (stop + 1) ;;
  match s with
  | None => Ok m
  | Some start => left_loop m start (stop + 1 - start)
  end.

(** the scan of bmps_impl.h:144-148, going down over [k] sites the first of which is [i] *)
Fixpoint scan_right (f : list flag) (i k : nat) : res (option nat) :=
  match k with
  | 0 => Ok None
  | S k' => x <- idx f i ;; if is_right x then scan_right f (i - 1) k' else Ok (Some i)
  end.
(** the loop of bmps_impl.h:149 *)
Fixpoint right_loop_with (factor : ten -> bond_matrix A * ten) (m : mps A) (i k : nat) : res (mps A) :=
  match k with
  | 0 => Ok m
  | S k' => m' <- right_ten_with factor m i ;; right_loop_with factor m' (i - 1) k'
  end.
(** bmps_impl.h:141-151 *)
Definition right_loop := right_loop_with (lq A).
(** bmps_impl.h:141-151, RightCanonicalize.  A [stop] beyond the last site leaves [start_idx]
    uninitialised. *)
Definition right_canonicalize (m : mps A) (stop : nat) : res (mps A) :=
  tail <- usub (length (tens m)) 1 ;;
  if tail <? stop then Fail UB else
  s <- scan_right (flags m) tail (tail - stop + 1) ;;
  match s with
  | None => Ok m
  | Some start => right_loop m start (start - stop + 1)
  end.

(** bmps_impl.h:118-128, Centralize *)
Definition centralize (m : mps A) (c : nat) : res (mps A) :=
  tail <- usub (length (tens m)) 1 ;;
  m1 <- (if c =? 0 then Ok m else left_canonicalize m (c - 1)) ;;
  m2 <- (if c =? tail then Ok m1 else right_canonicalize m1 (c + 1)) ;;
  Ok (mkMps (tens m2) (flags m2) (Some c)).

(** bmps_impl.h:272-304, GetEntanglementEntropy, its effect on the MPS (the entropies themselves are
    not modelled) *)
Definition entropy (m : mps A) : res (mps A) :=
  tail <- usub (length (tens m)) 1 ;;
  m1 <- centralize m tail ;;
  t <- idx (tens m1) tail ;;
  l <- put (tens m1) tail (normalize A t) ;;
  right_loop_with (svd A) (mkMps l (flags m1) (center m1)) tail tail.

(** bmps_impl.h:322-327 *)
Definition swap_flag (f : flag) : flag :=
  match f with RIGHT_FLAG => LEFT_FLAG | LEFT_FLAG => RIGHT_FLAG | NONE => NONE end.
(** bmps_impl.h:306-331, Reverse: the pairwise swaps are the reversal of the vector; the flags stay where
    they are, and are exchanged only when there is a centre *)
Definition reverse (m : mps A) : res (mps A) :=
  let l := map (transpose A) (rev (tens m)) in
  match center m with
  | None => Ok (mkMps l (flags m) None)
  | Some c => c' <- usub (length (tens m) - 1) c ;; Ok (mkMps l (map swap_flag (flags m)) (Some c'))
  end.

(** bmps_impl.h:742-754, FinalizeCompressedBMPS_ (the conjugation of the tensors is the caller's) *)
Definition finalize (l : list ten) : mps A := product l.

(** the public operations, in the order a history of calls applies them; (bmps.h:256-330) *)
Inductive op :=
| LeftCanonicalizeTen (i : nat)
| RightCanonicalizeTen (i : nat)
| LeftCanonicalize (stop : nat)
| RightCanonicalize (stop : nat)
| Centralize (c : nat)
| RightCanonicalizeTruncate (i : nat)
| GetEntanglementEntropy
| Reverse.

(** dispatch to the functions above, bmps_impl.h:119-330 *)
Definition step (o : op) (m : mps A) : res (mps A) :=
  match o with
  | LeftCanonicalizeTen i => left_ten m i
  | RightCanonicalizeTen i => right_ten m i
  | LeftCanonicalize s => left_canonicalize m s
  | RightCanonicalize s => right_canonicalize m s
  | Centralize c => centralize m c
  | RightCanonicalizeTruncate i => truncate m i
  | GetEntanglementEntropy => entropy m
  | Reverse => reverse m
  end.
(** a history of such calls, bmps_impl.h:119-330 *)
Fixpoint run (l : list op) (m : mps A) : res (mps A) :=
  match l with [] => Ok m | o :: l' => m' <- step o m ;; run l' m' end.
End Mps.
