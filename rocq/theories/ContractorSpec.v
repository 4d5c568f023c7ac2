(** Specification: what a boundary environment of a network *is*, computed from scratch
    from the network alone, without any cache. *)
From Coq Require Import List Arith.
From Verif Require Import Base ContractorModel.
Import ListNotations.

Section Spec.
Context (o : ops) (rows cols : nat) (tn : net o).

(** The [k]-th slice (row or column) counted from the boundary [p]. *)
Definition outer_slice (p : pos) (k : nat) : list (Ten o) :=
  match p with
  | UP => map (fun j => tn k j) (seq 0 cols)
  | DOWN => map (fun j => tn (rows - 1 - k) j) (seq 0 cols)
  | LEFT => map (fun i => tn i k) (seq 0 rows)
  | RIGHT => map (fun i => tn i (cols - 1 - k)) (seq 0 rows)
  end.

(** The boundary MPS at [p] after absorbing the [k] outermost slices. *)
Fixpoint bmps_from (p : pos) (k : nat) : Mps o :=
  match k with
  | O => vac_mps o p
  | S k' => absorb o p (outer_slice p k') (bmps_from p k')
  end.

(** Number of slices strictly between boundary [p] and slice [s]. *)
Definition depth (p : pos) (s : nat) : nat :=
  match p with UP | LEFT => s | DOWN => rows - 1 - s | RIGHT => cols - 1 - s end.

(** The boundary MPS at [p] that touches slice [s]. *)
Definition boundary (p : pos) (s : nat) : Mps o := bmps_from p (depth p s).

(** One-layer boundary tensor of slice [s], grown from side [p] over [k] sites. *)
Fixpoint env_from (p : pos) (s k : nat) : Env o :=
  let n := wid rows cols (pre_of p) in
  match k with
  | O => vac_env o p (mps_at o (boundary (pre_of p) s) (n - 1))
                     (mps_at o (boundary (next_of p) s) 0)
  | S k' => env_step o p (env_from p s k')
              (mps_at o (boundary (pre_of p) s) (n - 1 - k'))
              (tn (fst (env_site n p s k')) (snd (env_site n p s k')))
              (mps_at o (boundary (next_of p) s) k')
  end.

(** Two-layer boundary tensor of slices [s] and [s+1], grown from side [p]. *)
Fixpoint env2_from (p : pos) (s k : nat) : Env2 o :=
  let n := wid rows cols (pre_of p) in
  let s1 := fst (layers p s) in let s2 := snd (layers p s) in
  match k with
  | O => vac_env2 o p (mps_at o (boundary (pre_of p) s1) (n - 1))
                      (mps_at o (boundary (next_of p) s2) 0)
  | S k' => env2_step o p (env2_from p s k')
              (mps_at o (boundary (pre_of p) s1) (n - 1 - k'))
              (tn (fst (env_site n p s1 k')) (snd (env_site n p s1 k')))
              (tn (fst (env_site n p s2 k')) (snd (env_site n p s2 k')))
              (mps_at o (boundary (next_of p) s2) k')
  end.

(** MPS tensor facing site number [i] (counted from the left / the top). *)
Definition facing (p : pos) (s i : nat) : MTen o :=
  let n := wid rows cols p in
  mps_at o (boundary p s) (match p with UP | RIGHT => n - 1 - i | _ => i end).

(** Environment of the window of [w] sites starting at [s] along [d]: everything outside. *)
Definition window1_spec (d : orient) (s : site) (w : nat) : list (MTen o * MTen o) * Env o * Env o :=
  (map (fun i => (facing (side1 d) (across d s) i, facing (side2 d) (across d s) i))
       (seq (along d s) w),
   env_from (near d) (across d s) (along d s),
   env_from (far d) (across d s) (wid rows cols (side1 d) - (along d s + w))).

(** Environment of the two-layer window of [w] positions whose left-up corner is [s]. *)
Definition window2_spec (d : orient) (s : site) (w : nat) : list (MTen o * MTen o) * Env2 o * Env2 o :=
  (map (fun i => (facing (side1 d) (across d s) i, facing (side2 d) (across d s + 1) i))
       (seq (along d s) w),
   env2_from (near d) (across d s) (along d s),
   env2_from (far d) (across d s) (wid rows cols (side1 d) - (along d s + w))).

End Spec.

(** Coherence of the caches with a network. *)
Definition bm_fresh (o : ops) (tn : net o) (c : con o) : Prop :=
  forall p k b, nth_error (bm c p) k = Some b -> b = bmps_from o (rows_ c) (cols_ c) tn p k.
Definition bt_fresh (o : ops) (tn : net o) (c : con o) (p : pos) (s : nat) : Prop :=
  forall k e, nth_error (bt c p) k = Some e -> e = env_from o (rows_ c) (cols_ c) tn p s k.
Definition bt2_fresh (o : ops) (tn : net o) (c : con o) (p : pos) (s : nat) : Prop :=
  forall k e, nth_error (bt2 c p) k = Some e -> e = env2_from o (rows_ c) (cols_ c) tn p s k.
