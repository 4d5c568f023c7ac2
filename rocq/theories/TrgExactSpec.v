(** What the TRG contractor computes when no split loses anything: the sum over all values of the bonds of a torus
    of the product of the site tensors. *)
From Coq Require Import List Arith Bool Reals.
From Verif Require Import Base Cplx SumModel SumSpec TrgModel TrgSpec TrgTensor.
Import ListNotations.
Local Open Scope nat_scope.

(** the dimension of a bond of the torus, taken from its left or upper end; legs are numbered left 0, down 1,
    right 2, up 3 *)
Definition torus_dim (X : nat -> nat -> tensor) (b : bond) : nat :=
  match b with Hor r c => dimat (X r c) 2 | Ver r c => dimat (X r c) 1 end.
Definition torus_sum (n : nat) (X : nat -> nat -> tensor) : C :=
  sum_over (bonds n n true) (torus_dim X)
    (fun a => prodC (fun rc => entry (X (fst rc) (snd rc)) (map (leg_value n n true a (fst rc) (snd rc)) [0; 1; 2; 3])) (grid n n))
    (fun _ => 0).
(** four legs everywhere, and both ends of a bond have the same dimension *)
Definition closes (n : nat) (X : nat -> nat -> tensor) : Prop :=
  forall r c, r < n -> c < n -> length (shape (X r c)) = 4 /\
    forall l b, l < 4 -> leg_bond n n true r c l = Some b -> dimat (X r c) l = torus_dim X b.
(** the two pieces of a split give the tensor back when the new leg is summed; legs of the pieces:
    P(l,u,k) Q(k,d,r) for the first type, Q(l,d,k) P(k,r,u) for the second *)
Definition recombines (st : stype) (T P Q : tensor) : Prop :=
  exists k, match st with
  | Type0 => shape P = [dimat T 0; dimat T 3; k] /\ shape Q = [k; dimat T 1; dimat T 2]
  | Type1 => shape Q = [dimat T 0; dimat T 1; k] /\ shape P = [k; dimat T 2; dimat T 3]
  end /\
  forall l d r u, l < dimat T 0 -> d < dimat T 1 -> r < dimat T 2 -> u < dimat T 3 ->
    entry T [l; d; r; u] = sumC (fun x => match st with
      | Type0 => (entry P [l; u; x] * entry Q [x; d; r])%C
      | Type1 => (entry Q [l; d; x] * entry P [x; r; u])%C
      end) (seq 0 k).
(** no split in the cache of a contractor lost anything *)
Definition lossless svd (t : trg (tensor_ops svd)) : Prop :=
  forall a, In a (t_scales t) -> forall i T s, i < alen (tens a) -> i < alen (splits a) ->
    aval (tens a) i = Some T -> aval (splits a) i = Some s -> recombines (sd_type s) T (sd_P s) (sd_Q s).
(** a decomposition that gives every matrix back: u(a,b,x) s(x) vt(x,c,d) *)
Definition exact_svd (svd : trunc -> tensor -> tensor * list R * tensor) (p : trunc) : Prop :=
  forall T, length (shape T) = 4 -> let '(u, s, vt) := svd p T in
    shape u = [dimat T 0; dimat T 1; length s] /\ shape vt = [length s; dimat T 2; dimat T 3] /\ Forall (fun x => (0 <= x)%R) s /\
    forall i j k l, i < dimat T 0 -> j < dimat T 1 -> k < dimat T 2 -> l < dimat T 3 ->
      entry T [i; j; k; l] = sumC (fun x => (entry u [i; j; x] * RtoC (nth x s 0%R) * entry vt [x; k; l])%C) (seq 0 (length s)).
(** the network of a tensor product state on a configuration *)
Definition projected (v : lat) (s : nat -> nat -> nat) (r c : nat) : tensor := Tn (dims (l_ten v r c)) (fun ix => ent (l_ten v r c) ix (s r c)).
