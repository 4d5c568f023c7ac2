(** From a PEPS with bond weights to the tensors that are sampled. *)
From Coq Require Import List Arith Bool Reals.
From Verif Require Import Base Cplx TrgTensor ProjModel.
Import ListNotations.
Local Open Scope nat_scope.

(** split_index_tps_impl.h:755-756 project_ten (bosonic): one at the element i *)
Definition project_ten (dim i : nat) : tensor := Tn [dim] (fun ix => if nth 0 ix 0 =? i then RtoC 1 else RtoC 0).
(** split_index_tps_impl.h:736-762 SplitIndexTPS::FromTPS (bosonic), the tensor of one site and one state *)
Definition from_tps (T : tensor) (i : nat) : tensor := contract T [4] (project_ten (dimat T 4) i) [0].
(** api/conversions.h:58-62 ToSplitIndexTPS(peps): ToTPS, then FromTPS *)
Definition to_split_index (P : peps) (r c i : nat) : tensor := from_tps (tps_tensor P r c) i.
(** The elements of a tensor (QLTensor::operator()). The model of the contractor (BmpsModel) has one dimension D for all bonds: a leg
    of a smaller dimension is a leg of dimension D with zeros. That is a simplification of the shapes only. (bmps_contractor.h:39-45) *)
Definition elements (T : tensor) (ix : list nat) : C := if forallb (fun xd => fst xd <? snd xd) (combine ix (shape T)) then entry T ix else RtoC 0.
(** the tensors that the wave function component takes its elements from (split_index_tps_impl.h:736-762) *)
Definition sampled (P : peps) (r c i : nat) : list nat -> C := elements (to_split_index P r c i).
