(** The projections of the simple update as sums over indices. *)
From Coq Require Import List Arith Lia Bool Reals Lra.
From Verif Require Import Base Cplx SumModel SumSpec SumProofs NetSum NetEx ContractorModel TrgTensor TrgHoleAlg BmpsModel BmpsAlg BmpsMain ProjModel ProjSpec.
Import ListNotations.
Local Open Scope nat_scope.

Definition dl (s : list R) (i j : nat) : C := entry (diag s) [i; j].
Definition el (s : list R) (i : nat) : C := RtoC (nth i s 0%R).
Lemma dl_sym s i j : dl s i j = dl s j i.
Proof. unfold dl. cbn [diag entry nth]. rewrite (Nat.eqb_sym j i). destruct (Nat.eqb_spec i j); [subst|]; reflexivity. Qed.
Lemma sm_at n (X : nat -> C) s j : j < n -> sm n (fun i => (X i * dl s i j)%C) = (X j * el s j)%C.
Proof.
  intros H. transitivity (sm n (fun i => ((X i * el s i) * (if i =? j then RtoC 1 else RtoC 0))%C)).
  - apply sm_ext. intros i _. unfold dl. cbn [diag entry nth]. unfold el. destruct (i =? j); ring.
  - apply (sumC_pick (fun i => (X i * el s i)%C)). exact H.
Qed.
Lemma sm_at' n (X : nat -> C) s j : j < n -> sm n (fun i => (X i * dl s j i)%C) = (X j * el s j)%C.
Proof. intros H. rewrite <- (sm_at n X s j H). apply sm_ext. intros i _. rewrite dl_sym. reflexivity. Qed.
Lemma at_sm n (X : nat -> C) s j : j < n -> sm n (fun i => (dl s i j * X i)%C) = (X j * el s j)%C.
Proof. intros H. rewrite <- (sm_at n X s j H). apply sm_ext. intros i _. ring. Qed.
Lemma at_sm' n (X : nat -> C) s j : j < n -> sm n (fun i => (dl s j i * X i)%C) = (X j * el s j)%C.
Proof. intros H. rewrite <- (sm_at' n X s j H). apply sm_ext. intros i _. ring. Qed.

(** *** Weights eaten *)
Section Eat.
Context (P : peps) (r c W S E N d : nat).
Context (Sh : shape (gamma P r c) = [W; S; E; N; d]).
Context (LW : length (west P r c) = W) (LS : length (south P r c) = S) (LE : length (east P r c) = E) (LN : length (north P r c) = N).
Let G := entry (gamma P r c).
Let w_ := el (west P r c). Let s_ := el (south P r c). Let e_ := el (east P r c). Let n_ := el (north P r c).
Ltac open_ := revert Sh; destruct (gamma P r c) as [sh g]; cbn [shape entry] in *; intros ->.
Lemma eat4_shape : shape (eat4 P r c) = [d; W; S; E; N].
Proof. unfold eat4. open_. rewrite <- LW, <- LS, <- LE, <- LN. reflexivity. Qed.
Lemma eat4_entry p w s e n : w < W -> s < S -> e < E -> n < N ->
  entry (eat4 P r c) [p; w; s; e; n] = (G [w; s; e; n; p] * w_ w * s_ s * e_ e * n_ n)%C.
Proof.
  intros Hw Hs He Hn. unfold eat4, G. open_.
  transitivity (sm N (fun n' => (sm E (fun e' => (sm S (fun s' => (sm W (fun w' => (g [w'; s'; e'; n'; p] * dl (west P r c) w w')%C) * dl (south P r c) s' s)%C) * dl (east P r c) e' e)%C) * dl (north P r c) n n')%C)); [reflexivity|].
  rewrite sm_at' by exact Hn. rewrite sm_at by exact He. rewrite sm_at by exact Hs. rewrite sm_at' by exact Hw. reflexivity.
Qed.
Lemma eat3_right_shape : shape (eat3 P r c RIGHT) = [N; W; S; d; E].
Proof. unfold eat3. open_. rewrite <- LW, <- LS, <- LN. reflexivity. Qed.
Lemma eat3_right p w s e n : w < W -> s < S -> n < N ->
  entry (eat3 P r c RIGHT) [n; w; s; p; e] = (G [w; s; e; n; p] * n_ n * w_ w * s_ s)%C.
Proof.
  intros Hw Hs Hn. unfold eat3, G. open_.
  transitivity (sm S (fun s' => (sm W (fun w' => (sm N (fun n' => (g [w'; s'; e; n'; p] * dl (north P r c) n n')%C) * dl (west P r c) w w')%C) * dl (south P r c) s' s)%C)); [reflexivity|].
  rewrite sm_at by exact Hs. rewrite sm_at' by exact Hw. rewrite sm_at' by exact Hn. reflexivity.
Qed.
Lemma eat3_left_shape : shape (eat3 P r c LEFT) = [S; E; N; d; W].
Proof. unfold eat3. open_. rewrite <- LE, <- LS, <- LN. reflexivity. Qed.
Lemma eat3_left p w s e n : s < S -> e < E -> n < N ->
  entry (eat3 P r c LEFT) [s; e; n; p; w] = (G [w; s; e; n; p] * n_ n * e_ e * s_ s)%C.
Proof.
  intros Hs He Hn. unfold eat3, G. open_.
  transitivity (sm (length (south P r c)) (fun s' => (dl (south P r c) s' s * sm E (fun e' => (sm N (fun n' => (g [w; s'; e'; n'; p] * dl (north P r c) n n')%C) * dl (east P r c) e' e)%C))%C)); [reflexivity|].
  rewrite at_sm by (rewrite LS; exact Hs). rewrite sm_at by exact He. rewrite sm_at' by exact Hn. reflexivity.
Qed.
Lemma eat3_down_shape : shape (eat3 P r c DOWN) = [E; N; W; d; S].
Proof. unfold eat3. open_. rewrite <- LE, <- LW, <- LN. reflexivity. Qed.
Lemma eat3_down p w s e n : w < W -> e < E -> n < N ->
  entry (eat3 P r c DOWN) [e; n; w; p; s] = (G [w; s; e; n; p] * w_ w * n_ n * e_ e)%C.
Proof.
  intros Hw He Hn. unfold eat3, G. open_.
  transitivity (sm (length (east P r c)) (fun e' => (dl (east P r c) e' e * sm (length (north P r c)) (fun n' => (dl (north P r c) n n' * sm (length (west P r c)) (fun w' => (dl (west P r c) w w' * g [w'; s; e'; n'; p])%C))%C))%C)); [reflexivity|].
  rewrite at_sm by (rewrite LE; exact He). rewrite at_sm' by (rewrite LN; exact Hn). rewrite at_sm' by (rewrite LW; exact Hw). reflexivity.
Qed.
Lemma eat3_up_shape : shape (eat3 P r c UP) = [E; S; W; d; N].
Proof. unfold eat3. open_. rewrite <- LE, <- LW, <- LS. reflexivity. Qed.
Lemma eat3_up p w s e n : w < W -> e < E -> s < S ->
  entry (eat3 P r c UP) [e; s; w; p; n] = (G [w; s; e; n; p] * w_ w * s_ s * e_ e)%C.
Proof.
  intros Hw He Hs. unfold eat3, G. open_.
  transitivity (sm (length (east P r c)) (fun e' => (dl (east P r c) e' e * sm (length (south P r c)) (fun s' => (dl (south P r c) s' s * sm (length (west P r c)) (fun w' => (dl (west P r c) w w' * g [w'; s'; e'; n; p])%C))%C))%C)); [reflexivity|].
  rewrite at_sm by (rewrite LE; exact He). rewrite at_sm by (rewrite LS; exact Hs). rewrite at_sm' by (rewrite LW; exact Hw). reflexivity.
Qed.
End Eat.

(** *** Weights split out again *)
Lemma inv_length tol s : length (inv_elements tol s) = length s.
Proof. apply map_length. Qed.
Section Split.
Context (tol : R) (P : peps) (r c W S E N : nat).
Context (LW : length (west P r c) = W) (LS : length (south P r c) = S) (LE : length (east P r c) = E) (LN : length (north P r c) = N).
Let w_ := el (inv_elements tol (west P r c)). Let s_ := el (inv_elements tol (south P r c)).
Let e_ := el (inv_elements tol (east P r c)). Let n_ := el (inv_elements tol (north P r c)).
Context (q : tensor) (k : nat).
Ltac open_ Sh := revert Sh; destruct q as [sh g]; cbn [shape entry] in *; intros ->.
Lemma split_right_shape : shape q = [N; W; S; k] -> shape (split_out tol P q r c RIGHT) = [k; N; W; S].
Proof. intros Sh. unfold split_out, diag_inv. open_ Sh. rewrite <- LW, <- LS, <- LN, <- (inv_length tol (west P r c)), <- (inv_length tol (south P r c)), <- (inv_length tol (north P r c)). reflexivity. Qed.
Lemma split_right w s n z : shape q = [N; W; S; k] -> w < W -> s < S -> n < N -> entry (split_out tol P q r c RIGHT) [z; n; w; s] = (entry q [n; w; s; z] * n_ n * w_ w * s_ s)%C.
Proof.
  intros Sh Hw Hs Hn. unfold split_out, diag_inv. open_ Sh.
  transitivity (sm S (fun s' => (sm W (fun w' => (sm N (fun n' => (g [n'; w'; s'; z] * dl (inv_elements tol (north P r c)) n n')%C) * dl (inv_elements tol (west P r c)) w w')%C) * dl (inv_elements tol (south P r c)) s' s)%C)); [reflexivity|].
  rewrite sm_at by exact Hs. rewrite sm_at' by exact Hw. rewrite sm_at' by exact Hn. reflexivity.
Qed.
Lemma split_left_shape : shape q = [S; E; N; k] -> shape (split_out tol P q r c LEFT) = [k; S; E; N].
Proof. intros Sh. unfold split_out, diag_inv. open_ Sh. rewrite <- LE, <- LS, <- LN, <- (inv_length tol (east P r c)), <- (inv_length tol (south P r c)), <- (inv_length tol (north P r c)). reflexivity. Qed.
Lemma split_left s e n z : shape q = [S; E; N; k] -> s < S -> e < E -> n < N -> entry (split_out tol P q r c LEFT) [z; s; e; n] = (entry q [s; e; n; z] * s_ s * e_ e * n_ n)%C.
Proof.
  intros Sh Hs He Hn. unfold split_out, diag_inv. open_ Sh.
  transitivity (sm N (fun n' => (sm E (fun e' => (sm S (fun s' => (g [s'; e'; n'; z] * dl (inv_elements tol (south P r c)) s' s)%C) * dl (inv_elements tol (east P r c)) e' e)%C) * dl (inv_elements tol (north P r c)) n n')%C)); [reflexivity|].
  rewrite sm_at' by exact Hn. rewrite sm_at by exact He. rewrite sm_at by exact Hs. reflexivity.
Qed.
Lemma split_down_shape : shape q = [E; N; W; k] -> shape (split_out tol P q r c DOWN) = [E; N; W; k].
Proof. intros Sh. unfold split_out, diag_inv. open_ Sh. rewrite <- LE, <- LW, <- LN, <- (inv_length tol (east P r c)), <- (inv_length tol (west P r c)), <- (inv_length tol (north P r c)). reflexivity. Qed.
Lemma split_down w e n z : shape q = [E; N; W; k] -> w < W -> e < E -> n < N -> entry (split_out tol P q r c DOWN) [e; n; w; z] = (entry q [e; n; w; z] * n_ n * w_ w * e_ e)%C.
Proof.
  intros Sh Hw He Hn. unfold split_out, diag_inv. open_ Sh.
  transitivity (sm (length (inv_elements tol (east P r c))) (fun e' => (dl (inv_elements tol (east P r c)) e' e * sm (length (inv_elements tol (west P r c))) (fun w' => (dl (inv_elements tol (west P r c)) w w' * sm (length (inv_elements tol (north P r c))) (fun n' => (dl (inv_elements tol (north P r c)) n n' * g [e'; n'; w'; z])%C))%C))%C)); [reflexivity|].
  rewrite at_sm by (rewrite inv_length, LE; exact He). rewrite at_sm' by (rewrite inv_length, LW; exact Hw). rewrite at_sm' by (rewrite inv_length, LN; exact Hn). reflexivity.
Qed.
Lemma split_up_shape : shape q = [E; S; W; k] -> shape (split_out tol P q r c UP) = [W; k; E; S].
Proof. intros Sh. unfold split_out, diag_inv. open_ Sh. rewrite <- LE, <- LW, <- LS, <- (inv_length tol (east P r c)), <- (inv_length tol (west P r c)), <- (inv_length tol (south P r c)). reflexivity. Qed.
Lemma split_up w s e z : shape q = [E; S; W; k] -> w < W -> e < E -> s < S -> entry (split_out tol P q r c UP) [w; z; e; s] = (entry q [e; s; w; z] * e_ e * s_ s * w_ w)%C.
Proof.
  intros Sh Hw He Hs. unfold split_out, diag_inv. open_ Sh.
  transitivity (sm (length (inv_elements tol (west P r c))) (fun w' => (dl (inv_elements tol (west P r c)) w w' * sm (length (inv_elements tol (south P r c))) (fun s' => (dl (inv_elements tol (south P r c)) s' s * sm (length (inv_elements tol (east P r c))) (fun e' => (dl (inv_elements tol (east P r c)) e' e * g [e'; s'; w'; z])%C))%C))%C)); [reflexivity|].
  rewrite at_sm' by (rewrite inv_length, LW; exact Hw). rewrite at_sm by (rewrite inv_length, LS; exact Hs). rewrite at_sm by (rewrite inv_length, LE; exact He). reflexivity.
Qed.
End Split.
