(** A projection on three sites whose norm is zero: the gate takes the block of three tensors to zero. *)
From Coq Require Import List Arith Lia Bool Reals Lra Permutation.
From Verif Require Import Base Cplx SumModel SumSpec SumProofs NetSum NetEx ContractorModel TrgTensor TrgHoleAlg BmpsModel BmpsAlg ProjModel ProjSpec ProjAlg ProjCore ProjTwo ProjPatch ProjGrid ProjThree ProjExample ProjNull2.
Import ListNotations.
Local Open Scope nat_scope.

Section Triangle.
Context (qr : tensor -> tensor * tensor) (svd : nat -> tensor -> tensor * list R * tensor) (tol : R).
Context (QR : qr_exact qr).
Context (P : peps) (gate : tensor) (ham : option tensor).

Section UR.
Context (r c WA SA NA da X Y EM NM dm WB SB EB db : nat).
Let lc := (c + h_cols P - 1) mod h_cols P. Let lr := (r + 1) mod v_rows P.
Context (ShA : shape (gamma P r lc) = [WA; SA; X; NA; da]) (ShM : shape (gamma P r c) = [X; Y; EM; NM; dm]) (ShB : shape (gamma P lr c) = [WB; SB; EB; Y; db]).
Context (LA1 : length (west P r lc) = WA) (LA2 : length (south P r lc) = SA) (LA3 : length (north P r lc) = NA).
Context (LM0 : length (west P r c) = X) (LM1 : length (south P r c) = Y) (LM2 : length (east P r c) = EM) (LM3 : length (north P r c) = NM).
Context (LB1 : length (west P lr c) = WB) (LB2 : length (south P lr c) = SB) (LB3 : length (east P lr c) = EB).
Context (Sg : shape gate = [da; dm; db; da; dm; db]).
Lemma null_ur : r_norm (project_ur qr svd tol P gate ham r c) = 0%R -> forall a1 a2 a3 m1 m2 b1 b2 b3 p' q' o', a1 < WA -> a2 < SA -> a3 < NA -> m1 < EM -> m2 < NM -> b1 < WB -> b2 < SB -> b3 < EB -> p' < da -> q' < dm -> o' < db ->
    good tol (west P r lc) a1 -> good tol (south P r lc) a2 -> good tol (north P r lc) a3 -> good tol (east P r c) m1 -> good tol (north P r c) m2 -> good tol (west P lr c) b1 -> good tol (south P lr c) b2 -> good tol (east P lr c) b3 ->
    sm da (fun p => sm dm (fun q => sm db (fun o => (sm X (fun x => sm Y (fun y =>
       (entry (gamma P r lc) [a1; a2; x; a3; p] * el (west P r c) x * entry (gamma P r c) [x; y; m1; m2; q] * el (south P r c) y * entry (gamma P lr c) [b1; b2; b3; y; o])%C)) * entry gate [p; q; o; p'; q'; o'])%C))) = RtoC 0.
Proof.
  unfold project_ur. fold lc lr.
  pose proof (eat3_right_shape P r lc _ _ _ _ _ ShA LA1 LA2 LA3) as TA.
  pose proof (eat3_up_shape P lr c _ _ _ _ _ ShB LB1 LB2 LB3) as TB.
  pose proof (eat4_shape P r c _ _ _ _ _ ShM LM0 LM1 LM2 LM3) as TM.
  pose proof (QR (eat3 P r lc RIGHT) ltac:(rewrite TA; reflexivity)) as QA. pose proof (QR (eat3 P lr c UP) ltac:(rewrite TB; reflexivity)) as QB.
  destruct (qr (eat3 P r lc RIGHT)) as [qA rA], (qr (eat3 P lr c UP)) as [qB rB].
  destruct QA as (KA & SqA & SrA & BA & XA), QB as (KB & SqB & SrB & BB & XB).
  unfold dimat in SqA, SrA, BA, XA, SqB, SrB, BB, XB. rewrite TA in SqA, SrA, BA, XA. rewrite TB in SqB, SrB, BB, XB. cbn [nth] in SqA, SrA, BA, XA, SqB, SrB, BB, XB.
  set (mid := eat4 P r c) in *.
  set (t5 := contract (cyc (cyc rA 2 mid 1 1) 2 rB 2 1) [4; 2; 6] gate [0; 1; 2]).
  assert (St : shape t5 = [EM; NM; KA; KB; da; dm; db] /\ forall m1 m2 ka kb p' q' o', entry t5 [m1; m2; ka; kb; p'; q'; o'] =
    sm da (fun p => sm dm (fun q => sm db (fun o => (sm Y (fun y => (sm X (fun x => (entry rA [ka; p; x] * entry mid [q; x; y; m1; m2])%C) * entry rB [kb; o; y])%C) * entry gate [p; q; o; p'; q'; o'])%C)))).
  { unfold t5. revert SrA SrB Sg TM. clearbody mid. clear. destruct rA as [sh0 f0], rB as [sh1 f1], gate as [sh2 f2], mid as [sh3 f3]; cbn [shape]; intros -> -> -> ->. split; reflexivity. }
  destruct St as [St Et].
  assert (Et' : forall m1 m2 ka kb p' q' o', entry t5 [m1; m2; ka; kb; p'; q'; o'] = sm da (fun p => sm dm (fun q => sm db (fun o => (sm X (fun x => sm Y (fun y => (entry rA [ka; p; x] * entry mid [q; x; y; m1; m2] * entry rB [kb; o; y])%C)) * entry gate [p; q; o; p'; q'; o'])%C)))).
  { intros. rewrite Et. apply sm_ext. intros p _. apply sm_ext. intros q _. apply sm_ext. intros o _. f_equal. rewrite (sm_swap X Y). apply sm_ext. intros y _. rewrite <- sm_scal_r. reflexivity. }
  destruct (svd 5 _) as [[u1 s1] vt1]. destruct (svd 2 _) as [[u2 s2] vt2]. cbn [r_norm]. rewrite Rmult_1_l. intros Z0.
  intros a1 a2 a3 m1 m2 b1 b2 b3 p' q' o' Ha1 Ha2 Ha3 Hm1 Hm2 Hb1 Hb2 Hb3 Hp Hq Ho ga1 ga2 ga3 gm1 gm2 gb1 gb2 gb3.
  assert (CA : forall p x, p < da -> x < X -> entry (gamma P r lc) [a1; a2; x; a3; p] = sm KA (fun k => ((el (inv_elements tol (west P r lc)) a1 * el (inv_elements tol (south P r lc)) a2 * el (inv_elements tol (north P r lc)) a3 * entry qA [a3; a1; a2; k])%C * entry rA [k; p; x])%C)).
  { intros p x Hp' Hx. specialize (XA a3 a1 a2 p x Ha3 Ha1 Ha2 Hp' Hx). rewrite (eat3_right P r lc _ _ _ _ _ ShA ) in XA by assumption.
    transitivity ((el (inv_elements tol (west P r lc)) a1 * el (inv_elements tol (south P r lc)) a2 * el (inv_elements tol (north P r lc)) a3) * (entry (gamma P r lc) [a1; a2; x; a3; p] * el (north P r lc) a3 * el (west P r lc) a1 * el (south P r lc) a2))%C.
    - unfold good in *. transitivity (entry (gamma P r lc) [a1; a2; x; a3; p] * (el (inv_elements tol (west P r lc)) a1 * el (west P r lc) a1) * (el (inv_elements tol (south P r lc)) a2 * el (south P r lc) a2) * (el (inv_elements tol (north P r lc)) a3 * el (north P r lc) a3))%C; [rewrite ga1, ga2, ga3; cring|cring].
    - rewrite XA. fold (sm KA (fun z => (entry qA [a3; a1; a2; z] * entry rA [z; p; x])%C)). rewrite <- sm_scal. apply sm_ext. intros k Hk.
      cring. }
  assert (CB : forall p y, p < db -> y < Y -> entry (gamma P lr c) [b1; b2; b3; y; p] = sm KB (fun k => ((el (inv_elements tol (west P lr c)) b1 * el (inv_elements tol (south P lr c)) b2 * el (inv_elements tol (east P lr c)) b3 * entry qB [b3; b2; b1; k])%C * entry rB [k; p; y])%C)).
  { intros p x Hp' Hx. specialize (XB b3 b2 b1 p x Hb3 Hb2 Hb1 Hp' Hx). rewrite (eat3_up P lr c _ _ _ _ _ ShB LB1 LB2 LB3) in XB by assumption.
    transitivity ((el (inv_elements tol (west P lr c)) b1 * el (inv_elements tol (south P lr c)) b2 * el (inv_elements tol (east P lr c)) b3) * (entry (gamma P lr c) [b1; b2; b3; x; p] * el (west P lr c) b1 * el (south P lr c) b2 * el (east P lr c) b3))%C.
    - unfold good in *. transitivity (entry (gamma P lr c) [b1; b2; b3; x; p] * (el (inv_elements tol (west P lr c)) b1 * el (west P lr c) b1) * (el (inv_elements tol (south P lr c)) b2 * el (south P lr c) b2) * (el (inv_elements tol (east P lr c)) b3 * el (east P lr c) b3))%C; [rewrite gb1, gb2, gb3; cring|cring].
    - rewrite XB. fold (sm KB (fun z => (entry qB [b3; b2; b1; z] * entry rB [z; p; x])%C)). rewrite <- sm_scal. apply sm_ext. intros k Hk.
      cring. }
  pose proof (three_core da dm db X Y KA KB 0 0 (fun p x => entry (gamma P r lc) [a1; a2; x; a3; p]) (fun p y => entry (gamma P lr c) [b1; b2; b3; y; p]) (fun q x y => entry mid [q; x; y; m1; m2]) (fun k => (el (inv_elements tol (west P r lc)) a1 * el (inv_elements tol (south P r lc)) a2 * el (inv_elements tol (north P r lc)) a3 * entry qA [a3; a1; a2; k])%C) (fun k => (el (inv_elements tol (west P lr c)) b1 * el (inv_elements tol (south P lr c)) b2 * el (inv_elements tol (east P lr c)) b3 * entry qB [b3; b2; b1; k])%C) (fun k p x => entry rA [k; p; x]) (fun k p x => entry rB [k; p; x]) (fun p q o => entry gate [p; q; o; p'; q'; o']) (fun _ _ => RtoC 0) (fun _ _ => RtoC 0) (fun _ _ => RtoC 0) (fun _ _ => RtoC 0) (fun _ => RtoC 0) (fun _ => RtoC 0) (fun _ => RtoC 0) (RtoC 1) CA CB) as C3.
  assert (ZT : forall ka kb, ka < KA -> kb < KB -> entry t5 [m1; m2; ka; kb; p'; q'; o'] = RtoC 0).
  { intros ka kb Hka Hkb. destruct (C_dec (entry t5 [m1; m2; ka; kb; p'; q'; o']) (RtoC 0)) as [?|NZ]; [assumption|]. exfalso. refine (tnorm_nonzero t5 _ _ NZ Z0). rewrite St. repeat constructor; assumption. }
  cbv beta in C3. transitivity ((el (inv_elements tol (north P r c)) m2 * el (inv_elements tol (east P r c)) m1) * sm da (fun p => sm dm (fun q => sm db (fun o => (sm X (fun x => sm Y (fun y => (entry (gamma P r lc) [a1; a2; x; a3; p] * entry mid [q; x; y; m1; m2] * entry (gamma P lr c) [b1; b2; b3; y; o])%C)) * entry gate [p; q; o; p'; q'; o'])%C))))%C.
  { rewrite <- sm_scal. apply sm_ext. intros p Hp'. rewrite <- sm_scal. apply sm_ext. intros q Hq'. rewrite <- sm_scal. apply sm_ext. intros o Ho'. symmetry.
    match goal with |- (?k * (?u * ?v) = _)%C => transitivity ((k * u) * v)%C; [cring|] end. f_equal. rewrite <- sm_scal. apply sm_ext. intros x Hx. rewrite <- sm_scal. apply sm_ext. intros y Hy.
    unfold mid. rewrite (eat4_entry P r c _ _ _ _ _ ShM) by assumption. unfold good in *.
    transitivity (((el (inv_elements tol (east P r c)) m1 * el (east P r c) m1) * (el (inv_elements tol (north P r c)) m2 * el (north P r c) m2)) * (entry (gamma P r lc) [a1; a2; x; a3; p] * el (west P r c) x * entry (gamma P r c) [x; y; m1; m2; q] * el (south P r c) y * entry (gamma P lr c) [b1; b2; b3; y; o]))%C; [cring|]. rewrite gm1, gm2. cring. }
  rewrite <- (one_times (sm da _)). rewrite <- C3.
  - unfold sm at 1. cbn [seq]. rewrite sumC_nil. ring.
  - intros ka kb Hka Hkb. rewrite <- Et', ZT by assumption. unfold sm. cbn [seq]. rewrite sumC_nil. ring.
  - intros kb z _ Hz. lia.
  - intros z Hz. lia.
Qed.
End UR.

Section UL.
Context (r c WA SA EA da X Y WM NM dm SB EB NB db : nat).
Let rc := (c + 1) mod h_cols P. Let lr := (r + 1) mod v_rows P.
Context (ShA : shape (gamma P lr c) = [WA; SA; EA; X; da]) (ShM : shape (gamma P r c) = [WM; X; Y; NM; dm]) (ShB : shape (gamma P r rc) = [Y; SB; EB; NB; db]).
Context (LA1 : length (west P lr c) = WA) (LA2 : length (south P lr c) = SA) (LA3 : length (east P lr c) = EA).
Context (LM0 : length (west P r c) = WM) (LM1 : length (south P r c) = X) (LM2 : length (east P r c) = Y) (LM3 : length (north P r c) = NM).
Context (LB1 : length (south P r rc) = SB) (LB2 : length (east P r rc) = EB) (LB3 : length (north P r rc) = NB).
Context (Sg : shape gate = [db; dm; da; db; dm; da]).
Lemma null_ul : r_norm (project_ul qr svd tol P gate ham r c) = 0%R -> forall a1 a2 a3 m1 m2 b1 b2 b3 p' q' o', a1 < WA -> a2 < SA -> a3 < EA -> m1 < WM -> m2 < NM -> b1 < SB -> b2 < EB -> b3 < NB -> p' < da -> q' < dm -> o' < db ->
    good tol (west P lr c) a1 -> good tol (south P lr c) a2 -> good tol (east P lr c) a3 -> good tol (west P r c) m1 -> good tol (north P r c) m2 -> good tol (south P r rc) b1 -> good tol (east P r rc) b2 -> good tol (north P r rc) b3 ->
    sm da (fun p => sm dm (fun q => sm db (fun o => (sm X (fun x => sm Y (fun y =>
       (entry (gamma P lr c) [a1; a2; a3; x; p] * el (south P r c) x * entry (gamma P r c) [m1; x; y; m2; q] * el (east P r c) y * entry (gamma P r rc) [y; b1; b2; b3; o])%C)) * entry gate [o; q; p; o'; q'; p'])%C))) = RtoC 0.
Proof.
  unfold project_ul. fold rc lr.
  pose proof (eat3_up_shape P lr c _ _ _ _ _ ShA LA1 LA2 LA3) as TA.
  pose proof (eat3_left_shape P r rc _ _ _ _ _ ShB LB1 LB2 LB3) as TB.
  pose proof (eat4_shape P r c _ _ _ _ _ ShM LM0 LM1 LM2 LM3) as TM.
  pose proof (QR (eat3 P lr c UP) ltac:(rewrite TA; reflexivity)) as QA. pose proof (QR (eat3 P r rc LEFT) ltac:(rewrite TB; reflexivity)) as QB.
  destruct (qr (eat3 P lr c UP)) as [qA rA], (qr (eat3 P r rc LEFT)) as [qB rB].
  destruct QA as (KA & SqA & SrA & BA & XA), QB as (KB & SqB & SrB & BB & XB).
  unfold dimat in SqA, SrA, BA, XA, SqB, SrB, BB, XB. rewrite TA in SqA, SrA, BA, XA. rewrite TB in SqB, SrB, BB, XB. cbn [nth] in SqA, SrA, BA, XA, SqB, SrB, BB, XB.
  set (mid := eat4 P r c) in *.
  set (t5 := contract (cyc rB 2 (cyc mid 2 rA 2 1) 0 1) [1; 3; 6] gate [0; 1; 2]).
  assert (St : shape t5 = [KB; NM; WM; KA; db; dm; da] /\ forall m1 m2 ka kb p' q' o', entry t5 [kb; m2; m1; ka; o'; q'; p'] =
    sm db (fun o => sm dm (fun q => sm da (fun p => (sm Y (fun y => (entry rB [kb; o; y] * sm X (fun x => (entry mid [q; m1; x; y; m2] * entry rA [ka; p; x])%C))%C) * entry gate [o; q; p; o'; q'; p'])%C)))).
  { unfold t5. revert SrA SrB Sg TM. clearbody mid. clear. destruct rA as [sh0 f0], rB as [sh1 f1], gate as [sh2 f2], mid as [sh3 f3]; cbn [shape]; intros -> -> -> ->. split; reflexivity. }
  destruct St as [St Et].
  assert (Et' : forall m1 m2 ka kb p' q' o', entry t5 [kb; m2; m1; ka; o'; q'; p'] = sm da (fun p => sm dm (fun q => sm db (fun o => (sm X (fun x => sm Y (fun y => (entry rA [ka; p; x] * entry mid [q; m1; x; y; m2] * entry rB [kb; o; y])%C)) * entry gate [o; q; p; o'; q'; p'])%C)))).
  { intros. rewrite Et. rewrite sm_swap3. apply sm_ext. intros p _. apply sm_ext. intros q _. apply sm_ext. intros o _. f_equal. rewrite (sm_swap X Y). apply sm_ext. intros y _. rewrite <- sm_scal. apply sm_ext. intros x _. apply crev. }
  destruct (svd 5 _) as [[u1 s1] vt1]. destruct (svd 2 _) as [[u2 s2] vt2]. cbn [r_norm]. rewrite Rmult_1_l. intros Z0.
  intros a1 a2 a3 m1 m2 b1 b2 b3 p' q' o' Ha1 Ha2 Ha3 Hm1 Hm2 Hb1 Hb2 Hb3 Hp Hq Ho ga1 ga2 ga3 gm1 gm2 gb1 gb2 gb3.
  assert (CA : forall p x, p < da -> x < X -> entry (gamma P lr c) [a1; a2; a3; x; p] = sm KA (fun k => ((el (inv_elements tol (west P lr c)) a1 * el (inv_elements tol (south P lr c)) a2 * el (inv_elements tol (east P lr c)) a3 * entry qA [a3; a2; a1; k])%C * entry rA [k; p; x])%C)).
  { intros p x Hp' Hx. specialize (XA a3 a2 a1 p x Ha3 Ha2 Ha1 Hp' Hx). rewrite (eat3_up P lr c _ _ _ _ _ ShA LA1 LA2 LA3) in XA by assumption.
    transitivity ((el (inv_elements tol (west P lr c)) a1 * el (inv_elements tol (south P lr c)) a2 * el (inv_elements tol (east P lr c)) a3) * (entry (gamma P lr c) [a1; a2; a3; x; p] * el (west P lr c) a1 * el (south P lr c) a2 * el (east P lr c) a3))%C.
    - unfold good in *. transitivity (entry (gamma P lr c) [a1; a2; a3; x; p] * (el (inv_elements tol (west P lr c)) a1 * el (west P lr c) a1) * (el (inv_elements tol (south P lr c)) a2 * el (south P lr c) a2) * (el (inv_elements tol (east P lr c)) a3 * el (east P lr c) a3))%C; [rewrite ga1, ga2, ga3; cring|cring].
    - rewrite XA. fold (sm KA (fun z => (entry qA [a3; a2; a1; z] * entry rA [z; p; x])%C)). rewrite <- sm_scal. apply sm_ext. intros k Hk.
      cring. }
  assert (CB : forall p y, p < db -> y < Y -> entry (gamma P r rc) [y; b1; b2; b3; p] = sm KB (fun k => ((el (inv_elements tol (south P r rc)) b1 * el (inv_elements tol (east P r rc)) b2 * el (inv_elements tol (north P r rc)) b3 * entry qB [b1; b2; b3; k])%C * entry rB [k; p; y])%C)).
  { intros p x Hp' Hx. specialize (XB b1 b2 b3 p x Hb1 Hb2 Hb3 Hp' Hx). rewrite (eat3_left P r rc _ _ _ _ _ ShB ) in XB by assumption.
    transitivity ((el (inv_elements tol (south P r rc)) b1 * el (inv_elements tol (east P r rc)) b2 * el (inv_elements tol (north P r rc)) b3) * (entry (gamma P r rc) [x; b1; b2; b3; p] * el (north P r rc) b3 * el (east P r rc) b2 * el (south P r rc) b1))%C.
    - unfold good in *. transitivity (entry (gamma P r rc) [x; b1; b2; b3; p] * (el (inv_elements tol (south P r rc)) b1 * el (south P r rc) b1) * (el (inv_elements tol (east P r rc)) b2 * el (east P r rc) b2) * (el (inv_elements tol (north P r rc)) b3 * el (north P r rc) b3))%C; [rewrite gb1, gb2, gb3; cring|cring].
    - rewrite XB. fold (sm KB (fun z => (entry qB [b1; b2; b3; z] * entry rB [z; p; x])%C)). rewrite <- sm_scal. apply sm_ext. intros k Hk.
      cring. }
  pose proof (three_core da dm db X Y KA KB 0 0 (fun p x => entry (gamma P lr c) [a1; a2; a3; x; p]) (fun p y => entry (gamma P r rc) [y; b1; b2; b3; p]) (fun q x y => entry mid [q; m1; x; y; m2]) (fun k => (el (inv_elements tol (west P lr c)) a1 * el (inv_elements tol (south P lr c)) a2 * el (inv_elements tol (east P lr c)) a3 * entry qA [a3; a2; a1; k])%C) (fun k => (el (inv_elements tol (south P r rc)) b1 * el (inv_elements tol (east P r rc)) b2 * el (inv_elements tol (north P r rc)) b3 * entry qB [b1; b2; b3; k])%C) (fun k p x => entry rA [k; p; x]) (fun k p x => entry rB [k; p; x]) (fun p q o => entry gate [o; q; p; o'; q'; p']) (fun _ _ => RtoC 0) (fun _ _ => RtoC 0) (fun _ _ => RtoC 0) (fun _ _ => RtoC 0) (fun _ => RtoC 0) (fun _ => RtoC 0) (fun _ => RtoC 0) (RtoC 1) CA CB) as C3.
  assert (ZT : forall ka kb, ka < KA -> kb < KB -> entry t5 [kb; m2; m1; ka; o'; q'; p'] = RtoC 0).
  { intros ka kb Hka Hkb. destruct (C_dec (entry t5 [kb; m2; m1; ka; o'; q'; p']) (RtoC 0)) as [?|NZ]; [assumption|]. exfalso. refine (tnorm_nonzero t5 _ _ NZ Z0). rewrite St. repeat constructor; assumption. }
  cbv beta in C3. transitivity ((el (inv_elements tol (north P r c)) m2 * el (inv_elements tol (west P r c)) m1) * sm da (fun p => sm dm (fun q => sm db (fun o => (sm X (fun x => sm Y (fun y => (entry (gamma P lr c) [a1; a2; a3; x; p] * entry mid [q; m1; x; y; m2] * entry (gamma P r rc) [y; b1; b2; b3; o])%C)) * entry gate [o; q; p; o'; q'; p'])%C))))%C.
  { rewrite <- sm_scal. apply sm_ext. intros p Hp'. rewrite <- sm_scal. apply sm_ext. intros q Hq'. rewrite <- sm_scal. apply sm_ext. intros o Ho'. symmetry.
    match goal with |- (?k * (?u * ?v) = _)%C => transitivity ((k * u) * v)%C; [cring|] end. f_equal. rewrite <- sm_scal. apply sm_ext. intros x Hx. rewrite <- sm_scal. apply sm_ext. intros y Hy.
    unfold mid. rewrite (eat4_entry P r c _ _ _ _ _ ShM) by assumption. unfold good in *.
    transitivity (((el (inv_elements tol (west P r c)) m1 * el (west P r c) m1) * (el (inv_elements tol (north P r c)) m2 * el (north P r c) m2)) * (entry (gamma P lr c) [a1; a2; a3; x; p] * el (south P r c) x * entry (gamma P r c) [m1; x; y; m2; q] * el (east P r c) y * entry (gamma P r rc) [y; b1; b2; b3; o]))%C; [cring|]. rewrite gm1, gm2. cring. }
  rewrite <- (one_times (sm da _)). rewrite <- C3.
  - unfold sm at 1. cbn [seq]. rewrite sumC_nil. ring.
  - intros ka kb Hka Hkb. rewrite <- Et', ZT by assumption. unfold sm. cbn [seq]. rewrite sumC_nil. ring.
  - intros kb z _ Hz. lia.
  - intros z Hz. lia.
Qed.
End UL.

Section LR.
Context (r c WA EA NA da X Y SM EM dm WB SB NB db : nat).
Let lr := (r + 1) mod v_rows P. Let lc := (c + h_cols P - 1) mod h_cols P.
Context (ShA : shape (gamma P r c) = [WA; X; EA; NA; da]) (ShM : shape (gamma P lr c) = [Y; SM; EM; X; dm]) (ShB : shape (gamma P lr lc) = [WB; SB; Y; NB; db]).
Context (LA1 : length (west P r c) = WA) (LA2 : length (east P r c) = EA) (LA3 : length (north P r c) = NA).
Context (LM0 : length (west P lr c) = Y) (LM1 : length (south P lr c) = SM) (LM2 : length (east P lr c) = EM) (LM3 : length (north P lr c) = X).
Context (LB1 : length (west P lr lc) = WB) (LB2 : length (south P lr lc) = SB) (LB3 : length (north P lr lc) = NB).
Context (Sg : shape gate = [da; dm; db; da; dm; db]).
Lemma null_lr : r_norm (project_lr qr svd tol P gate ham r c) = 0%R -> forall a1 a2 a3 m1 m2 b1 b2 b3 p' q' o', a1 < WA -> a2 < EA -> a3 < NA -> m1 < SM -> m2 < EM -> b1 < WB -> b2 < SB -> b3 < NB -> p' < da -> q' < dm -> o' < db ->
    good tol (west P r c) a1 -> good tol (east P r c) a2 -> good tol (north P r c) a3 -> good tol (south P lr c) m1 -> good tol (east P lr c) m2 -> good tol (west P lr lc) b1 -> good tol (south P lr lc) b2 -> good tol (north P lr lc) b3 ->
    sm da (fun p => sm dm (fun q => sm db (fun o => (sm X (fun x => sm Y (fun y =>
       (entry (gamma P r c) [a1; x; a2; a3; p] * el (north P lr c) x * entry (gamma P lr c) [y; m1; m2; x; q] * el (west P lr c) y * entry (gamma P lr lc) [b1; b2; y; b3; o])%C)) * entry gate [p; q; o; p'; q'; o'])%C))) = RtoC 0.
Proof.
  unfold project_lr. fold lr lc.
  pose proof (eat3_down_shape P r c _ _ _ _ _ ShA LA1 LA2 LA3) as TA.
  pose proof (eat3_right_shape P lr lc _ _ _ _ _ ShB LB1 LB2 LB3) as TB.
  pose proof (eat4_shape P lr c _ _ _ _ _ ShM LM0 LM1 LM2 LM3) as TM.
  pose proof (QR (eat3 P r c DOWN) ltac:(rewrite TA; reflexivity)) as QA. pose proof (QR (eat3 P lr lc RIGHT) ltac:(rewrite TB; reflexivity)) as QB.
  destruct (qr (eat3 P r c DOWN)) as [qA rA], (qr (eat3 P lr lc RIGHT)) as [qB rB].
  destruct QA as (KA & SqA & SrA & BA & XA), QB as (KB & SqB & SrB & BB & XB).
  unfold dimat in SqA, SrA, BA, XA, SqB, SrB, BB, XB. rewrite TA in SqA, SrA, BA, XA. rewrite TB in SqB, SrB, BB, XB. cbn [nth] in SqA, SrA, BA, XA, SqB, SrB, BB, XB.
  set (mid := eat4 P lr c) in *.
  set (t5 := contract (cyc (cyc rA 2 mid 4 1) 3 rB 2 1) [3; 4; 6] gate [0; 1; 2]).
  assert (St : shape t5 = [SM; EM; KA; KB; da; dm; db] /\ forall m1 m2 ka kb p' q' o', entry t5 [m1; m2; ka; kb; p'; q'; o'] =
    sm da (fun p => sm dm (fun q => sm db (fun o => (sm Y (fun y => (sm X (fun x => (entry rA [ka; p; x] * entry mid [q; y; m1; m2; x])%C) * entry rB [kb; o; y])%C) * entry gate [p; q; o; p'; q'; o'])%C)))).
  { unfold t5. revert SrA SrB Sg TM. clearbody mid. clear. destruct rA as [sh0 f0], rB as [sh1 f1], gate as [sh2 f2], mid as [sh3 f3]; cbn [shape]; intros -> -> -> ->. split; reflexivity. }
  destruct St as [St Et].
  assert (Et' : forall m1 m2 ka kb p' q' o', entry t5 [m1; m2; ka; kb; p'; q'; o'] = sm da (fun p => sm dm (fun q => sm db (fun o => (sm X (fun x => sm Y (fun y => (entry rA [ka; p; x] * entry mid [q; y; m1; m2; x] * entry rB [kb; o; y])%C)) * entry gate [p; q; o; p'; q'; o'])%C)))).
  { intros. rewrite Et. apply sm_ext. intros p _. apply sm_ext. intros q _. apply sm_ext. intros o _. f_equal. rewrite (sm_swap X Y). apply sm_ext. intros y _. rewrite <- sm_scal_r. reflexivity. }
  destruct (svd 5 _) as [[u1 s1] vt1]. destruct (svd 2 _) as [[u2 s2] vt2]. cbn [r_norm]. rewrite Rmult_1_l. intros Z0.
  intros a1 a2 a3 m1 m2 b1 b2 b3 p' q' o' Ha1 Ha2 Ha3 Hm1 Hm2 Hb1 Hb2 Hb3 Hp Hq Ho ga1 ga2 ga3 gm1 gm2 gb1 gb2 gb3.
  assert (CA : forall p x, p < da -> x < X -> entry (gamma P r c) [a1; x; a2; a3; p] = sm KA (fun k => ((el (inv_elements tol (west P r c)) a1 * el (inv_elements tol (east P r c)) a2 * el (inv_elements tol (north P r c)) a3 * entry qA [a2; a3; a1; k])%C * entry rA [k; p; x])%C)).
  { intros p x Hp' Hx. specialize (XA a2 a3 a1 p x Ha2 Ha3 Ha1 Hp' Hx). rewrite (eat3_down P r c _ _ _ _ _ ShA LA1 LA2 LA3) in XA by assumption.
    transitivity ((el (inv_elements tol (west P r c)) a1 * el (inv_elements tol (east P r c)) a2 * el (inv_elements tol (north P r c)) a3) * (entry (gamma P r c) [a1; x; a2; a3; p] * el (west P r c) a1 * el (north P r c) a3 * el (east P r c) a2))%C.
    - unfold good in *. transitivity (entry (gamma P r c) [a1; x; a2; a3; p] * (el (inv_elements tol (west P r c)) a1 * el (west P r c) a1) * (el (inv_elements tol (east P r c)) a2 * el (east P r c) a2) * (el (inv_elements tol (north P r c)) a3 * el (north P r c) a3))%C; [rewrite ga1, ga2, ga3; cring|cring].
    - rewrite XA. fold (sm KA (fun z => (entry qA [a2; a3; a1; z] * entry rA [z; p; x])%C)). rewrite <- sm_scal. apply sm_ext. intros k Hk.
      cring. }
  assert (CB : forall p y, p < db -> y < Y -> entry (gamma P lr lc) [b1; b2; y; b3; p] = sm KB (fun k => ((el (inv_elements tol (west P lr lc)) b1 * el (inv_elements tol (south P lr lc)) b2 * el (inv_elements tol (north P lr lc)) b3 * entry qB [b3; b1; b2; k])%C * entry rB [k; p; y])%C)).
  { intros p x Hp' Hx. specialize (XB b3 b1 b2 p x Hb3 Hb1 Hb2 Hp' Hx). rewrite (eat3_right P lr lc _ _ _ _ _ ShB ) in XB by assumption.
    transitivity ((el (inv_elements tol (west P lr lc)) b1 * el (inv_elements tol (south P lr lc)) b2 * el (inv_elements tol (north P lr lc)) b3) * (entry (gamma P lr lc) [b1; b2; x; b3; p] * el (north P lr lc) b3 * el (west P lr lc) b1 * el (south P lr lc) b2))%C.
    - unfold good in *. transitivity (entry (gamma P lr lc) [b1; b2; x; b3; p] * (el (inv_elements tol (west P lr lc)) b1 * el (west P lr lc) b1) * (el (inv_elements tol (south P lr lc)) b2 * el (south P lr lc) b2) * (el (inv_elements tol (north P lr lc)) b3 * el (north P lr lc) b3))%C; [rewrite gb1, gb2, gb3; cring|cring].
    - rewrite XB. fold (sm KB (fun z => (entry qB [b3; b1; b2; z] * entry rB [z; p; x])%C)). rewrite <- sm_scal. apply sm_ext. intros k Hk.
      cring. }
  pose proof (three_core da dm db X Y KA KB 0 0 (fun p x => entry (gamma P r c) [a1; x; a2; a3; p]) (fun p y => entry (gamma P lr lc) [b1; b2; y; b3; p]) (fun q x y => entry mid [q; y; m1; m2; x]) (fun k => (el (inv_elements tol (west P r c)) a1 * el (inv_elements tol (east P r c)) a2 * el (inv_elements tol (north P r c)) a3 * entry qA [a2; a3; a1; k])%C) (fun k => (el (inv_elements tol (west P lr lc)) b1 * el (inv_elements tol (south P lr lc)) b2 * el (inv_elements tol (north P lr lc)) b3 * entry qB [b3; b1; b2; k])%C) (fun k p x => entry rA [k; p; x]) (fun k p x => entry rB [k; p; x]) (fun p q o => entry gate [p; q; o; p'; q'; o']) (fun _ _ => RtoC 0) (fun _ _ => RtoC 0) (fun _ _ => RtoC 0) (fun _ _ => RtoC 0) (fun _ => RtoC 0) (fun _ => RtoC 0) (fun _ => RtoC 0) (RtoC 1) CA CB) as C3.
  assert (ZT : forall ka kb, ka < KA -> kb < KB -> entry t5 [m1; m2; ka; kb; p'; q'; o'] = RtoC 0).
  { intros ka kb Hka Hkb. destruct (C_dec (entry t5 [m1; m2; ka; kb; p'; q'; o']) (RtoC 0)) as [?|NZ]; [assumption|]. exfalso. refine (tnorm_nonzero t5 _ _ NZ Z0). rewrite St. repeat constructor; assumption. }
  cbv beta in C3. transitivity ((el (inv_elements tol (south P lr c)) m1 * el (inv_elements tol (east P lr c)) m2) * sm da (fun p => sm dm (fun q => sm db (fun o => (sm X (fun x => sm Y (fun y => (entry (gamma P r c) [a1; x; a2; a3; p] * entry mid [q; y; m1; m2; x] * entry (gamma P lr lc) [b1; b2; y; b3; o])%C)) * entry gate [p; q; o; p'; q'; o'])%C))))%C.
  { rewrite <- sm_scal. apply sm_ext. intros p Hp'. rewrite <- sm_scal. apply sm_ext. intros q Hq'. rewrite <- sm_scal. apply sm_ext. intros o Ho'. symmetry.
    match goal with |- (?k * (?u * ?v) = _)%C => transitivity ((k * u) * v)%C; [cring|] end. f_equal. rewrite <- sm_scal. apply sm_ext. intros x Hx. rewrite <- sm_scal. apply sm_ext. intros y Hy.
    unfold mid. rewrite (eat4_entry P lr c _ _ _ _ _ ShM) by assumption. unfold good in *.
    transitivity (((el (inv_elements tol (south P lr c)) m1 * el (south P lr c) m1) * (el (inv_elements tol (east P lr c)) m2 * el (east P lr c) m2)) * (entry (gamma P r c) [a1; x; a2; a3; p] * el (north P lr c) x * entry (gamma P lr c) [y; m1; m2; x; q] * el (west P lr c) y * entry (gamma P lr lc) [b1; b2; y; b3; o]))%C; [cring|]. rewrite gm1, gm2. cring. }
  rewrite <- (one_times (sm da _)). rewrite <- C3.
  - unfold sm at 1. cbn [seq]. rewrite sumC_nil. ring.
  - intros ka kb Hka Hkb. rewrite <- Et', ZT by assumption. unfold sm. cbn [seq]. rewrite sumC_nil. ring.
  - intros kb z _ Hz. lia.
  - intros z Hz. lia.
Qed.
End LR.

Section LL.
Context (r c SA EA NA da X Y WM SM dm WB EB NB db : nat).
Let lr := (r + 1) mod v_rows P. Let rc := (c + 1) mod h_cols P.
Context (ShA : shape (gamma P lr rc) = [X; SA; EA; NA; da]) (ShM : shape (gamma P lr c) = [WM; SM; X; Y; dm]) (ShB : shape (gamma P r c) = [WB; Y; EB; NB; db]).
Context (LA1 : length (south P lr rc) = SA) (LA2 : length (east P lr rc) = EA) (LA3 : length (north P lr rc) = NA).
Context (LM0 : length (west P lr c) = WM) (LM1 : length (south P lr c) = SM) (LM2 : length (east P lr c) = X) (LM3 : length (north P lr c) = Y).
Context (LB1 : length (west P r c) = WB) (LB2 : length (east P r c) = EB) (LB3 : length (north P r c) = NB).
Context (Sg : shape gate = [db; dm; da; db; dm; da]).
Lemma null_ll : r_norm (project_ll qr svd tol P gate ham r c) = 0%R -> forall a1 a2 a3 m1 m2 b1 b2 b3 p' q' o', a1 < SA -> a2 < EA -> a3 < NA -> m1 < WM -> m2 < SM -> b1 < WB -> b2 < EB -> b3 < NB -> p' < da -> q' < dm -> o' < db ->
    good tol (south P lr rc) a1 -> good tol (east P lr rc) a2 -> good tol (north P lr rc) a3 -> good tol (west P lr c) m1 -> good tol (south P lr c) m2 -> good tol (west P r c) b1 -> good tol (east P r c) b2 -> good tol (north P r c) b3 ->
    sm da (fun p => sm dm (fun q => sm db (fun o => (sm X (fun x => sm Y (fun y =>
       (entry (gamma P lr rc) [x; a1; a2; a3; p] * el (east P lr c) x * entry (gamma P lr c) [m1; m2; x; y; q] * el (north P lr c) y * entry (gamma P r c) [b1; y; b2; b3; o])%C)) * entry gate [o; q; p; o'; q'; p'])%C))) = RtoC 0.
Proof.
  unfold project_ll. fold lr rc.
  pose proof (eat3_left_shape P lr rc _ _ _ _ _ ShA LA1 LA2 LA3) as TA.
  pose proof (eat3_down_shape P r c _ _ _ _ _ ShB LB1 LB2 LB3) as TB.
  pose proof (eat4_shape P lr c _ _ _ _ _ ShM LM0 LM1 LM2 LM3) as TM.
  pose proof (QR (eat3 P lr rc LEFT) ltac:(rewrite TA; reflexivity)) as QA. pose proof (QR (eat3 P r c DOWN) ltac:(rewrite TB; reflexivity)) as QB.
  destruct (qr (eat3 P lr rc LEFT)) as [qA rA], (qr (eat3 P r c DOWN)) as [qB rB].
  destruct QA as (KA & SqA & SrA & BA & XA), QB as (KB & SqB & SrB & BB & XB).
  unfold dimat in SqA, SrA, BA, XA, SqB, SrB, BB, XB. rewrite TA in SqA, SrA, BA, XA. rewrite TB in SqB, SrB, BB, XB. cbn [nth] in SqA, SrA, BA, XA, SqB, SrB, BB, XB.
  set (mid := eat4 P lr c) in *.
  set (t5 := contract (cyc (cyc rB 2 mid 4 1) 5 rA 2 1) [1; 2; 6] gate [0; 1; 2]).
  assert (St : shape t5 = [KB; WM; SM; KA; db; dm; da] /\ forall m1 m2 ka kb p' q' o', entry t5 [kb; m1; m2; ka; o'; q'; p'] =
    sm db (fun o => sm dm (fun q => sm da (fun p => (sm X (fun x => (sm Y (fun y => (entry rB [kb; o; y] * entry mid [q; m1; m2; x; y])%C) * entry rA [ka; p; x])%C) * entry gate [o; q; p; o'; q'; p'])%C)))).
  { unfold t5. revert SrA SrB Sg TM. clearbody mid. clear. destruct rA as [sh0 f0], rB as [sh1 f1], gate as [sh2 f2], mid as [sh3 f3]; cbn [shape]; intros -> -> -> ->. split; reflexivity. }
  destruct St as [St Et].
  assert (Et' : forall m1 m2 ka kb p' q' o', entry t5 [kb; m1; m2; ka; o'; q'; p'] = sm da (fun p => sm dm (fun q => sm db (fun o => (sm X (fun x => sm Y (fun y => (entry rA [ka; p; x] * entry mid [q; m1; m2; x; y] * entry rB [kb; o; y])%C)) * entry gate [o; q; p; o'; q'; p'])%C)))).
  { intros. rewrite Et. rewrite sm_swap3. apply sm_ext. intros p _. apply sm_ext. intros q _. apply sm_ext. intros o _. f_equal. apply sm_ext. intros x _. rewrite <- sm_scal_r. apply sm_ext. intros y _. apply crev_r. }
  destruct (svd 5 _) as [[u1 s1] vt1]. destruct (svd 2 _) as [[u2 s2] vt2]. cbn [r_norm]. rewrite Rmult_1_l. intros Z0.
  intros a1 a2 a3 m1 m2 b1 b2 b3 p' q' o' Ha1 Ha2 Ha3 Hm1 Hm2 Hb1 Hb2 Hb3 Hp Hq Ho ga1 ga2 ga3 gm1 gm2 gb1 gb2 gb3.
  assert (CA : forall p x, p < da -> x < X -> entry (gamma P lr rc) [x; a1; a2; a3; p] = sm KA (fun k => ((el (inv_elements tol (south P lr rc)) a1 * el (inv_elements tol (east P lr rc)) a2 * el (inv_elements tol (north P lr rc)) a3 * entry qA [a1; a2; a3; k])%C * entry rA [k; p; x])%C)).
  { intros p x Hp' Hx. specialize (XA a1 a2 a3 p x Ha1 Ha2 Ha3 Hp' Hx). rewrite (eat3_left P lr rc _ _ _ _ _ ShA ) in XA by assumption.
    transitivity ((el (inv_elements tol (south P lr rc)) a1 * el (inv_elements tol (east P lr rc)) a2 * el (inv_elements tol (north P lr rc)) a3) * (entry (gamma P lr rc) [x; a1; a2; a3; p] * el (north P lr rc) a3 * el (east P lr rc) a2 * el (south P lr rc) a1))%C.
    - unfold good in *. transitivity (entry (gamma P lr rc) [x; a1; a2; a3; p] * (el (inv_elements tol (south P lr rc)) a1 * el (south P lr rc) a1) * (el (inv_elements tol (east P lr rc)) a2 * el (east P lr rc) a2) * (el (inv_elements tol (north P lr rc)) a3 * el (north P lr rc) a3))%C; [rewrite ga1, ga2, ga3; cring|cring].
    - rewrite XA. fold (sm KA (fun z => (entry qA [a1; a2; a3; z] * entry rA [z; p; x])%C)). rewrite <- sm_scal. apply sm_ext. intros k Hk.
      cring. }
  assert (CB : forall p y, p < db -> y < Y -> entry (gamma P r c) [b1; y; b2; b3; p] = sm KB (fun k => ((el (inv_elements tol (west P r c)) b1 * el (inv_elements tol (east P r c)) b2 * el (inv_elements tol (north P r c)) b3 * entry qB [b2; b3; b1; k])%C * entry rB [k; p; y])%C)).
  { intros p x Hp' Hx. specialize (XB b2 b3 b1 p x Hb2 Hb3 Hb1 Hp' Hx). rewrite (eat3_down P r c _ _ _ _ _ ShB LB1 LB2 LB3) in XB by assumption.
    transitivity ((el (inv_elements tol (west P r c)) b1 * el (inv_elements tol (east P r c)) b2 * el (inv_elements tol (north P r c)) b3) * (entry (gamma P r c) [b1; x; b2; b3; p] * el (west P r c) b1 * el (north P r c) b3 * el (east P r c) b2))%C.
    - unfold good in *. transitivity (entry (gamma P r c) [b1; x; b2; b3; p] * (el (inv_elements tol (west P r c)) b1 * el (west P r c) b1) * (el (inv_elements tol (east P r c)) b2 * el (east P r c) b2) * (el (inv_elements tol (north P r c)) b3 * el (north P r c) b3))%C; [rewrite gb1, gb2, gb3; cring|cring].
    - rewrite XB. fold (sm KB (fun z => (entry qB [b2; b3; b1; z] * entry rB [z; p; x])%C)). rewrite <- sm_scal. apply sm_ext. intros k Hk.
      cring. }
  pose proof (three_core da dm db X Y KA KB 0 0 (fun p x => entry (gamma P lr rc) [x; a1; a2; a3; p]) (fun p y => entry (gamma P r c) [b1; y; b2; b3; p]) (fun q x y => entry mid [q; m1; m2; x; y]) (fun k => (el (inv_elements tol (south P lr rc)) a1 * el (inv_elements tol (east P lr rc)) a2 * el (inv_elements tol (north P lr rc)) a3 * entry qA [a1; a2; a3; k])%C) (fun k => (el (inv_elements tol (west P r c)) b1 * el (inv_elements tol (east P r c)) b2 * el (inv_elements tol (north P r c)) b3 * entry qB [b2; b3; b1; k])%C) (fun k p x => entry rA [k; p; x]) (fun k p x => entry rB [k; p; x]) (fun p q o => entry gate [o; q; p; o'; q'; p']) (fun _ _ => RtoC 0) (fun _ _ => RtoC 0) (fun _ _ => RtoC 0) (fun _ _ => RtoC 0) (fun _ => RtoC 0) (fun _ => RtoC 0) (fun _ => RtoC 0) (RtoC 1) CA CB) as C3.
  assert (ZT : forall ka kb, ka < KA -> kb < KB -> entry t5 [kb; m1; m2; ka; o'; q'; p'] = RtoC 0).
  { intros ka kb Hka Hkb. destruct (C_dec (entry t5 [kb; m1; m2; ka; o'; q'; p']) (RtoC 0)) as [?|NZ]; [assumption|]. exfalso. refine (tnorm_nonzero t5 _ _ NZ Z0). rewrite St. repeat constructor; assumption. }
  cbv beta in C3. transitivity ((el (inv_elements tol (south P lr c)) m2 * el (inv_elements tol (west P lr c)) m1) * sm da (fun p => sm dm (fun q => sm db (fun o => (sm X (fun x => sm Y (fun y => (entry (gamma P lr rc) [x; a1; a2; a3; p] * entry mid [q; m1; m2; x; y] * entry (gamma P r c) [b1; y; b2; b3; o])%C)) * entry gate [o; q; p; o'; q'; p'])%C))))%C.
  { rewrite <- sm_scal. apply sm_ext. intros p Hp'. rewrite <- sm_scal. apply sm_ext. intros q Hq'. rewrite <- sm_scal. apply sm_ext. intros o Ho'. symmetry.
    match goal with |- (?k * (?u * ?v) = _)%C => transitivity ((k * u) * v)%C; [cring|] end. f_equal. rewrite <- sm_scal. apply sm_ext. intros x Hx. rewrite <- sm_scal. apply sm_ext. intros y Hy.
    unfold mid. rewrite (eat4_entry P lr c _ _ _ _ _ ShM) by assumption. unfold good in *.
    transitivity (((el (inv_elements tol (west P lr c)) m1 * el (west P lr c) m1) * (el (inv_elements tol (south P lr c)) m2 * el (south P lr c) m2)) * (entry (gamma P lr rc) [x; a1; a2; a3; p] * el (east P lr c) x * entry (gamma P lr c) [m1; m2; x; y; q] * el (north P lr c) y * entry (gamma P r c) [b1; y; b2; b3; o]))%C; [cring|]. rewrite gm1, gm2. cring. }
  rewrite <- (one_times (sm da _)). rewrite <- C3.
  - unfold sm at 1. cbn [seq]. rewrite sumC_nil. ring.
  - intros ka kb Hka Hkb. rewrite <- Et', ZT by assumption. unfold sm. cbn [seq]. rewrite sumC_nil. ring.
  - intros kb z _ Hz. lia.
  - intros z Hz. lia.
Qed.
End LL.
End Triangle.
