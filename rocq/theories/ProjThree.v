(** What the triangle projections do to the three tensors. *)
From Coq Require Import List Arith Lia Bool Reals Lra.
From Verif Require Import Base Cplx SumModel SumSpec SumProofs NetSum NetEx ContractorModel TrgTensor TrgHoleAlg BmpsModel BmpsAlg ProjModel ProjSpec ProjAlg ProjCore ProjTwo ProjPatch ProjGrid.
Import ListNotations.
Local Open Scope nat_scope.

Lemma sm_swap3 a b c f : sm a (fun i => sm b (fun j => sm c (f i j))) = sm c (fun k => sm b (fun j => sm a (fun i => f i j k))).
Proof.
  transitivity (sm a (fun i => sm c (fun k => sm b (fun j => f i j k)))); [apply sm_ext; intros i _; apply sm_swap|]. rewrite sm_swap. apply sm_ext. intros k _. apply sm_swap.
Qed.

Lemma crev a b c : (a * (b * c) = c * b * a)%C.
Proof. ring. Qed.
Lemma crev_r a b c : (a * b * c = c * b * a)%C.
Proof. ring. Qed.
Ltac cring := repeat match goal with |- context [sm ?n ?f] => generalize (sm n f); intro | |- context [el ?s ?i] => generalize (el s i); intro | |- context [entry ?T ?i] => generalize (entry T i); intro end; ring.

Section Triangle.
Context (qr : tensor -> tensor * tensor) (svd : nat -> tensor -> tensor * list R * tensor) (tol : R) (m : nat).
Context (QR : qr_exact qr) (SV : svd_up_to m svd) (T0 : (0 < tol)%R).
Context (P : peps) (gate : tensor) (ham : option tensor).

Section UR.
Context (r c WA SA NA da X Y EM NM dm WB SB EB db : nat).
Let lc := (c + h_cols P - 1) mod h_cols P. Let lr := (r + 1) mod v_rows P.
Context (ShA : shape (gamma P r lc) = [WA; SA; X; NA; da]) (ShM : shape (gamma P r c) = [X; Y; EM; NM; dm]) (ShB : shape (gamma P lr c) = [WB; SB; EB; Y; db]).
Context (LA1 : length (west P r lc) = WA) (LA2 : length (south P r lc) = SA) (LA3 : length (north P r lc) = NA).
Context (LM0 : length (west P r c) = X) (LM1 : length (south P r c) = Y) (LM2 : length (east P r c) = EM) (LM3 : length (north P r c) = NM).
Context (LB1 : length (west P lr c) = WB) (LB2 : length (south P lr c) = SB) (LB3 : length (east P lr c) = EB).
Context (Sg : shape gate = [da; dm; db; da; dm; db]) (Big1 : da * (da * X) <= m) (Big2 : db * (db * Y) <= m).
Let set1 s1 := put_h P r c s1. Let set2 s1 s2 := put_v (set1 s1) lr c s2.
Context (HA : forall s1, west (set1 s1) r lc = west P r lc /\ south (set1 s1) r lc = south P r lc /\ north (set1 s1) r lc = north P r lc).
Context (HB : forall s1 s2, west (set2 s1 s2) lr c = west P lr c /\ south (set2 s1 s2) lr c = south P lr c /\ east (set2 s1 s2) lr c = east P lr c).
Context (HM : forall s1 s2, east (set2 s1 s2) r c = east P r c /\ north (set2 s1 s2) r c = north P r c).
Lemma local_ur : exists s1 s2 gA gM gB,
  r_peps (project_ur qr svd tol P gate ham r c) = put_gamma (put_gamma (put_v (put_gamma (put_h P r c s1) r lc gA) lr c s2) lr c gB) r c gM /\
  shape gA = [WA; SA; length s1; NA; da] /\ shape gM = [length s1; length s2; EM; NM; dm] /\ shape gB = [WB; SB; EB; length s2; db] /\
  (kept tol s1 -> forall a1 a2 a3 m1 m2 b1 b2 b3 p' q' o', a1 < WA -> a2 < SA -> a3 < NA -> m1 < EM -> m2 < NM -> b1 < WB -> b2 < SB -> b3 < EB -> p' < da -> q' < dm -> o' < db ->
    good tol (west P r lc) a1 -> good tol (south P r lc) a2 -> good tol (north P r lc) a3 -> good tol (east P r c) m1 -> good tol (north P r c) m2 -> good tol (west P lr c) b1 -> good tol (south P lr c) b2 -> good tol (east P lr c) b3 ->
    sm (length s1) (fun z => sm (length s2) (fun w => (entry gA [a1; a2; z; a3; p'] * el s1 z * entry gM [z; w; m1; m2; q'] * el s2 w * entry gB [b1; b2; b3; w; o'])%C)) =
    (RtoC (/ r_norm (project_ur qr svd tol P gate ham r c)) *
     sm da (fun p => sm dm (fun q => sm db (fun o => (sm X (fun x => sm Y (fun y =>
       (entry (gamma P r lc) [a1; a2; x; a3; p] * el (west P r c) x * entry (gamma P r c) [x; y; m1; m2; q] * el (south P r c) y * entry (gamma P lr c) [b1; b2; b3; y; o])%C)) * entry gate [p; q; o; p'; q'; o'])%C))))%C).
Proof.
  unfold project_ur. fold lc lr.
  pose proof (eat3_right_shape P r lc _ _ _ _ _ ShA LA1 LA2 LA3) as TA.
  pose proof (eat3_up_shape P lr c _ _ _ _ _ ShB LB1 LB2 LB3) as TB.
  pose proof (eat4_shape P r c _ _ _ _ _ ShM LM0 LM1 LM2 LM3) as TM.
  pose proof (QR (eat3 P r lc RIGHT) ltac:(rewrite TA; reflexivity)) as QA. pose proof (QR (eat3 P lr c UP) ltac:(rewrite TB; reflexivity)) as QB.
  destruct (qr (eat3 P r lc RIGHT)) as [qA rA], (qr (eat3 P lr c UP)) as [qB rB].
  destruct QA as (KA & SqA & SrA & BA & XA), QB as (KB & SqB & SrB & BB & XB).
  unfold dimat in SqA, SrA, BA, XA, SqB, SrB, BB, XB. rewrite TA in SqA, SrA, BA, XA. rewrite TB in SqB, SrB, BB, XB. cbn [nth] in SqA, SrA, BA, XA, SqB, SrB, BB, XB.
  set (mid := eat4 P r c) in *.
  set (t5 := contract (cyc (cyc rA 2 mid 1 1) 2 rB 2 1) [4; 2; 6] gate [0; 1; 2]).
  assert (St : shape t5 = [EM; NM; KA; KB; da; dm; db] /\ forall m1 m2 ka kb p' q' o', entry t5 [m1; m2; ka; kb; p'; q'; o'] =
    sm da (fun p => sm dm (fun q => sm db (fun o => (sm Y (fun y => (sm X (fun x => (entry rA [ka; p; x] * entry mid [q; x; y; m1; m2])%C) * entry rB [kb; o; y])%C) * entry gate [p; q; o; p'; q'; o'])%C)))).
  { unfold t5. revert SrA SrB Sg TM. clearbody mid. clear. destruct rA as [sh0 f0], rB as [sh1 f1], gate as [sh2 f2], mid as [sh3 f3]; cbn [shape]; intros -> -> -> ->. split; reflexivity. }
  destruct St as [St Et].
  assert (Et' : forall m1 m2 ka kb p' q' o', entry t5 [m1; m2; ka; kb; p'; q'; o'] = sm da (fun p => sm dm (fun q => sm db (fun o => (sm X (fun x => sm Y (fun y => (entry rA [ka; p; x] * entry mid [q; x; y; m1; m2] * entry rB [kb; o; y])%C)) * entry gate [p; q; o; p'; q'; o'])%C)))).
  { intros. rewrite Et. apply sm_ext. intros p _. apply sm_ext. intros q _. apply sm_ext. intros o _. f_equal. rewrite (sm_swap X Y). apply sm_ext. intros y _. rewrite <- sm_scal_r. reflexivity. }
  set (t6 := transpose [6; 3; 0; 1; 5; 4; 2] (normalised t5)).
  assert (S6 : shape t6 = [db; KB; EM; NM; dm; da; KA]).
  { unfold t6. cbn [transpose shape map]. unfold dimat. cbn [normalised shape]. rewrite St. reflexivity. }
  assert (E6 : forall m1 m2 ka kb p' q' o', entry t6 [o'; kb; m1; m2; q'; p'; ka] = (RtoC (/ tnorm t5) * entry t5 [m1; m2; ka; kb; p'; q'; o'])%C).
  { intros. unfold t6. cbn [transpose entry]. unfold rank. cbn [normalised shape entry]. rewrite St. reflexivity. }
  pose proof (SV 5 t6 ltac:(rewrite S6; cbn; lia) ltac:(rewrite S6; right; cbn; nia)) as V.
  destruct (svd 5 t6) as [[u1 s1] vt1]. rewrite S6 in V. cbn [firstn skipn app] in V. destruct V as (Su & Sv & EV).
  set (t7 := contract u1 [5] (diag s1) [0]).
  assert (S7 : shape t7 = [db; KB; EM; NM; dm; length s1] /\ forall o' kb m1 m2 q' z, z < length s1 -> entry t7 [o'; kb; m1; m2; q'; z] = (entry u1 [o'; kb; m1; m2; q'; z] * el s1 z)%C).
  { assert (Q : shape t7 = [db; KB; EM; NM; dm; length s1] /\ forall o' kb m1 m2 q' z, entry t7 [o'; kb; m1; m2; q'; z] = sm (length s1) (fun z' => (entry u1 [o'; kb; m1; m2; q'; z'] * dl s1 z' z)%C)).
    { unfold t7. revert Su. clear. destruct u1 as [sh0 f0]. cbn [shape]. intros ->. split; reflexivity. }
    destruct Q as [Q1 Q2]. split; [exact Q1|]. intros. rewrite Q2. apply (sm_at (length s1) (fun z' => entry u1 [o'; kb; m1; m2; q'; z'])). assumption. }
  destruct S7 as [S7 E7].
  pose proof (SV 2 t7 ltac:(rewrite S7; cbn; lia) ltac:(rewrite S7; left; cbn; nia)) as V.
  destruct (svd 2 t7) as [[u2 s2] vt2]. rewrite S7 in V. cbn [firstn skipn app] in V. destruct V as (Su2 & Sv2 & EV2).
  cbn [r_peps r_norm]. rewrite Rmult_1_l.
  set (hA := split_out tol (put_h P r c s1) qA r lc RIGHT). set (gA := transpose [1; 2; 3; 0; 4] (cyc hA 0 vt1 2 1)).
  set (P3 := put_v (put_gamma (put_h P r c s1) r lc gA) lr c s2).
  set (hB := split_out tol P3 qB lr c UP). set (gB := transpose [2; 1; 0; 3; 4] (cyc hB 1 u2 1 1)).
  set (P4 := put_gamma P3 lr c gB).
  set (gM := transpose [2; 3; 4; 0; 1] (cyc (cyc (contract vt2 [4] (diag_inv tol s1) [0]) 2 (diag_inv tol (north P4 r c)) 1 1) 3 (diag_inv tol (east P4 r c)) 0 1)).
  destruct (HA s1) as (HA1 & HA2 & HA3). destruct (HB s1 s2) as (HB1 & HB2 & HB3). destruct (HM s1 s2) as (HM1 & HM2).
  change (set1 s1) with (put_h P r c s1) in HA1, HA2, HA3. change (west (set2 s1 s2)) with (west P3) in HB1. change (south (set2 s1 s2)) with (south P3) in HB2. change (east (set2 s1 s2)) with (east P3) in HB3. change (east (set2 s1 s2)) with (east P4) in HM1. change (north (set2 s1 s2)) with (north P4) in HM2.
  pose proof (split_right_shape tol (put_h P r c s1) r lc WA SA NA ltac:(rewrite HA1; exact LA1) ltac:(rewrite HA2; exact LA2) ltac:(rewrite HA3; exact LA3) qA KA SqA) as Sh. fold hA in Sh.
  pose proof (split_up_shape tol P3 lr c WB SB EB ltac:(rewrite HB1; exact LB1) ltac:(rewrite HB2; exact LB2) ltac:(rewrite HB3; exact LB3) qB KB SqB) as Sk. fold hB in Sk.
  exists s1, s2, gA, gM, gB. split; [reflexivity|].
  assert (GA : shape gA = [WA; SA; length s1; NA; da] /\ forall a1 a2 a3 z p, entry gA [a1; a2; z; a3; p] = sm KA (fun k => (entry hA [k; a3; a1; a2] * entry vt1 [z; p; k])%C)).
  { unfold gA. revert Sh Sv. clearbody hA. clear. generalize (length s1). intros l. destruct hA as [sh0 f0], vt1 as [sh1 f1]; cbn [shape entry]; intros -> ->. split; reflexivity. }
  assert (GB : shape gB = [WB; SB; EB; length s2; db] /\ forall b1 b2 b3 z p, entry gB [b1; b2; b3; z; p] = sm KB (fun k => (entry hB [b1; k; b3; b2] * entry u2 [p; k; z])%C)).
  { unfold gB. revert Sk Su2. clearbody hB. clear. generalize (length s2). intros l. destruct hB as [sh0 f0], u2 as [sh1 f1]; cbn [shape entry]; intros -> ->. split; reflexivity. }
  assert (GM : shape gM = [length s1; length s2; EM; NM; dm] /\ forall z w m1 m2 q, z < length s1 -> m1 < EM -> m2 < NM -> entry gM [z; w; m1; m2; q] = (entry vt2 [w; m1; m2; q; z] * el (inv_elements tol s1) z * el (inv_elements tol (north P r c)) m2 * el (inv_elements tol (east P r c)) m1)%C).
  { assert (Q : shape gM = [length s1; length s2; EM; NM; dm] /\ forall z w m1 m2 q, entry gM [z; w; m1; m2; q] =
      sm EM (fun x2 => (sm NM (fun x1 => (sm (length s1) (fun z' => (entry vt2 [w; x2; x1; q; z'] * dl (inv_elements tol s1) z' z)%C) * dl (inv_elements tol (north P r c)) m2 x1)%C) * dl (inv_elements tol (east P r c)) x2 m1)%C)).
    { unfold gM. rewrite HM1, HM2. unfold diag_inv. rewrite <- LM3, <- LM2 in Sv2 |- *. rewrite <- (inv_length tol s1), <- (inv_length tol (east P r c)), <- (inv_length tol (north P r c)) in Sv2 |- *.
      revert Sv2. clear. generalize (inv_elements tol s1) (inv_elements tol (east P r c)) (inv_elements tol (north P r c)) (length s2). intros l1 l2 l3 l4. destruct vt2 as [sh0 f0]. cbn [shape]. intros ->. split; reflexivity. }
    destruct Q as [Q1 Q2]. split; [exact Q1|]. intros z w m1 m2 q Hz H1 H2. rewrite Q2.
    rewrite (sm_at EM (fun x2 => sm NM (fun x1 => (sm (length s1) (fun z' => (entry vt2 [w; x2; x1; q; z'] * dl (inv_elements tol s1) z' z)%C) * dl (inv_elements tol (north P r c)) m2 x1)%C)) _ m1 H1). f_equal.
    rewrite (sm_at' NM (fun x1 => sm (length s1) (fun z' => (entry vt2 [w; m1; x1; q; z'] * dl (inv_elements tol s1) z' z)%C)) _ m2 H2). f_equal.
    apply (sm_at (length s1) (fun z' => entry vt2 [w; m1; m2; q; z']) _ z Hz). }
  destruct GA as [SgA GA], GB as [SgB GB], GM as [SgM GM]. split; [exact SgA|]. split; [exact SgM|]. split; [exact SgB|].
  intros KE a1 a2 a3 m1 m2 b1 b2 b3 p' q' o' Ha1 Ha2 Ha3 Hm1 Hm2 Hb1 Hb2 Hb3 Hp Hq Ho ga1 ga2 ga3 gm1 gm2 gb1 gb2 gb3.
  pose proof (three_core da dm db X Y KA KB (length s1) (length s2) (fun p x => entry (gamma P r lc) [a1; a2; x; a3; p]) (fun p y => entry (gamma P lr c) [b1; b2; b3; y; p])
    (fun q x y => entry mid [q; x; y; m1; m2]) (fun k => entry hA [k; a3; a1; a2]) (fun k => entry hB [b1; k; b3; b2]) (fun k p x => entry rA [k; p; x]) (fun k p x => entry rB [k; p; x])
    (fun p q o => entry gate [p; q; o; p'; q'; o']) (fun k z => entry u1 [o'; k; m1; m2; q'; z]) (fun z k => entry vt1 [z; p'; k]) (fun k w => entry u2 [o'; k; w]) (fun w z => entry vt2 [w; m1; m2; q'; z])
    (el s1) (el s2) (el (inv_elements tol s1)) (RtoC (/ tnorm t5))) as C3.
  assert (CA : forall p x, p < da -> x < X -> entry (gamma P r lc) [a1; a2; x; a3; p] = sm KA (fun k => (entry hA [k; a3; a1; a2] * entry rA [k; p; x])%C)).
  { intros p x Hp' Hx. specialize (XA a3 a1 a2 p x Ha3 Ha1 Ha2 Hp' Hx). rewrite (eat3_right P r lc _ _ _ _ _ ShA ) in XA by assumption.
    transitivity ((el (inv_elements tol (west P r lc)) a1 * el (inv_elements tol (south P r lc)) a2 * el (inv_elements tol (north P r lc)) a3) * (entry (gamma P r lc) [a1; a2; x; a3; p] * el (north P r lc) a3 * el (west P r lc) a1 * el (south P r lc) a2))%C.
    - unfold good in *. transitivity (entry (gamma P r lc) [a1; a2; x; a3; p] * (el (inv_elements tol (west P r lc)) a1 * el (west P r lc) a1) * (el (inv_elements tol (south P r lc)) a2 * el (south P r lc) a2) * (el (inv_elements tol (north P r lc)) a3 * el (north P r lc) a3))%C; [rewrite ga1, ga2, ga3; cring|cring].
    - rewrite XA. fold (sm KA (fun z => (entry qA [a3; a1; a2; z] * entry rA [z; p; x])%C)). rewrite <- sm_scal. apply sm_ext. intros k Hk.
      unfold hA. rewrite (split_right tol (put_h P r c s1) r lc WA SA NA  qA KA a1 a2 a3 k SqA Ha1 Ha2 Ha3). rewrite HA1, HA2, HA3. cring. }
  assert (CB : forall p y, p < db -> y < Y -> entry (gamma P lr c) [b1; b2; b3; y; p] = sm KB (fun k => (entry hB [b1; k; b3; b2] * entry rB [k; p; y])%C)).
  { intros p x Hp' Hx. specialize (XB b3 b2 b1 p x Hb3 Hb2 Hb1 Hp' Hx). rewrite (eat3_up P lr c _ _ _ _ _ ShB LB1 LB2 LB3) in XB by assumption.
    transitivity ((el (inv_elements tol (west P lr c)) b1 * el (inv_elements tol (south P lr c)) b2 * el (inv_elements tol (east P lr c)) b3) * (entry (gamma P lr c) [b1; b2; b3; x; p] * el (west P lr c) b1 * el (south P lr c) b2 * el (east P lr c) b3))%C.
    - unfold good in *. transitivity (entry (gamma P lr c) [b1; b2; b3; x; p] * (el (inv_elements tol (west P lr c)) b1 * el (west P lr c) b1) * (el (inv_elements tol (south P lr c)) b2 * el (south P lr c) b2) * (el (inv_elements tol (east P lr c)) b3 * el (east P lr c) b3))%C; [rewrite gb1, gb2, gb3; cring|cring].
    - rewrite XB. fold (sm KB (fun z => (entry qB [b3; b2; b1; z] * entry rB [z; p; x])%C)). rewrite <- sm_scal. apply sm_ext. intros k Hk.
      unfold hB. rewrite (split_up tol P3 lr c WB SB EB ltac:(rewrite HB1; exact LB1) ltac:(rewrite HB2; exact LB2) ltac:(rewrite HB3; exact LB3) qB KB b1 b2 b3 k SqB Hb1 Hb3 Hb2). rewrite HB1, HB2, HB3. cring. }
  specialize (C3 CA CB). cbv beta in C3.
  transitivity ((el (inv_elements tol (north P r c)) m2 * el (inv_elements tol (east P r c)) m1) * sm (length s1) (fun z => sm (length s2) (fun w => (sm KA (fun k => (entry hA [k; a3; a1; a2] * entry vt1 [z; p'; k])%C) * el s1 z * (entry vt2 [w; m1; m2; q'; z] * el (inv_elements tol s1) z) * el s2 w * sm KB (fun k => (entry hB [b1; k; b3; b2] * entry u2 [o'; k; w])%C))%C)))%C.
  { rewrite <- sm_scal. apply sm_ext. intros z Hz. rewrite <- sm_scal. apply sm_ext. intros w Hw. rewrite GA, GB, GM by assumption. cring. }
  rewrite C3.
  - transitivity (RtoC (/ tnorm t5) * ((el (inv_elements tol (north P r c)) m2 * el (inv_elements tol (east P r c)) m1) * sm da (fun p => sm dm (fun q => sm db (fun o => (sm X (fun x => sm Y (fun y => (entry (gamma P r lc) [a1; a2; x; a3; p] * entry mid [q; x; y; m1; m2] * entry (gamma P lr c) [b1; b2; b3; y; o])%C)) * entry gate [p; q; o; p'; q'; o'])%C)))))%C; [cring|].
    f_equal. rewrite <- sm_scal. apply sm_ext. intros p Hp'. rewrite <- sm_scal. apply sm_ext. intros q Hq'. rewrite <- sm_scal. apply sm_ext. intros o Ho'.
    match goal with |- (?k * (?u * ?v) = _)%C => transitivity ((k * u) * v)%C; [cring|] end. f_equal. rewrite <- sm_scal. apply sm_ext. intros x Hx. rewrite <- sm_scal. apply sm_ext. intros y Hy.
    unfold mid. rewrite (eat4_entry P r c _ _ _ _ _ ShM) by assumption. unfold good in *.
    transitivity (((el (inv_elements tol (east P r c)) m1 * el (east P r c) m1) * (el (inv_elements tol (north P r c)) m2 * el (north P r c) m2)) * (entry (gamma P r lc) [a1; a2; x; a3; p] * el (west P r c) x * entry (gamma P r c) [x; y; m1; m2; q] * el (south P r c) y * entry (gamma P lr c) [b1; b2; b3; y; o]))%C; [cring|]. rewrite gm1, gm2. cring.
  - intros ka kb H1 H2. specialize (EV [o'; kb; m1; m2; q'] [p'; ka]). cbn [app] in EV. rewrite E6, Et' in EV. apply EV.
    + repeat constructor; assumption.
    + repeat constructor; assumption.
  - intros kb z H1 H2. specialize (EV2 [o'; kb] [m1; m2; q'; z]). cbn [app] in EV2. rewrite <- E7 by exact H2. apply EV2; repeat constructor; assumption.
  - intros z Hz. apply kept_inv; assumption.
Qed.
End UR.

Section UL.
Context (r c WA SA EA da X Y WM NM dm SB EB NB db : nat).
Let rc := (c + 1) mod h_cols P. Let lr := (r + 1) mod v_rows P.
Context (ShA : shape (gamma P lr c) = [WA; SA; EA; X; da]) (ShM : shape (gamma P r c) = [WM; X; Y; NM; dm]) (ShB : shape (gamma P r rc) = [Y; SB; EB; NB; db]).
Context (LA1 : length (west P lr c) = WA) (LA2 : length (south P lr c) = SA) (LA3 : length (east P lr c) = EA).
Context (LM0 : length (west P r c) = WM) (LM1 : length (south P r c) = X) (LM2 : length (east P r c) = Y) (LM3 : length (north P r c) = NM).
Context (LB1 : length (south P r rc) = SB) (LB2 : length (east P r rc) = EB) (LB3 : length (north P r rc) = NB).
Context (Sg : shape gate = [db; dm; da; db; dm; da]) (Big1 : da * (da * X) <= m) (Big2 : db * (db * Y) <= m).
Let set1 s1 := put_v P lr c s1. Let set2 s1 s2 := put_h (set1 s1) r rc s2.
Context (HA : forall s1, west (set1 s1) lr c = west P lr c /\ south (set1 s1) lr c = south P lr c /\ east (set1 s1) lr c = east P lr c).
Context (HB : forall s1 s2, south (set2 s1 s2) r rc = south P r rc /\ east (set2 s1 s2) r rc = east P r rc /\ north (set2 s1 s2) r rc = north P r rc).
Context (HM : forall s1 s2, west (set2 s1 s2) r c = west P r c /\ north (set2 s1 s2) r c = north P r c).
Lemma local_ul : exists s1 s2 gA gM gB,
  r_peps (project_ul qr svd tol P gate ham r c) = put_gamma (put_gamma (put_h (put_gamma (put_v P lr c s1) lr c gA) r rc s2) r rc gB) r c gM /\
  shape gA = [WA; SA; EA; length s1; da] /\ shape gM = [WM; length s1; length s2; NM; dm] /\ shape gB = [length s2; SB; EB; NB; db] /\
  (kept tol s1 -> forall a1 a2 a3 m1 m2 b1 b2 b3 p' q' o', a1 < WA -> a2 < SA -> a3 < EA -> m1 < WM -> m2 < NM -> b1 < SB -> b2 < EB -> b3 < NB -> p' < da -> q' < dm -> o' < db ->
    good tol (west P lr c) a1 -> good tol (south P lr c) a2 -> good tol (east P lr c) a3 -> good tol (west P r c) m1 -> good tol (north P r c) m2 -> good tol (south P r rc) b1 -> good tol (east P r rc) b2 -> good tol (north P r rc) b3 ->
    sm (length s1) (fun z => sm (length s2) (fun w => (entry gA [a1; a2; a3; z; p'] * el s1 z * entry gM [m1; z; w; m2; q'] * el s2 w * entry gB [w; b1; b2; b3; o'])%C)) =
    (RtoC (/ r_norm (project_ul qr svd tol P gate ham r c)) *
     sm da (fun p => sm dm (fun q => sm db (fun o => (sm X (fun x => sm Y (fun y =>
       (entry (gamma P lr c) [a1; a2; a3; x; p] * el (south P r c) x * entry (gamma P r c) [m1; x; y; m2; q] * el (east P r c) y * entry (gamma P r rc) [y; b1; b2; b3; o])%C)) * entry gate [o; q; p; o'; q'; p'])%C))))%C).
Proof.
  unfold project_ul. fold rc lr.
  pose proof (eat3_up_shape P lr c _ _ _ _ _ ShA LA1 LA2 LA3) as TA.
  pose proof (eat3_left_shape P r rc _ _ _ _ _ ShB LB1 LB2 LB3) as TB.
  pose proof (eat4_shape P r c _ _ _ _ _ ShM LM0 LM1 LM2 LM3) as TM.
  pose proof (QR (eat3 P lr c UP) ltac:(rewrite TA; reflexivity)) as QA. pose proof (QR (eat3 P r rc LEFT) ltac:(rewrite TB; reflexivity)) as QB.
  destruct (qr (eat3 P lr c UP)) as [qA rA], (qr (eat3 P r rc LEFT)) as [qB rB].
  destruct QA as (KA & SqA & SrA & BA & XA), QB as (KB & SqB & SrB & BB & XB).
  unfold dimat in SqA, SrA, BA, XA, SqB, SrB, BB, XB. rewrite TA in SqA, SrA, BA, XA. rewrite TB in SqB, SrB, BB, XB. cbn [nth] in SqA, SrA, BA, XA, SqB, SrB, BB, XB.
  set (mid := eat4 P r c) in *.
  set (t5 := contract (cyc rB 2 (cyc mid 2 rA 2 1) 0 1) [1; 3; 6] gate [0; 1; 2]).
  assert (St : shape t5 = [KB; NM; WM; KA; db; dm; da] /\ forall m1 m2 ka kb p' q' o', entry t5 [kb; m2; m1; ka; o'; q'; p'] =
    sm db (fun o => sm dm (fun q => sm da (fun p => (sm Y (fun y => (entry rB [kb; o; y] * sm X (fun x => (entry mid [q; m1; x; y; m2] * entry rA [ka; p; x])%C))%C) * entry gate [o; q; p; o'; q'; p'])%C)))).
  { unfold t5. revert SrA SrB Sg TM. clearbody mid. clear. destruct rA as [sh0 f0], rB as [sh1 f1], gate as [sh2 f2], mid as [sh3 f3]; cbn [shape]; intros -> -> -> ->. split; reflexivity. }
  destruct St as [St Et].
  assert (Et' : forall m1 m2 ka kb p' q' o', entry t5 [kb; m2; m1; ka; o'; q'; p'] = sm da (fun p => sm dm (fun q => sm db (fun o => (sm X (fun x => sm Y (fun y => (entry rA [ka; p; x] * entry mid [q; m1; x; y; m2] * entry rB [kb; o; y])%C)) * entry gate [o; q; p; o'; q'; p'])%C)))).
  { intros. rewrite Et. rewrite sm_swap3. apply sm_ext. intros p _. apply sm_ext. intros q _. apply sm_ext. intros o _. f_equal. rewrite (sm_swap X Y). apply sm_ext. intros y _. rewrite <- sm_scal. apply sm_ext. intros x _. apply crev. }
  set (t6 := transpose [0; 4; 5; 1; 2; 6; 3] (normalised t5)).
  assert (S6 : shape t6 = [KB; db; dm; NM; WM; da; KA]).
  { unfold t6. cbn [transpose shape map]. unfold dimat. cbn [normalised shape]. rewrite St. reflexivity. }
  assert (E6 : forall m1 m2 ka kb p' q' o', entry t6 [kb; o'; q'; m2; m1; p'; ka] = (RtoC (/ tnorm t5) * entry t5 [kb; m2; m1; ka; o'; q'; p'])%C).
  { intros. unfold t6. cbn [transpose entry]. unfold rank. cbn [normalised shape entry]. rewrite St. reflexivity. }
  pose proof (SV 5 t6 ltac:(rewrite S6; cbn; lia) ltac:(rewrite S6; right; cbn; nia)) as V.
  destruct (svd 5 t6) as [[u1 s1] vt1]. rewrite S6 in V. cbn [firstn skipn app] in V. destruct V as (Su & Sv & EV).
  set (t7 := contract u1 [5] (diag s1) [0]).
  assert (S7 : shape t7 = [KB; db; dm; NM; WM; length s1] /\ forall o' kb m1 m2 q' z, z < length s1 -> entry t7 [kb; o'; q'; m2; m1; z] = (entry u1 [kb; o'; q'; m2; m1; z] * el s1 z)%C).
  { assert (Q : shape t7 = [KB; db; dm; NM; WM; length s1] /\ forall o' kb m1 m2 q' z, entry t7 [kb; o'; q'; m2; m1; z] = sm (length s1) (fun z' => (entry u1 [kb; o'; q'; m2; m1; z'] * dl s1 z' z)%C)).
    { unfold t7. revert Su. clear. destruct u1 as [sh0 f0]. cbn [shape]. intros ->. split; reflexivity. }
    destruct Q as [Q1 Q2]. split; [exact Q1|]. intros. rewrite Q2. apply (sm_at (length s1) (fun z' => entry u1 [kb; o'; q'; m2; m1; z'])). assumption. }
  destruct S7 as [S7 E7].
  pose proof (SV 2 t7 ltac:(rewrite S7; cbn; lia) ltac:(rewrite S7; left; cbn; nia)) as V.
  destruct (svd 2 t7) as [[u2 s2] vt2]. rewrite S7 in V. cbn [firstn skipn app] in V. destruct V as (Su2 & Sv2 & EV2).
  cbn [r_peps r_norm]. rewrite Rmult_1_l.
  set (hA := split_out tol (put_v P lr c s1) qA lr c UP). set (gA := transpose [4; 3; 2; 0; 1] (cyc vt1 2 hA 1 1)).
  set (P3 := put_h (put_gamma (put_v P lr c s1) lr c gA) r rc s2).
  set (hB := split_out tol P3 qB r rc LEFT). set (gB := transpose [4; 0; 1; 2; 3] (cyc hB 0 u2 0 1)).
  set (P4 := put_gamma P3 r rc gB).
  set (gM := transpose [4; 0; 1; 3; 2] (cyc (cyc (contract vt2 [4] (diag_inv tol s1) [0]) 2 (diag_inv tol (north P4 r c)) 1 1) 0 (diag_inv tol (west P4 r c)) 1 1)).
  destruct (HA s1) as (HA1 & HA2 & HA3). destruct (HB s1 s2) as (HB1 & HB2 & HB3). destruct (HM s1 s2) as (HM1 & HM2).
  change (set1 s1) with (put_v P lr c s1) in HA1, HA2, HA3. change (south (set2 s1 s2)) with (south P3) in HB1. change (east (set2 s1 s2)) with (east P3) in HB2. change (north (set2 s1 s2)) with (north P3) in HB3. change (west (set2 s1 s2)) with (west P4) in HM1. change (north (set2 s1 s2)) with (north P4) in HM2.
  pose proof (split_up_shape tol (put_v P lr c s1) lr c WA SA EA ltac:(rewrite HA1; exact LA1) ltac:(rewrite HA2; exact LA2) ltac:(rewrite HA3; exact LA3) qA KA SqA) as Sh. fold hA in Sh.
  pose proof (split_left_shape tol P3 r rc SB EB NB ltac:(rewrite HB1; exact LB1) ltac:(rewrite HB2; exact LB2) ltac:(rewrite HB3; exact LB3) qB KB SqB) as Sk. fold hB in Sk.
  exists s1, s2, gA, gM, gB. split; [reflexivity|].
  assert (GA : shape gA = [WA; SA; EA; length s1; da] /\ forall a1 a2 a3 z p, entry gA [a1; a2; a3; z; p] = sm KA (fun k => (entry hA [a1; k; a3; a2] * entry vt1 [z; p; k])%C)).
  { assert (Q : shape gA = [WA; SA; EA; length s1; da] /\ forall a1 a2 a3 z p, entry gA [a1; a2; a3; z; p] = sm KA (fun k => (entry vt1 [z; p; k] * entry hA [a1; k; a3; a2])%C)).
    { unfold gA. revert Sh Sv. clearbody hA. clear. generalize (length s1). intros l. destruct hA as [sh0 f0], vt1 as [sh1 f1]; cbn [shape entry]; intros -> ->. split; reflexivity. }
    destruct Q as [Q1 Q2]. split; [exact Q1|]. intros. rewrite Q2. apply sm_ext. intros. ring. }
  assert (GB : shape gB = [length s2; SB; EB; NB; db] /\ forall b1 b2 b3 z p, entry gB [z; b1; b2; b3; p] = sm KB (fun k => (entry hB [k; b1; b2; b3] * entry u2 [k; p; z])%C)).
  { unfold gB. revert Sk Su2. clearbody hB. clear. generalize (length s2). intros l. destruct hB as [sh0 f0], u2 as [sh1 f1]; cbn [shape entry]; intros -> ->. split; reflexivity. }
  assert (GM : shape gM = [WM; length s1; length s2; NM; dm] /\ forall z w m1 m2 q, z < length s1 -> m1 < WM -> m2 < NM -> entry gM [m1; z; w; m2; q] = (entry vt2 [w; q; m2; m1; z] * el (inv_elements tol s1) z * el (inv_elements tol (north P r c)) m2 * el (inv_elements tol (west P r c)) m1)%C).
  { assert (Q : shape gM = [WM; length s1; length s2; NM; dm] /\ forall z w m1 m2 q, entry gM [m1; z; w; m2; q] =
      sm WM (fun x2 => (sm NM (fun x1 => (sm (length s1) (fun z' => (entry vt2 [w; q; x1; x2; z'] * dl (inv_elements tol s1) z' z)%C) * dl (inv_elements tol (north P r c)) m2 x1)%C) * dl (inv_elements tol (west P r c)) m1 x2)%C)).
    { unfold gM. rewrite HM1, HM2. unfold diag_inv. rewrite <- LM3, <- LM0 in Sv2 |- *. rewrite <- (inv_length tol s1), <- (inv_length tol (west P r c)), <- (inv_length tol (north P r c)) in Sv2 |- *.
      revert Sv2. clear. generalize (inv_elements tol s1) (inv_elements tol (west P r c)) (inv_elements tol (north P r c)) (length s2). intros l1 l2 l3 l4. destruct vt2 as [sh0 f0]. cbn [shape]. intros ->. split; reflexivity. }
    destruct Q as [Q1 Q2]. split; [exact Q1|]. intros z w m1 m2 q Hz H1 H2. rewrite Q2.
    rewrite (sm_at' WM (fun x2 => sm NM (fun x1 => (sm (length s1) (fun z' => (entry vt2 [w; q; x1; x2; z'] * dl (inv_elements tol s1) z' z)%C) * dl (inv_elements tol (north P r c)) m2 x1)%C)) _ m1 H1). f_equal.
    rewrite (sm_at' NM (fun x1 => sm (length s1) (fun z' => (entry vt2 [w; q; x1; m1; z'] * dl (inv_elements tol s1) z' z)%C)) _ m2 H2). f_equal.
    apply (sm_at (length s1) (fun z' => entry vt2 [w; q; m2; m1; z']) _ z Hz). }
  destruct GA as [SgA GA], GB as [SgB GB], GM as [SgM GM]. split; [exact SgA|]. split; [exact SgM|]. split; [exact SgB|].
  intros KE a1 a2 a3 m1 m2 b1 b2 b3 p' q' o' Ha1 Ha2 Ha3 Hm1 Hm2 Hb1 Hb2 Hb3 Hp Hq Ho ga1 ga2 ga3 gm1 gm2 gb1 gb2 gb3.
  pose proof (three_core da dm db X Y KA KB (length s1) (length s2) (fun p x => entry (gamma P lr c) [a1; a2; a3; x; p]) (fun p y => entry (gamma P r rc) [y; b1; b2; b3; p])
    (fun q x y => entry mid [q; m1; x; y; m2]) (fun k => entry hA [a1; k; a3; a2]) (fun k => entry hB [k; b1; b2; b3]) (fun k p x => entry rA [k; p; x]) (fun k p x => entry rB [k; p; x])
    (fun p q o => entry gate [o; q; p; o'; q'; p']) (fun k z => entry u1 [k; o'; q'; m2; m1; z]) (fun z k => entry vt1 [z; p'; k]) (fun k w => entry u2 [k; o'; w]) (fun w z => entry vt2 [w; q'; m2; m1; z])
    (el s1) (el s2) (el (inv_elements tol s1)) (RtoC (/ tnorm t5))) as C3.
  assert (CA : forall p x, p < da -> x < X -> entry (gamma P lr c) [a1; a2; a3; x; p] = sm KA (fun k => (entry hA [a1; k; a3; a2] * entry rA [k; p; x])%C)).
  { intros p x Hp' Hx. specialize (XA a3 a2 a1 p x Ha3 Ha2 Ha1 Hp' Hx). rewrite (eat3_up P lr c _ _ _ _ _ ShA LA1 LA2 LA3) in XA by assumption.
    transitivity ((el (inv_elements tol (west P lr c)) a1 * el (inv_elements tol (south P lr c)) a2 * el (inv_elements tol (east P lr c)) a3) * (entry (gamma P lr c) [a1; a2; a3; x; p] * el (west P lr c) a1 * el (south P lr c) a2 * el (east P lr c) a3))%C.
    - unfold good in *. transitivity (entry (gamma P lr c) [a1; a2; a3; x; p] * (el (inv_elements tol (west P lr c)) a1 * el (west P lr c) a1) * (el (inv_elements tol (south P lr c)) a2 * el (south P lr c) a2) * (el (inv_elements tol (east P lr c)) a3 * el (east P lr c) a3))%C; [rewrite ga1, ga2, ga3; cring|cring].
    - rewrite XA. fold (sm KA (fun z => (entry qA [a3; a2; a1; z] * entry rA [z; p; x])%C)). rewrite <- sm_scal. apply sm_ext. intros k Hk.
      unfold hA. rewrite (split_up tol (put_v P lr c s1) lr c WA SA EA ltac:(rewrite HA1; exact LA1) ltac:(rewrite HA2; exact LA2) ltac:(rewrite HA3; exact LA3) qA KA a1 a2 a3 k SqA Ha1 Ha3 Ha2). rewrite HA1, HA2, HA3. cring. }
  assert (CB : forall p y, p < db -> y < Y -> entry (gamma P r rc) [y; b1; b2; b3; p] = sm KB (fun k => (entry hB [k; b1; b2; b3] * entry rB [k; p; y])%C)).
  { intros p x Hp' Hx. specialize (XB b1 b2 b3 p x Hb1 Hb2 Hb3 Hp' Hx). rewrite (eat3_left P r rc _ _ _ _ _ ShB ) in XB by assumption.
    transitivity ((el (inv_elements tol (south P r rc)) b1 * el (inv_elements tol (east P r rc)) b2 * el (inv_elements tol (north P r rc)) b3) * (entry (gamma P r rc) [x; b1; b2; b3; p] * el (north P r rc) b3 * el (east P r rc) b2 * el (south P r rc) b1))%C.
    - unfold good in *. transitivity (entry (gamma P r rc) [x; b1; b2; b3; p] * (el (inv_elements tol (south P r rc)) b1 * el (south P r rc) b1) * (el (inv_elements tol (east P r rc)) b2 * el (east P r rc) b2) * (el (inv_elements tol (north P r rc)) b3 * el (north P r rc) b3))%C; [rewrite gb1, gb2, gb3; cring|cring].
    - rewrite XB. fold (sm KB (fun z => (entry qB [b1; b2; b3; z] * entry rB [z; p; x])%C)). rewrite <- sm_scal. apply sm_ext. intros k Hk.
      unfold hB. rewrite (split_left tol P3 r rc SB EB NB  qB KB b1 b2 b3 k SqB Hb1 Hb2 Hb3). rewrite HB1, HB2, HB3. cring. }
  specialize (C3 CA CB). cbv beta in C3.
  transitivity ((el (inv_elements tol (north P r c)) m2 * el (inv_elements tol (west P r c)) m1) * sm (length s1) (fun z => sm (length s2) (fun w => (sm KA (fun k => (entry hA [a1; k; a3; a2] * entry vt1 [z; p'; k])%C) * el s1 z * (entry vt2 [w; q'; m2; m1; z] * el (inv_elements tol s1) z) * el s2 w * sm KB (fun k => (entry hB [k; b1; b2; b3] * entry u2 [k; o'; w])%C))%C)))%C.
  { rewrite <- sm_scal. apply sm_ext. intros z Hz. rewrite <- sm_scal. apply sm_ext. intros w Hw. rewrite GA, GB, GM by assumption. cring. }
  rewrite C3.
  - transitivity (RtoC (/ tnorm t5) * ((el (inv_elements tol (north P r c)) m2 * el (inv_elements tol (west P r c)) m1) * sm da (fun p => sm dm (fun q => sm db (fun o => (sm X (fun x => sm Y (fun y => (entry (gamma P lr c) [a1; a2; a3; x; p] * entry mid [q; m1; x; y; m2] * entry (gamma P r rc) [y; b1; b2; b3; o])%C)) * entry gate [o; q; p; o'; q'; p'])%C)))))%C; [cring|].
    f_equal. rewrite <- sm_scal. apply sm_ext. intros p Hp'. rewrite <- sm_scal. apply sm_ext. intros q Hq'. rewrite <- sm_scal. apply sm_ext. intros o Ho'.
    match goal with |- (?k * (?u * ?v) = _)%C => transitivity ((k * u) * v)%C; [cring|] end. f_equal. rewrite <- sm_scal. apply sm_ext. intros x Hx. rewrite <- sm_scal. apply sm_ext. intros y Hy.
    unfold mid. rewrite (eat4_entry P r c _ _ _ _ _ ShM) by assumption. unfold good in *.
    transitivity (((el (inv_elements tol (west P r c)) m1 * el (west P r c) m1) * (el (inv_elements tol (north P r c)) m2 * el (north P r c) m2)) * (entry (gamma P lr c) [a1; a2; a3; x; p] * el (south P r c) x * entry (gamma P r c) [m1; x; y; m2; q] * el (east P r c) y * entry (gamma P r rc) [y; b1; b2; b3; o]))%C; [cring|]. rewrite gm1, gm2. cring.
  - intros ka kb H1 H2. specialize (EV [kb; o'; q'; m2; m1] [p'; ka]). cbn [app] in EV. rewrite E6, Et' in EV. apply EV.
    + repeat constructor; assumption.
    + repeat constructor; assumption.
  - intros kb z H1 H2. specialize (EV2 [kb; o'] [q'; m2; m1; z]). cbn [app] in EV2. rewrite <- E7 by exact H2. apply EV2; repeat constructor; assumption.
  - intros z Hz. apply kept_inv; assumption.
Qed.
End UL.

Section LR.
Context (r c WA EA NA da X Y SM EM dm WB SB NB db : nat).
Let lr := (r + 1) mod v_rows P. Let lc := (c + h_cols P - 1) mod h_cols P.
Context (ShA : shape (gamma P r c) = [WA; X; EA; NA; da]) (ShM : shape (gamma P lr c) = [Y; SM; EM; X; dm]) (ShB : shape (gamma P lr lc) = [WB; SB; Y; NB; db]).
Context (LA1 : length (west P r c) = WA) (LA2 : length (east P r c) = EA) (LA3 : length (north P r c) = NA).
Context (LM0 : length (west P lr c) = Y) (LM1 : length (south P lr c) = SM) (LM2 : length (east P lr c) = EM) (LM3 : length (north P lr c) = X).
Context (LB1 : length (west P lr lc) = WB) (LB2 : length (south P lr lc) = SB) (LB3 : length (north P lr lc) = NB).
Context (Sg : shape gate = [da; dm; db; da; dm; db]) (Big1 : da * (da * X) <= m) (Big2 : db * (db * Y) <= m).
Let set1 s1 := put_v P lr c s1. Let set2 s1 s2 := put_h (set1 s1) lr c s2.
Context (HA : forall s1, west (set1 s1) r c = west P r c /\ east (set1 s1) r c = east P r c /\ north (set1 s1) r c = north P r c).
Context (HB : forall s1 s2, west (set2 s1 s2) lr lc = west P lr lc /\ south (set2 s1 s2) lr lc = south P lr lc /\ north (set2 s1 s2) lr lc = north P lr lc).
Context (HM : forall s1 s2, south (set2 s1 s2) lr c = south P lr c /\ east (set2 s1 s2) lr c = east P lr c).
Lemma local_lr : exists s1 s2 gA gM gB,
  r_peps (project_lr qr svd tol P gate ham r c) = put_gamma (put_gamma (put_h (put_gamma (put_v P lr c s1) r c gA) lr c s2) lr lc gB) lr c gM /\
  shape gA = [WA; length s1; EA; NA; da] /\ shape gM = [length s2; SM; EM; length s1; dm] /\ shape gB = [WB; SB; length s2; NB; db] /\
  (kept tol s1 -> forall a1 a2 a3 m1 m2 b1 b2 b3 p' q' o', a1 < WA -> a2 < EA -> a3 < NA -> m1 < SM -> m2 < EM -> b1 < WB -> b2 < SB -> b3 < NB -> p' < da -> q' < dm -> o' < db ->
    good tol (west P r c) a1 -> good tol (east P r c) a2 -> good tol (north P r c) a3 -> good tol (south P lr c) m1 -> good tol (east P lr c) m2 -> good tol (west P lr lc) b1 -> good tol (south P lr lc) b2 -> good tol (north P lr lc) b3 ->
    sm (length s1) (fun z => sm (length s2) (fun w => (entry gA [a1; z; a2; a3; p'] * el s1 z * entry gM [w; m1; m2; z; q'] * el s2 w * entry gB [b1; b2; w; b3; o'])%C)) =
    (RtoC (/ r_norm (project_lr qr svd tol P gate ham r c)) *
     sm da (fun p => sm dm (fun q => sm db (fun o => (sm X (fun x => sm Y (fun y =>
       (entry (gamma P r c) [a1; x; a2; a3; p] * el (north P lr c) x * entry (gamma P lr c) [y; m1; m2; x; q] * el (west P lr c) y * entry (gamma P lr lc) [b1; b2; y; b3; o])%C)) * entry gate [p; q; o; p'; q'; o'])%C))))%C).
Proof.
  unfold project_lr. fold lr lc.
  pose proof (eat3_down_shape P r c _ _ _ _ _ ShA LA1 LA2 LA3) as TA.
  pose proof (eat3_right_shape P lr lc _ _ _ _ _ ShB LB1 LB2 LB3) as TB.
  pose proof (eat4_shape P lr c _ _ _ _ _ ShM LM0 LM1 LM2 LM3) as TM.
  pose proof (QR (eat3 P r c DOWN) ltac:(rewrite TA; reflexivity)) as QA. pose proof (QR (eat3 P lr lc RIGHT) ltac:(rewrite TB; reflexivity)) as QB.
  destruct (qr (eat3 P r c DOWN)) as [qA rA], (qr (eat3 P lr lc RIGHT)) as [qB rB].
  destruct QA as (KA & SqA & SrA & BA & XA), QB as (KB & SqB & SrB & BB & XB).
  unfold dimat in SqA, SrA, BA, XA, SqB, SrB, BB, XB. rewrite TA in SqA, SrA, BA, XA. rewrite TB in SqB, SrB, BB, XB. cbn [nth] in SqA, SrA, BA, XA, SqB, SrB, BB, XB.
  set (mid := eat4 P lr c) in *.
  set (t5 := contract (cyc (cyc rA 2 mid 4 1) 3 rB 2 1) [3; 4; 6] gate [0; 1; 2]).
  assert (St : shape t5 = [SM; EM; KA; KB; da; dm; db] /\ forall m1 m2 ka kb p' q' o', entry t5 [m1; m2; ka; kb; p'; q'; o'] =
    sm da (fun p => sm dm (fun q => sm db (fun o => (sm Y (fun y => (sm X (fun x => (entry rA [ka; p; x] * entry mid [q; y; m1; m2; x])%C) * entry rB [kb; o; y])%C) * entry gate [p; q; o; p'; q'; o'])%C)))).
  { unfold t5. revert SrA SrB Sg TM. clearbody mid. clear. destruct rA as [sh0 f0], rB as [sh1 f1], gate as [sh2 f2], mid as [sh3 f3]; cbn [shape]; intros -> -> -> ->. split; reflexivity. }
  destruct St as [St Et].
  assert (Et' : forall m1 m2 ka kb p' q' o', entry t5 [m1; m2; ka; kb; p'; q'; o'] = sm da (fun p => sm dm (fun q => sm db (fun o => (sm X (fun x => sm Y (fun y => (entry rA [ka; p; x] * entry mid [q; y; m1; m2; x] * entry rB [kb; o; y])%C)) * entry gate [p; q; o; p'; q'; o'])%C)))).
  { intros. rewrite Et. apply sm_ext. intros p _. apply sm_ext. intros q _. apply sm_ext. intros o _. f_equal. rewrite (sm_swap X Y). apply sm_ext. intros y _. rewrite <- sm_scal_r. reflexivity. }
  set (t6 := transpose [6; 3; 0; 1; 5; 4; 2] (normalised t5)).
  assert (S6 : shape t6 = [db; KB; SM; EM; dm; da; KA]).
  { unfold t6. cbn [transpose shape map]. unfold dimat. cbn [normalised shape]. rewrite St. reflexivity. }
  assert (E6 : forall m1 m2 ka kb p' q' o', entry t6 [o'; kb; m1; m2; q'; p'; ka] = (RtoC (/ tnorm t5) * entry t5 [m1; m2; ka; kb; p'; q'; o'])%C).
  { intros. unfold t6. cbn [transpose entry]. unfold rank. cbn [normalised shape entry]. rewrite St. reflexivity. }
  pose proof (SV 5 t6 ltac:(rewrite S6; cbn; lia) ltac:(rewrite S6; right; cbn; nia)) as V.
  destruct (svd 5 t6) as [[u1 s1] vt1]. rewrite S6 in V. cbn [firstn skipn app] in V. destruct V as (Su & Sv & EV).
  set (t7 := contract u1 [5] (diag s1) [0]).
  assert (S7 : shape t7 = [db; KB; SM; EM; dm; length s1] /\ forall o' kb m1 m2 q' z, z < length s1 -> entry t7 [o'; kb; m1; m2; q'; z] = (entry u1 [o'; kb; m1; m2; q'; z] * el s1 z)%C).
  { assert (Q : shape t7 = [db; KB; SM; EM; dm; length s1] /\ forall o' kb m1 m2 q' z, entry t7 [o'; kb; m1; m2; q'; z] = sm (length s1) (fun z' => (entry u1 [o'; kb; m1; m2; q'; z'] * dl s1 z' z)%C)).
    { unfold t7. revert Su. clear. destruct u1 as [sh0 f0]. cbn [shape]. intros ->. split; reflexivity. }
    destruct Q as [Q1 Q2]. split; [exact Q1|]. intros. rewrite Q2. apply (sm_at (length s1) (fun z' => entry u1 [o'; kb; m1; m2; q'; z'])). assumption. }
  destruct S7 as [S7 E7].
  pose proof (SV 2 t7 ltac:(rewrite S7; cbn; lia) ltac:(rewrite S7; left; cbn; nia)) as V.
  destruct (svd 2 t7) as [[u2 s2] vt2]. rewrite S7 in V. cbn [firstn skipn app] in V. destruct V as (Su2 & Sv2 & EV2).
  cbn [r_peps r_norm]. rewrite Rmult_1_l.
  set (hA := split_out tol (put_v P lr c s1) qA r c DOWN). set (gA := transpose [2; 3; 0; 1; 4] (cyc hA 3 vt1 2 1)).
  set (P3 := put_h (put_gamma (put_v P lr c s1) r c gA) lr c s2).
  set (hB := split_out tol P3 qB lr lc RIGHT). set (gB := transpose [1; 2; 3; 0; 4] (cyc hB 0 u2 1 1)).
  set (P4 := put_gamma P3 lr lc gB).
  set (gM := transpose [2; 3; 4; 1; 0] (cyc (cyc (contract vt2 [4] (diag_inv tol s1) [0]) 1 (diag_inv tol (south P4 lr c)) 0 1) 0 (diag_inv tol (east P4 lr c)) 0 1)).
  destruct (HA s1) as (HA1 & HA2 & HA3). destruct (HB s1 s2) as (HB1 & HB2 & HB3). destruct (HM s1 s2) as (HM1 & HM2).
  change (set1 s1) with (put_v P lr c s1) in HA1, HA2, HA3. change (west (set2 s1 s2)) with (west P3) in HB1. change (south (set2 s1 s2)) with (south P3) in HB2. change (north (set2 s1 s2)) with (north P3) in HB3. change (south (set2 s1 s2)) with (south P4) in HM1. change (east (set2 s1 s2)) with (east P4) in HM2.
  pose proof (split_down_shape tol (put_v P lr c s1) r c WA EA NA ltac:(rewrite HA1; exact LA1) ltac:(rewrite HA2; exact LA2) ltac:(rewrite HA3; exact LA3) qA KA SqA) as Sh. fold hA in Sh.
  pose proof (split_right_shape tol P3 lr lc WB SB NB ltac:(rewrite HB1; exact LB1) ltac:(rewrite HB2; exact LB2) ltac:(rewrite HB3; exact LB3) qB KB SqB) as Sk. fold hB in Sk.
  exists s1, s2, gA, gM, gB. split; [reflexivity|].
  assert (GA : shape gA = [WA; length s1; EA; NA; da] /\ forall a1 a2 a3 z p, entry gA [a1; z; a2; a3; p] = sm KA (fun k => (entry hA [a2; a3; a1; k] * entry vt1 [z; p; k])%C)).
  { unfold gA. revert Sh Sv. clearbody hA. clear. generalize (length s1). intros l. destruct hA as [sh0 f0], vt1 as [sh1 f1]; cbn [shape entry]; intros -> ->. split; reflexivity. }
  assert (GB : shape gB = [WB; SB; length s2; NB; db] /\ forall b1 b2 b3 z p, entry gB [b1; b2; z; b3; p] = sm KB (fun k => (entry hB [k; b3; b1; b2] * entry u2 [p; k; z])%C)).
  { unfold gB. revert Sk Su2. clearbody hB. clear. generalize (length s2). intros l. destruct hB as [sh0 f0], u2 as [sh1 f1]; cbn [shape entry]; intros -> ->. split; reflexivity. }
  assert (GM : shape gM = [length s2; SM; EM; length s1; dm] /\ forall z w m1 m2 q, z < length s1 -> m1 < SM -> m2 < EM -> entry gM [w; m1; m2; z; q] = (entry vt2 [w; m1; m2; q; z] * el (inv_elements tol s1) z * el (inv_elements tol (south P lr c)) m1 * el (inv_elements tol (east P lr c)) m2)%C).
  { assert (Q : shape gM = [length s2; SM; EM; length s1; dm] /\ forall z w m1 m2 q, entry gM [w; m1; m2; z; q] =
      sm EM (fun x2 => (sm SM (fun x1 => (sm (length s1) (fun z' => (entry vt2 [w; x1; x2; q; z'] * dl (inv_elements tol s1) z' z)%C) * dl (inv_elements tol (south P lr c)) x1 m1)%C) * dl (inv_elements tol (east P lr c)) x2 m2)%C)).
    { unfold gM. rewrite HM1, HM2. unfold diag_inv. rewrite <- LM1, <- LM2 in Sv2 |- *. rewrite <- (inv_length tol s1), <- (inv_length tol (east P lr c)), <- (inv_length tol (south P lr c)) in Sv2 |- *.
      revert Sv2. clear. generalize (inv_elements tol s1) (inv_elements tol (east P lr c)) (inv_elements tol (south P lr c)) (length s2). intros l1 l2 l3 l4. destruct vt2 as [sh0 f0]. cbn [shape]. intros ->. split; reflexivity. }
    destruct Q as [Q1 Q2]. split; [exact Q1|]. intros z w m1 m2 q Hz H1 H2. rewrite Q2.
    rewrite (sm_at EM (fun x2 => sm SM (fun x1 => (sm (length s1) (fun z' => (entry vt2 [w; x1; x2; q; z'] * dl (inv_elements tol s1) z' z)%C) * dl (inv_elements tol (south P lr c)) x1 m1)%C)) _ m2 H2). f_equal.
    rewrite (sm_at SM (fun x1 => sm (length s1) (fun z' => (entry vt2 [w; x1; m2; q; z'] * dl (inv_elements tol s1) z' z)%C)) _ m1 H1). f_equal.
    apply (sm_at (length s1) (fun z' => entry vt2 [w; m1; m2; q; z']) _ z Hz). }
  destruct GA as [SgA GA], GB as [SgB GB], GM as [SgM GM]. split; [exact SgA|]. split; [exact SgM|]. split; [exact SgB|].
  intros KE a1 a2 a3 m1 m2 b1 b2 b3 p' q' o' Ha1 Ha2 Ha3 Hm1 Hm2 Hb1 Hb2 Hb3 Hp Hq Ho ga1 ga2 ga3 gm1 gm2 gb1 gb2 gb3.
  pose proof (three_core da dm db X Y KA KB (length s1) (length s2) (fun p x => entry (gamma P r c) [a1; x; a2; a3; p]) (fun p y => entry (gamma P lr lc) [b1; b2; y; b3; p])
    (fun q x y => entry mid [q; y; m1; m2; x]) (fun k => entry hA [a2; a3; a1; k]) (fun k => entry hB [k; b3; b1; b2]) (fun k p x => entry rA [k; p; x]) (fun k p x => entry rB [k; p; x])
    (fun p q o => entry gate [p; q; o; p'; q'; o']) (fun k z => entry u1 [o'; k; m1; m2; q'; z]) (fun z k => entry vt1 [z; p'; k]) (fun k w => entry u2 [o'; k; w]) (fun w z => entry vt2 [w; m1; m2; q'; z])
    (el s1) (el s2) (el (inv_elements tol s1)) (RtoC (/ tnorm t5))) as C3.
  assert (CA : forall p x, p < da -> x < X -> entry (gamma P r c) [a1; x; a2; a3; p] = sm KA (fun k => (entry hA [a2; a3; a1; k] * entry rA [k; p; x])%C)).
  { intros p x Hp' Hx. specialize (XA a2 a3 a1 p x Ha2 Ha3 Ha1 Hp' Hx). rewrite (eat3_down P r c _ _ _ _ _ ShA LA1 LA2 LA3) in XA by assumption.
    transitivity ((el (inv_elements tol (west P r c)) a1 * el (inv_elements tol (east P r c)) a2 * el (inv_elements tol (north P r c)) a3) * (entry (gamma P r c) [a1; x; a2; a3; p] * el (west P r c) a1 * el (north P r c) a3 * el (east P r c) a2))%C.
    - unfold good in *. transitivity (entry (gamma P r c) [a1; x; a2; a3; p] * (el (inv_elements tol (west P r c)) a1 * el (west P r c) a1) * (el (inv_elements tol (east P r c)) a2 * el (east P r c) a2) * (el (inv_elements tol (north P r c)) a3 * el (north P r c) a3))%C; [rewrite ga1, ga2, ga3; cring|cring].
    - rewrite XA. fold (sm KA (fun z => (entry qA [a2; a3; a1; z] * entry rA [z; p; x])%C)). rewrite <- sm_scal. apply sm_ext. intros k Hk.
      unfold hA. rewrite (split_down tol (put_v P lr c s1) r c WA EA NA ltac:(rewrite HA1; exact LA1) ltac:(rewrite HA2; exact LA2) ltac:(rewrite HA3; exact LA3) qA KA a1 a2 a3 k SqA Ha1 Ha2 Ha3). rewrite HA1, HA2, HA3. cring. }
  assert (CB : forall p y, p < db -> y < Y -> entry (gamma P lr lc) [b1; b2; y; b3; p] = sm KB (fun k => (entry hB [k; b3; b1; b2] * entry rB [k; p; y])%C)).
  { intros p x Hp' Hx. specialize (XB b3 b1 b2 p x Hb3 Hb1 Hb2 Hp' Hx). rewrite (eat3_right P lr lc _ _ _ _ _ ShB ) in XB by assumption.
    transitivity ((el (inv_elements tol (west P lr lc)) b1 * el (inv_elements tol (south P lr lc)) b2 * el (inv_elements tol (north P lr lc)) b3) * (entry (gamma P lr lc) [b1; b2; x; b3; p] * el (north P lr lc) b3 * el (west P lr lc) b1 * el (south P lr lc) b2))%C.
    - unfold good in *. transitivity (entry (gamma P lr lc) [b1; b2; x; b3; p] * (el (inv_elements tol (west P lr lc)) b1 * el (west P lr lc) b1) * (el (inv_elements tol (south P lr lc)) b2 * el (south P lr lc) b2) * (el (inv_elements tol (north P lr lc)) b3 * el (north P lr lc) b3))%C; [rewrite gb1, gb2, gb3; cring|cring].
    - rewrite XB. fold (sm KB (fun z => (entry qB [b3; b1; b2; z] * entry rB [z; p; x])%C)). rewrite <- sm_scal. apply sm_ext. intros k Hk.
      unfold hB. rewrite (split_right tol P3 lr lc WB SB NB  qB KB b1 b2 b3 k SqB Hb1 Hb2 Hb3). rewrite HB1, HB2, HB3. cring. }
  specialize (C3 CA CB). cbv beta in C3.
  transitivity ((el (inv_elements tol (south P lr c)) m1 * el (inv_elements tol (east P lr c)) m2) * sm (length s1) (fun z => sm (length s2) (fun w => (sm KA (fun k => (entry hA [a2; a3; a1; k] * entry vt1 [z; p'; k])%C) * el s1 z * (entry vt2 [w; m1; m2; q'; z] * el (inv_elements tol s1) z) * el s2 w * sm KB (fun k => (entry hB [k; b3; b1; b2] * entry u2 [o'; k; w])%C))%C)))%C.
  { rewrite <- sm_scal. apply sm_ext. intros z Hz. rewrite <- sm_scal. apply sm_ext. intros w Hw. rewrite GA, GB, GM by assumption. cring. }
  rewrite C3.
  - transitivity (RtoC (/ tnorm t5) * ((el (inv_elements tol (south P lr c)) m1 * el (inv_elements tol (east P lr c)) m2) * sm da (fun p => sm dm (fun q => sm db (fun o => (sm X (fun x => sm Y (fun y => (entry (gamma P r c) [a1; x; a2; a3; p] * entry mid [q; y; m1; m2; x] * entry (gamma P lr lc) [b1; b2; y; b3; o])%C)) * entry gate [p; q; o; p'; q'; o'])%C)))))%C; [cring|].
    f_equal. rewrite <- sm_scal. apply sm_ext. intros p Hp'. rewrite <- sm_scal. apply sm_ext. intros q Hq'. rewrite <- sm_scal. apply sm_ext. intros o Ho'.
    match goal with |- (?k * (?u * ?v) = _)%C => transitivity ((k * u) * v)%C; [cring|] end. f_equal. rewrite <- sm_scal. apply sm_ext. intros x Hx. rewrite <- sm_scal. apply sm_ext. intros y Hy.
    unfold mid. rewrite (eat4_entry P lr c _ _ _ _ _ ShM) by assumption. unfold good in *.
    transitivity (((el (inv_elements tol (south P lr c)) m1 * el (south P lr c) m1) * (el (inv_elements tol (east P lr c)) m2 * el (east P lr c) m2)) * (entry (gamma P r c) [a1; x; a2; a3; p] * el (north P lr c) x * entry (gamma P lr c) [y; m1; m2; x; q] * el (west P lr c) y * entry (gamma P lr lc) [b1; b2; y; b3; o]))%C; [cring|]. rewrite gm1, gm2. cring.
  - intros ka kb H1 H2. specialize (EV [o'; kb; m1; m2; q'] [p'; ka]). cbn [app] in EV. rewrite E6, Et' in EV. apply EV.
    + repeat constructor; assumption.
    + repeat constructor; assumption.
  - intros kb z H1 H2. specialize (EV2 [o'; kb] [m1; m2; q'; z]). cbn [app] in EV2. rewrite <- E7 by exact H2. apply EV2; repeat constructor; assumption.
  - intros z Hz. apply kept_inv; assumption.
Qed.
End LR.

Section LL.
Context (r c SA EA NA da X Y WM SM dm WB EB NB db : nat).
Let lr := (r + 1) mod v_rows P. Let rc := (c + 1) mod h_cols P.
Context (ShA : shape (gamma P lr rc) = [X; SA; EA; NA; da]) (ShM : shape (gamma P lr c) = [WM; SM; X; Y; dm]) (ShB : shape (gamma P r c) = [WB; Y; EB; NB; db]).
Context (LA1 : length (south P lr rc) = SA) (LA2 : length (east P lr rc) = EA) (LA3 : length (north P lr rc) = NA).
Context (LM0 : length (west P lr c) = WM) (LM1 : length (south P lr c) = SM) (LM2 : length (east P lr c) = X) (LM3 : length (north P lr c) = Y).
Context (LB1 : length (west P r c) = WB) (LB2 : length (east P r c) = EB) (LB3 : length (north P r c) = NB).
Context (Sg : shape gate = [db; dm; da; db; dm; da]) (Big1 : da * (da * X) <= m) (Big2 : db * (db * Y) <= m).
Let set1 s1 := put_h P lr rc s1. Let set2 s1 s2 := put_v (set1 s1) lr c s2.
Context (HA : forall s1, south (set1 s1) lr rc = south P lr rc /\ east (set1 s1) lr rc = east P lr rc /\ north (set1 s1) lr rc = north P lr rc).
Context (HB : forall s1 s2, west (set2 s1 s2) r c = west P r c /\ east (set2 s1 s2) r c = east P r c /\ north (set2 s1 s2) r c = north P r c).
Context (HM : forall s1 s2, west (set2 s1 s2) lr c = west P lr c /\ south (set2 s1 s2) lr c = south P lr c).
Lemma local_ll : exists s1 s2 gA gM gB,
  r_peps (project_ll qr svd tol P gate ham r c) = put_gamma (put_gamma (put_v (put_gamma (put_h P lr rc s1) lr rc gA) lr c s2) r c gB) lr c gM /\
  shape gA = [length s1; SA; EA; NA; da] /\ shape gM = [WM; SM; length s1; length s2; dm] /\ shape gB = [WB; length s2; EB; NB; db] /\
  (kept tol s1 -> forall a1 a2 a3 m1 m2 b1 b2 b3 p' q' o', a1 < SA -> a2 < EA -> a3 < NA -> m1 < WM -> m2 < SM -> b1 < WB -> b2 < EB -> b3 < NB -> p' < da -> q' < dm -> o' < db ->
    good tol (south P lr rc) a1 -> good tol (east P lr rc) a2 -> good tol (north P lr rc) a3 -> good tol (west P lr c) m1 -> good tol (south P lr c) m2 -> good tol (west P r c) b1 -> good tol (east P r c) b2 -> good tol (north P r c) b3 ->
    sm (length s1) (fun z => sm (length s2) (fun w => (entry gA [z; a1; a2; a3; p'] * el s1 z * entry gM [m1; m2; z; w; q'] * el s2 w * entry gB [b1; w; b2; b3; o'])%C)) =
    (RtoC (/ r_norm (project_ll qr svd tol P gate ham r c)) *
     sm da (fun p => sm dm (fun q => sm db (fun o => (sm X (fun x => sm Y (fun y =>
       (entry (gamma P lr rc) [x; a1; a2; a3; p] * el (east P lr c) x * entry (gamma P lr c) [m1; m2; x; y; q] * el (north P lr c) y * entry (gamma P r c) [b1; y; b2; b3; o])%C)) * entry gate [o; q; p; o'; q'; p'])%C))))%C).
Proof.
  unfold project_ll. fold lr rc.
  pose proof (eat3_left_shape P lr rc _ _ _ _ _ ShA LA1 LA2 LA3) as TA.
  pose proof (eat3_down_shape P r c _ _ _ _ _ ShB LB1 LB2 LB3) as TB.
  pose proof (eat4_shape P lr c _ _ _ _ _ ShM LM0 LM1 LM2 LM3) as TM.
  pose proof (QR (eat3 P lr rc LEFT) ltac:(rewrite TA; reflexivity)) as QA. pose proof (QR (eat3 P r c DOWN) ltac:(rewrite TB; reflexivity)) as QB.
  destruct (qr (eat3 P lr rc LEFT)) as [qA rA], (qr (eat3 P r c DOWN)) as [qB rB].
  destruct QA as (KA & SqA & SrA & BA & XA), QB as (KB & SqB & SrB & BB & XB).
  unfold dimat in SqA, SrA, BA, XA, SqB, SrB, BB, XB. rewrite TA in SqA, SrA, BA, XA. rewrite TB in SqB, SrB, BB, XB. cbn [nth] in SqA, SrA, BA, XA, SqB, SrB, BB, XB.
  set (mid := eat4 P lr c) in *.
  set (t5 := contract (cyc (cyc rB 2 mid 4 1) 5 rA 2 1) [1; 2; 6] gate [0; 1; 2]).
  assert (St : shape t5 = [KB; WM; SM; KA; db; dm; da] /\ forall m1 m2 ka kb p' q' o', entry t5 [kb; m1; m2; ka; o'; q'; p'] =
    sm db (fun o => sm dm (fun q => sm da (fun p => (sm X (fun x => (sm Y (fun y => (entry rB [kb; o; y] * entry mid [q; m1; m2; x; y])%C) * entry rA [ka; p; x])%C) * entry gate [o; q; p; o'; q'; p'])%C)))).
  { unfold t5. revert SrA SrB Sg TM. clearbody mid. clear. destruct rA as [sh0 f0], rB as [sh1 f1], gate as [sh2 f2], mid as [sh3 f3]; cbn [shape]; intros -> -> -> ->. split; reflexivity. }
  destruct St as [St Et].
  assert (Et' : forall m1 m2 ka kb p' q' o', entry t5 [kb; m1; m2; ka; o'; q'; p'] = sm da (fun p => sm dm (fun q => sm db (fun o => (sm X (fun x => sm Y (fun y => (entry rA [ka; p; x] * entry mid [q; m1; m2; x; y] * entry rB [kb; o; y])%C)) * entry gate [o; q; p; o'; q'; p'])%C)))).
  { intros. rewrite Et. rewrite sm_swap3. apply sm_ext. intros p _. apply sm_ext. intros q _. apply sm_ext. intros o _. f_equal. apply sm_ext. intros x _. rewrite <- sm_scal_r. apply sm_ext. intros y _. apply crev_r. }
  set (t6 := transpose [0; 4; 5; 1; 2; 6; 3] (normalised t5)).
  assert (S6 : shape t6 = [KB; db; dm; WM; SM; da; KA]).
  { unfold t6. cbn [transpose shape map]. unfold dimat. cbn [normalised shape]. rewrite St. reflexivity. }
  assert (E6 : forall m1 m2 ka kb p' q' o', entry t6 [kb; o'; q'; m1; m2; p'; ka] = (RtoC (/ tnorm t5) * entry t5 [kb; m1; m2; ka; o'; q'; p'])%C).
  { intros. unfold t6. cbn [transpose entry]. unfold rank. cbn [normalised shape entry]. rewrite St. reflexivity. }
  pose proof (SV 5 t6 ltac:(rewrite S6; cbn; lia) ltac:(rewrite S6; right; cbn; nia)) as V.
  destruct (svd 5 t6) as [[u1 s1] vt1]. rewrite S6 in V. cbn [firstn skipn app] in V. destruct V as (Su & Sv & EV).
  set (t7 := contract u1 [5] (diag s1) [0]).
  assert (S7 : shape t7 = [KB; db; dm; WM; SM; length s1] /\ forall o' kb m1 m2 q' z, z < length s1 -> entry t7 [kb; o'; q'; m1; m2; z] = (entry u1 [kb; o'; q'; m1; m2; z] * el s1 z)%C).
  { assert (Q : shape t7 = [KB; db; dm; WM; SM; length s1] /\ forall o' kb m1 m2 q' z, entry t7 [kb; o'; q'; m1; m2; z] = sm (length s1) (fun z' => (entry u1 [kb; o'; q'; m1; m2; z'] * dl s1 z' z)%C)).
    { unfold t7. revert Su. clear. destruct u1 as [sh0 f0]. cbn [shape]. intros ->. split; reflexivity. }
    destruct Q as [Q1 Q2]. split; [exact Q1|]. intros. rewrite Q2. apply (sm_at (length s1) (fun z' => entry u1 [kb; o'; q'; m1; m2; z'])). assumption. }
  destruct S7 as [S7 E7].
  pose proof (SV 2 t7 ltac:(rewrite S7; cbn; lia) ltac:(rewrite S7; left; cbn; nia)) as V.
  destruct (svd 2 t7) as [[u2 s2] vt2]. rewrite S7 in V. cbn [firstn skipn app] in V. destruct V as (Su2 & Sv2 & EV2).
  cbn [r_peps r_norm]. rewrite Rmult_1_l.
  set (hA := split_out tol (put_h P lr rc s1) qA lr rc LEFT). set (gA := transpose [0; 2; 3; 4; 1] (cyc vt1 2 hA 0 1)).
  set (P3 := put_v (put_gamma (put_h P lr rc s1) lr rc gA) lr c s2).
  set (hB := split_out tol P3 qB r c DOWN). set (gB := transpose [2; 4; 0; 1; 3] (cyc hB 3 u2 0 1)).
  set (P4 := put_gamma P3 r c gB).
  set (gM := transpose [4; 0; 1; 2; 3] (cyc (cyc (contract vt2 [4] (diag_inv tol s1) [0]) 3 (diag_inv tol (south P4 lr c)) 0 1) 3 (diag_inv tol (west P4 lr c)) 1 1)).
  destruct (HA s1) as (HA1 & HA2 & HA3). destruct (HB s1 s2) as (HB1 & HB2 & HB3). destruct (HM s1 s2) as (HM1 & HM2).
  change (set1 s1) with (put_h P lr rc s1) in HA1, HA2, HA3. change (west (set2 s1 s2)) with (west P3) in HB1. change (east (set2 s1 s2)) with (east P3) in HB2. change (north (set2 s1 s2)) with (north P3) in HB3. change (west (set2 s1 s2)) with (west P4) in HM1. change (south (set2 s1 s2)) with (south P4) in HM2.
  pose proof (split_left_shape tol (put_h P lr rc s1) lr rc SA EA NA ltac:(rewrite HA1; exact LA1) ltac:(rewrite HA2; exact LA2) ltac:(rewrite HA3; exact LA3) qA KA SqA) as Sh. fold hA in Sh.
  pose proof (split_down_shape tol P3 r c WB EB NB ltac:(rewrite HB1; exact LB1) ltac:(rewrite HB2; exact LB2) ltac:(rewrite HB3; exact LB3) qB KB SqB) as Sk. fold hB in Sk.
  exists s1, s2, gA, gM, gB. split; [reflexivity|].
  assert (GA : shape gA = [length s1; SA; EA; NA; da] /\ forall a1 a2 a3 z p, entry gA [z; a1; a2; a3; p] = sm KA (fun k => (entry hA [k; a1; a2; a3] * entry vt1 [z; p; k])%C)).
  { assert (Q : shape gA = [length s1; SA; EA; NA; da] /\ forall a1 a2 a3 z p, entry gA [z; a1; a2; a3; p] = sm KA (fun k => (entry vt1 [z; p; k] * entry hA [k; a1; a2; a3])%C)).
    { unfold gA. revert Sh Sv. clearbody hA. clear. generalize (length s1). intros l. destruct hA as [sh0 f0], vt1 as [sh1 f1]; cbn [shape entry]; intros -> ->. split; reflexivity. }
    destruct Q as [Q1 Q2]. split; [exact Q1|]. intros. rewrite Q2. apply sm_ext. intros. ring. }
  assert (GB : shape gB = [WB; length s2; EB; NB; db] /\ forall b1 b2 b3 z p, entry gB [b1; z; b2; b3; p] = sm KB (fun k => (entry hB [b2; b3; b1; k] * entry u2 [k; p; z])%C)).
  { unfold gB. revert Sk Su2. clearbody hB. clear. generalize (length s2). intros l. destruct hB as [sh0 f0], u2 as [sh1 f1]; cbn [shape entry]; intros -> ->. split; reflexivity. }
  assert (GM : shape gM = [WM; SM; length s1; length s2; dm] /\ forall z w m1 m2 q, z < length s1 -> m1 < WM -> m2 < SM -> entry gM [m1; m2; z; w; q] = (entry vt2 [w; q; m1; m2; z] * el (inv_elements tol s1) z * el (inv_elements tol (south P lr c)) m2 * el (inv_elements tol (west P lr c)) m1)%C).
  { assert (Q : shape gM = [WM; SM; length s1; length s2; dm] /\ forall z w m1 m2 q, entry gM [m1; m2; z; w; q] =
      sm WM (fun x2 => (sm SM (fun x1 => (sm (length s1) (fun z' => (entry vt2 [w; q; x2; x1; z'] * dl (inv_elements tol s1) z' z)%C) * dl (inv_elements tol (south P lr c)) x1 m2)%C) * dl (inv_elements tol (west P lr c)) m1 x2)%C)).
    { unfold gM. rewrite HM1, HM2. unfold diag_inv. rewrite <- LM1, <- LM0 in Sv2 |- *. rewrite <- (inv_length tol s1), <- (inv_length tol (west P lr c)), <- (inv_length tol (south P lr c)) in Sv2 |- *.
      revert Sv2. clear. generalize (inv_elements tol s1) (inv_elements tol (west P lr c)) (inv_elements tol (south P lr c)) (length s2). intros l1 l2 l3 l4. destruct vt2 as [sh0 f0]. cbn [shape]. intros ->. split; reflexivity. }
    destruct Q as [Q1 Q2]. split; [exact Q1|]. intros z w m1 m2 q Hz H1 H2. rewrite Q2.
    rewrite (sm_at' WM (fun x2 => sm SM (fun x1 => (sm (length s1) (fun z' => (entry vt2 [w; q; x2; x1; z'] * dl (inv_elements tol s1) z' z)%C) * dl (inv_elements tol (south P lr c)) x1 m2)%C)) _ m1 H1). f_equal.
    rewrite (sm_at SM (fun x1 => sm (length s1) (fun z' => (entry vt2 [w; q; m1; x1; z'] * dl (inv_elements tol s1) z' z)%C)) _ m2 H2). f_equal.
    apply (sm_at (length s1) (fun z' => entry vt2 [w; q; m1; m2; z']) _ z Hz). }
  destruct GA as [SgA GA], GB as [SgB GB], GM as [SgM GM]. split; [exact SgA|]. split; [exact SgM|]. split; [exact SgB|].
  intros KE a1 a2 a3 m1 m2 b1 b2 b3 p' q' o' Ha1 Ha2 Ha3 Hm1 Hm2 Hb1 Hb2 Hb3 Hp Hq Ho ga1 ga2 ga3 gm1 gm2 gb1 gb2 gb3.
  pose proof (three_core da dm db X Y KA KB (length s1) (length s2) (fun p x => entry (gamma P lr rc) [x; a1; a2; a3; p]) (fun p y => entry (gamma P r c) [b1; y; b2; b3; p])
    (fun q x y => entry mid [q; m1; m2; x; y]) (fun k => entry hA [k; a1; a2; a3]) (fun k => entry hB [b2; b3; b1; k]) (fun k p x => entry rA [k; p; x]) (fun k p x => entry rB [k; p; x])
    (fun p q o => entry gate [o; q; p; o'; q'; p']) (fun k z => entry u1 [k; o'; q'; m1; m2; z]) (fun z k => entry vt1 [z; p'; k]) (fun k w => entry u2 [k; o'; w]) (fun w z => entry vt2 [w; q'; m1; m2; z])
    (el s1) (el s2) (el (inv_elements tol s1)) (RtoC (/ tnorm t5))) as C3.
  assert (CA : forall p x, p < da -> x < X -> entry (gamma P lr rc) [x; a1; a2; a3; p] = sm KA (fun k => (entry hA [k; a1; a2; a3] * entry rA [k; p; x])%C)).
  { intros p x Hp' Hx. specialize (XA a1 a2 a3 p x Ha1 Ha2 Ha3 Hp' Hx). rewrite (eat3_left P lr rc _ _ _ _ _ ShA ) in XA by assumption.
    transitivity ((el (inv_elements tol (south P lr rc)) a1 * el (inv_elements tol (east P lr rc)) a2 * el (inv_elements tol (north P lr rc)) a3) * (entry (gamma P lr rc) [x; a1; a2; a3; p] * el (north P lr rc) a3 * el (east P lr rc) a2 * el (south P lr rc) a1))%C.
    - unfold good in *. transitivity (entry (gamma P lr rc) [x; a1; a2; a3; p] * (el (inv_elements tol (south P lr rc)) a1 * el (south P lr rc) a1) * (el (inv_elements tol (east P lr rc)) a2 * el (east P lr rc) a2) * (el (inv_elements tol (north P lr rc)) a3 * el (north P lr rc) a3))%C; [rewrite ga1, ga2, ga3; cring|cring].
    - rewrite XA. fold (sm KA (fun z => (entry qA [a1; a2; a3; z] * entry rA [z; p; x])%C)). rewrite <- sm_scal. apply sm_ext. intros k Hk.
      unfold hA. rewrite (split_left tol (put_h P lr rc s1) lr rc SA EA NA  qA KA a1 a2 a3 k SqA Ha1 Ha2 Ha3). rewrite HA1, HA2, HA3. cring. }
  assert (CB : forall p y, p < db -> y < Y -> entry (gamma P r c) [b1; y; b2; b3; p] = sm KB (fun k => (entry hB [b2; b3; b1; k] * entry rB [k; p; y])%C)).
  { intros p x Hp' Hx. specialize (XB b2 b3 b1 p x Hb2 Hb3 Hb1 Hp' Hx). rewrite (eat3_down P r c _ _ _ _ _ ShB LB1 LB2 LB3) in XB by assumption.
    transitivity ((el (inv_elements tol (west P r c)) b1 * el (inv_elements tol (east P r c)) b2 * el (inv_elements tol (north P r c)) b3) * (entry (gamma P r c) [b1; x; b2; b3; p] * el (west P r c) b1 * el (north P r c) b3 * el (east P r c) b2))%C.
    - unfold good in *. transitivity (entry (gamma P r c) [b1; x; b2; b3; p] * (el (inv_elements tol (west P r c)) b1 * el (west P r c) b1) * (el (inv_elements tol (east P r c)) b2 * el (east P r c) b2) * (el (inv_elements tol (north P r c)) b3 * el (north P r c) b3))%C; [rewrite gb1, gb2, gb3; cring|cring].
    - rewrite XB. fold (sm KB (fun z => (entry qB [b2; b3; b1; z] * entry rB [z; p; x])%C)). rewrite <- sm_scal. apply sm_ext. intros k Hk.
      unfold hB. rewrite (split_down tol P3 r c WB EB NB ltac:(rewrite HB1; exact LB1) ltac:(rewrite HB2; exact LB2) ltac:(rewrite HB3; exact LB3) qB KB b1 b2 b3 k SqB Hb1 Hb2 Hb3). rewrite HB1, HB2, HB3. cring. }
  specialize (C3 CA CB). cbv beta in C3.
  transitivity ((el (inv_elements tol (south P lr c)) m2 * el (inv_elements tol (west P lr c)) m1) * sm (length s1) (fun z => sm (length s2) (fun w => (sm KA (fun k => (entry hA [k; a1; a2; a3] * entry vt1 [z; p'; k])%C) * el s1 z * (entry vt2 [w; q'; m1; m2; z] * el (inv_elements tol s1) z) * el s2 w * sm KB (fun k => (entry hB [b2; b3; b1; k] * entry u2 [k; o'; w])%C))%C)))%C.
  { rewrite <- sm_scal. apply sm_ext. intros z Hz. rewrite <- sm_scal. apply sm_ext. intros w Hw. rewrite GA, GB, GM by assumption. cring. }
  rewrite C3.
  - transitivity (RtoC (/ tnorm t5) * ((el (inv_elements tol (south P lr c)) m2 * el (inv_elements tol (west P lr c)) m1) * sm da (fun p => sm dm (fun q => sm db (fun o => (sm X (fun x => sm Y (fun y => (entry (gamma P lr rc) [x; a1; a2; a3; p] * entry mid [q; m1; m2; x; y] * entry (gamma P r c) [b1; y; b2; b3; o])%C)) * entry gate [o; q; p; o'; q'; p'])%C)))))%C; [cring|].
    f_equal. rewrite <- sm_scal. apply sm_ext. intros p Hp'. rewrite <- sm_scal. apply sm_ext. intros q Hq'. rewrite <- sm_scal. apply sm_ext. intros o Ho'.
    match goal with |- (?k * (?u * ?v) = _)%C => transitivity ((k * u) * v)%C; [cring|] end. f_equal. rewrite <- sm_scal. apply sm_ext. intros x Hx. rewrite <- sm_scal. apply sm_ext. intros y Hy.
    unfold mid. rewrite (eat4_entry P lr c _ _ _ _ _ ShM) by assumption. unfold good in *.
    transitivity (((el (inv_elements tol (west P lr c)) m1 * el (west P lr c) m1) * (el (inv_elements tol (south P lr c)) m2 * el (south P lr c) m2)) * (entry (gamma P lr rc) [x; a1; a2; a3; p] * el (east P lr c) x * entry (gamma P lr c) [m1; m2; x; y; q] * el (north P lr c) y * entry (gamma P r c) [b1; y; b2; b3; o]))%C; [cring|]. rewrite gm1, gm2. cring.
  - intros ka kb H1 H2. specialize (EV [kb; o'; q'; m1; m2] [p'; ka]). cbn [app] in EV. rewrite E6, Et' in EV. apply EV.
    + repeat constructor; assumption.
    + repeat constructor; assumption.
  - intros kb z H1 H2. specialize (EV2 [kb; o'] [q'; m1; m2; z]). cbn [app] in EV2. rewrite <- E7 by exact H2. apply EV2; repeat constructor; assumption.
  - intros z Hz. apply kept_inv; assumption.
Qed.
End LL.
End Triangle.
