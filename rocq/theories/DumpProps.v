(** C48: dumps cut short, and dumps over older dumps. *)
From Coq Require Import String Ascii List Arith Lia Bool.
From Verif Require Import Base MsgModel DumpModel DumpSpec DumpProofs DumpTps.
Import ListNotations.
Local Open Scope nat_scope.

(** A completed dump can be loaded, whatever was in the directory and whatever the object was before. *)
Theorem c48_roundtrip (T : Type) (v : sitps T) (k sr sc : nat) (sb : bool) (d : dir T) : even_state v k ->
  exists evs, dump v = Ok evs /\ load sr sc sb (apply_events d evs) = Some v.
Proof. intros H. exact (dump_over v k H sr sc sb d). Qed.
Print Assumptions c48_roundtrip.

(** In a fresh directory, a process that dies anywhere but inside the metadata line leaves a directory that is
    refused, or is the whole state. *)
Theorem c48_fresh (T : Type) (v : sitps T) (k n sr sc : nat) (sb : bool) : even_state v k ->
  exists evs, dump v = Ok evs /\
    (n <= 2 * (p_rows v * p_cols v * k) + 1 \/ length evs <= n ->
     load sr sc sb (crash n fresh evs) = None \/ load sr sc sb (crash n fresh evs) = Some v).
Proof. intros H. exact (dump_crash v k H n sr sc sb). Qed.
Print Assumptions c48_fresh.

(** With open boundaries and fewer than ten components per site this holds for every crash point, also inside
    the metadata line. *)
Theorem c48_bytes (T : Type) (v : sitps T) (k n sr sc : nat) (sb : bool) : even_state v k -> p_bc v = false -> k < 10 ->
  exists evs, dump v = Ok evs /\ (load sr sc sb (crash n fresh evs) = None \/ load sr sc sb (crash n fresh evs) = Some v).
Proof. intros H OB K. exact (dump_crash_bytes v k H n sr sc sb OB K). Qed.
Print Assumptions c48_bytes.

(** A periodic state whose metadata line is cut before its last character is loaded as an open one. *)
Theorem c48_periodic_refuted : exists (v : sitps nat) evs n w, even_state v 2 /\ dump v = Ok evs /\ n < length evs /\
  load 1 1 false (crash n fresh evs) = Some w /\ p_bc v = true /\ p_bc w = false.
Proof.
  exists (mkS 1 2 true [[10; 11]; [20; 21]]), [Open (TenFile 0 0 0); WriteTensor (TenFile 0 0 0) 10; Open (TenFile 0 0 1); WriteTensor (TenFile 0 0 1) 11;
    Open (TenFile 0 1 0); WriteTensor (TenFile 0 1 0) 20; Open (TenFile 0 1 1); WriteTensor (TenFile 0 1 1) 21;
    OpenMeta; WriteChar C1; WriteChar Blank; WriteChar C2; WriteChar Blank; WriteChar C2; WriteChar Blank; WriteChar C1], 15, (mkS 1 2 false [[10; 11]; [20; 21]]).
  repeat split; cbn; try lia. intros s [<-|[<-|[]]]; reflexivity.
Qed.
Print Assumptions c48_periodic_refuted.

(** With ten components a cut metadata line can lose all but the first. *)
Theorem c48_components_refuted : exists (v : sitps nat) evs n w, even_state v 10 /\ dump v = Ok evs /\ n < length evs /\
  load 1 1 false (crash n fresh evs) = Some w /\ w <> v /\ p_sites w = [[0]].
Proof.
  exists (mkS 1 1 false [seq 0 10]). eexists. exists 26, (mkS 1 1 false [[0]]). split; [|split; [reflexivity|]].
  - unfold even_state. cbn. repeat split; try lia. intros s [<-|[]]; reflexivity.
  - split; [cbn; lia|]. split; [reflexivity|]. split; [discriminate|reflexivity].
Qed.
Print Assumptions c48_components_refuted.

(** A dump over an older dump of the same shape that dies half way leaves a mixture, which is loaded as if it
    were a state. *)
Theorem c48_overwrite_refuted : exists (old new : sitps nat) eo en n w, even_state old 2 /\ even_state new 2 /\
  dump old = Ok eo /\ dump new = Ok en /\ load 1 1 false (crash n (apply_events fresh eo) en) = Some w /\ w <> old /\ w <> new.
Proof.
  exists (mkS 1 2 false [[10; 11]; [20; 21]]), (mkS 1 2 false [[30; 31]; [40; 41]]). eexists. eexists. exists 4, (mkS 1 2 false [[30; 31]; [20; 21]]).
  split; [unfold even_state; cbn; repeat split; try lia; intros s [<-|[<-|[]]]; reflexivity|].
  split; [unfold even_state; cbn; repeat split; try lia; intros s [<-|[<-|[]]]; reflexivity|].
  split; [reflexivity|]. split; [reflexivity|]. split; [reflexivity|]. split; discriminate.
Qed.
Print Assumptions c48_overwrite_refuted.

(** The unsplit tensor state writes its metadata first: in a fresh directory every crash point before the last
    write is refused, with any boundary condition. *)
Theorem c48_tps (T : Type) (v : tps T) (n sr sc : nat) (sb : bool) : full_tps v -> 1 <= sr -> 1 <= sc ->
  exists evs, tps_dump v = Ok evs /\ tps_load sr sc sb (crash n fresh evs) = if n <? length evs then None else Some v.
Proof. intros H A B. exact (tps_crash v H n sr sc sb A B). Qed.
Print Assumptions c48_tps.

(** PEPS: the dump with a release flag can be loaded from the same path. *)
Theorem c48_peps (T : Type) (path : string) (v : peps T) (d : pdir T) : peps_load path v (peps_dump path v d) = Some (map (p_ten v) (pnames v)).
Proof. exact (peps_roundtrip path v d). Qed.
Print Assumptions c48_peps.
(** The const dump can when the path ends with a slash, *)
Theorem c48_peps_const (T : Type) (q : string) (v : peps T) (d : pdir T) : peps_load (q ++ "/") v (peps_dump_const (q ++ "/") v d) = Some (map (p_ten v) (pnames v)).
Proof. exact (peps_const_slash q v d). Qed.
Print Assumptions c48_peps_const.
(** and never with the default path. *)
Theorem c48_peps_const_refuted (T : Type) (v : peps T) : pnames v <> [] -> peps_load "peps" v (peps_dump_const "peps" v (fun _ _ => None)) = None.
Proof. exact (peps_const_default v). Qed.
Print Assumptions c48_peps_const_refuted.

(** The hypotheses are met by a 2x3 state with two components, and by a 2x2 tensor state. *)
Example even_state_case : even_state (mkS 2 3 true [[0; 1]; [2; 3]; [4; 5]; [6; 7]; [8; 9]; [10; 11]]) 2.
Proof. unfold even_state. cbn. repeat split; try lia. intros s H. repeat (destruct H as [<-|H]; [reflexivity|]). destruct H. Qed.
Example full_tps_case : full_tps (mkT 2 2 true [1; 2; 3; 4]).
Proof. repeat split; cbn; lia. Qed.
Example crash_refused : load 5 5 true (crash 23 (@fresh nat) (match dump (mkS 2 3 true [[0; 1]; [2; 3]; [4; 5]; [6; 7]; [8; 9]; [10; 11]]) with Ok e => e | Fail _ => [] end)) = None.
Proof. reflexivity. Qed.
Example peps_case : pnames (mkP (2, 2) (3, 2) (2, 3) (fun _ => 0)) <> [].
Proof. discriminate. Qed.
