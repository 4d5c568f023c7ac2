(** Crashes during TPS::Dump. *)
From Coq Require Import String Ascii List Arith Lia Bool FinFun Decimal DecimalNat.
From Verif Require Import Base MsgModel DumpModel DumpSpec DumpProofs.
Import ListNotations.
Local Open Scope nat_scope.
Section T.
Context {T : Type}.
Variables (v : tps T).
Hypothesis FV : full_tps v.
Lemma pairs_lt rows cols r c : In (r, c) (pairs_of rows cols) <-> r < rows /\ c < cols.
Proof. unfold pairs_of. rewrite in_prod_iff, !in_seq. lia. Qed.
Lemma prod_nth R : forall C a n, n < R * C -> nth n (list_prod (seq a R) (seq 0 C)) (0, 0) = (a + n / C, n mod C).
Proof.
  induction R as [|R IH]; intros C a n Hn; [lia|]. cbn [seq list_prod]. destruct (le_lt_dec C n) as [Hc|Hc].
  - rewrite app_nth2 by (rewrite map_length, seq_length; exact Hc). rewrite map_length, seq_length, IH by lia. assert (C <> 0) by lia.
    replace n with ((n - C) + 1 * C) at 3 4 by lia. rewrite Nat.div_add, Nat.mod_add by assumption. f_equal. lia.
  - rewrite app_nth1 by (rewrite map_length, seq_length; exact Hc). rewrite (nth_indep _ _ (a, 0)) by (rewrite map_length, seq_length; exact Hc).
    rewrite (map_nth (fun y => (a, y))), seq_nth by exact Hc. rewrite Nat.div_small, Nat.mod_small by exact Hc. f_equal. lia.
Qed.
Lemma pairs_nodup rows cols : NoDup (pairs_of rows cols).
Proof.
  apply (NoDup_nth _ (0, 0)). intros i j Hi Hj E. unfold pairs_of in *. rewrite prod_length, !seq_length in Hi, Hj. rewrite !prod_nth in E by assumption. injection E as E1 E2.
  assert (Z : cols <> 0) by (intros ->; lia). rewrite (Nat.div_mod i cols Z), (Nat.div_mod j cols Z). congruence.
Qed.
Definition nm (rc : nat * nat) : file := TenFile (fst rc) (snd rc) 0.
Lemma nm_inj a b : nm a = nm b -> a = b.
Proof. destruct a, b. unfold nm. cbn. congruence. Qed.
Lemma tps_form : exists ten : nat * nat -> T,
  (forall rc, In rc (pairs_of (t_rows v) (t_cols v)) -> idx (t_tens v) (fst rc * t_cols v + snd rc) = Ok (ten rc)) /\
  map ten (pairs_of (t_rows v) (t_cols v)) = t_tens v /\
  tps_dump v = Ok ((OpenMeta :: map WriteChar (tps_meta v)) ++ writes (map (fun rc => (nm rc, ten rc)) (pairs_of (t_rows v) (t_cols v)))).
Proof.
  destruct FV as (A & B & L). destruct (t_tens v) as [|t0 tl] eqn:E0; [cbn in L; nia|]. rewrite <- E0 in *. clear E0 tl.
  exists (fun rc => nth (fst rc * t_cols v + snd rc) (t_tens v) t0).
  assert (H : forall rc, In rc (pairs_of (t_rows v) (t_cols v)) -> idx (t_tens v) (fst rc * t_cols v + snd rc) = Ok (nth (fst rc * t_cols v + snd rc) (t_tens v) t0)).
  { intros [r c] Hp. apply pairs_lt in Hp. cbn [fst snd]. unfold idx. rewrite (nth_error_nth' _ t0) by (rewrite L; nia). reflexivity. }
  split; [exact H|]. split.
  - apply nth_ext with (d := t0) (d' := t0); [rewrite map_length; unfold pairs_of; rewrite prod_length, !seq_length, L; reflexivity|].
    rewrite map_length. unfold pairs_of. rewrite prod_length, !seq_length. intros n Hn.
    set (F := fun rc => nth (fst rc * t_cols v + snd rc) (t_tens v) t0). rewrite (nth_indep _ t0 (F (0, 0))) by (rewrite map_length, prod_length, !seq_length; exact Hn).
    rewrite (map_nth F), prod_nth by exact Hn. unfold F. cbn [fst snd plus]. f_equal. rewrite (Nat.div_mod n (t_cols v)) at 3 by lia. lia.
  - unfold tps_dump. rewrite (map_r_ok _ (fun rc => [Open (nm rc); WriteTensor (nm rc) (nth (fst rc * t_cols v + snd rc) (t_tens v) t0)])).
    + cbn [bind]. unfold writes. rewrite map_map. reflexivity.
    + intros rc Hp. rewrite (H rc Hp). reflexivity.
Qed.
Lemma tps_meta_scan : scan3 (tps_meta v) = Some (t_rows v, t_cols v, if t_bc v then 1 else 0, [Blank]).
Proof.
  unfold scan3, tps_meta. rewrite scan_print by (right; eexists; reflexivity). rewrite scan_blank, scan_print by (right; eexists; reflexivity).
  rewrite scan_blank, scan_print by (right; eexists; reflexivity). reflexivity.
Qed.
Lemma tps_load3 sr sc sb (d : dir T) l : d MetaFile = Some (Text l) -> tps_load sr sc sb d =
  let '(rows, cols, bc) := match scan3 l with Some (r, c, b, _) => (r, c, b =? 1) | None => (sr, sc, sb) end in
  match all_some (fun rc => read_ten d (fst rc, snd rc, 0)) (pairs_of rows cols) with Some ts => Some (mkT rows cols bc ts) | None => None end.
Proof.
  intros H. unfold tps_load, scan3. rewrite H. destruct (scan l) as [[a l1]|]; [|reflexivity]. destruct (scan l1) as [[b l2]|]; [|reflexivity]. destruct (scan l2) as [[c l3]|]; reflexivity.
Qed.
Lemma tps_crash n sr sc sb : 1 <= sr -> 1 <= sc -> exists evs, tps_dump v = Ok evs /\
  tps_load sr sc sb (crash n fresh evs) = if n <? length evs then None else Some v.
Proof.
  intros Hr Hc. destruct tps_form as (ten & Ht & Hm & E). eexists. split; [exact E|]. destruct FV as (A & B & L).
  set (fts := map (fun rc => (nm rc, ten rc)) (pairs_of (t_rows v) (t_cols v))). set (M := OpenMeta :: map WriteChar (tps_meta v)).
  assert (ND : NoDup (map fst fts)).
  { unfold fts. rewrite map_map. cbn [fst]. apply FinFun.Injective_map_NoDup; [intros a b; apply nm_inj|apply pairs_nodup]. }
  assert (NM : ~ In MetaFile (map fst fts)).
  { intros H. unfold fts in H. rewrite map_map in H. apply in_map_iff in H. destruct H as ([r c] & Q & _). discriminate. }
  assert (LM : length M = length (tps_meta v) + 1) by (unfold M; cbn [length]; rewrite map_length; lia).
  rewrite app_length, writes_length. unfold crash. rewrite firstn_app, events_app. set (j := n - length M). set (d0 := apply_events fresh (firstn n M)).
  destruct (meta_events (@fresh T) (tps_meta v) n) as [M1 M2]. fold M in M1, M2. fold d0 in M1, M2. set (dd := apply_events d0 (firstn j (writes fts))).
  assert (MM : dd MetaFile = d0 MetaFile) by (apply writes_other, NM).
  assert (OK : forall rows cols (bc : bool) rc, In rc (pairs_of rows cols) -> read_ten dd (fst rc, snd rc, 0) = None ->
    match all_some (fun rc => read_ten dd (fst rc, snd rc, 0)) (pairs_of rows cols) with Some ts => Some (mkT rows cols bc ts) | None => None end = None).
  { intros rows cols bc rc Hp H. rewrite (all_some_none _ _ rc Hp H). reflexivity. }
  destruct (le_lt_dec (length M) n) as [Hn|Hn].
  - rewrite (tps_load3 _ _ _ dd (tps_meta v)).
    2:{ rewrite MM, M1. destruct (Nat.eqb_spec n 0); [lia|]. rewrite firstn_all2 by lia. reflexivity. }
    rewrite tps_meta_scan. destruct (Nat.ltb_spec n (length M + 2 * length fts)) as [Hl|Hl].
    + assert (Q : exists fts' f t, fts = fts' ++ [(f, t)]).
      { destruct (@exists_last _ fts) as (fts' & [f t] & Q); [intros Z; rewrite Z in Hl; cbn [length] in Hl; lia|]. exists fts', f, t. exact Q. }
      destruct Q as (fts' & f & t & Q). assert (Hin : In (f, t) fts) by (rewrite Q; apply in_or_app; right; left; reflexivity).
      unfold fts in Hin. apply in_map_iff in Hin. destruct Hin as (rc & En & Hp). injection En as En _.
      apply (OK _ _ _ rc Hp). unfold read_ten. change (TenFile (fst rc) (snd rc) 0) with (nm rc). rewrite En.
      rewrite Q in ND. assert (Lf : length fts = length fts' + 1) by (rewrite Q, app_length; reflexivity).
      assert (F0 : d0 f = None) by (rewrite M2; [reflexivity|rewrite <- En; discriminate]).
      pose proof (writes_cut fts' f t ND j d0 ltac:(lia) F0) as W. rewrite <- Q in W. fold dd in W. destruct (dd f) as [[]|]; try reflexivity. exfalso. eapply W. reflexivity.
    + assert (J : firstn j (writes fts) = writes fts) by (apply firstn_all2; rewrite writes_length; lia).
      rewrite (all_some_ok _ ten).
      * rewrite Hm. destruct v as [r c b l]; cbn. destruct b; reflexivity.
      * intros rc Hp. unfold read_ten. change (TenFile (fst rc) (snd rc) 0) with (nm rc). unfold dd. rewrite J.
        rewrite (writes_all fts ND d0 (nm rc) (ten rc)); [reflexivity|]. unfold fts. apply in_map_iff. exists rc. split; [reflexivity|exact Hp].
  - destruct (Nat.ltb_spec n (length M + 2 * length fts)) as [_|Hl]; [|lia].
    assert (Hd : forall rc, read_ten dd (fst rc, snd rc, 0) = None).
    { intros rc. unfold read_ten, dd. replace j with 0 by lia. cbn [firstn apply_events fold_left]. rewrite M2 by discriminate. reflexivity. }
    destruct (Nat.eqb_spec n 0) as [Z|Z].
    + unfold tps_load. rewrite MM, M1. cbn -[all_some pairs_of]. apply (OK _ _ _ (0, 0)); [apply pairs_lt; lia|apply (Hd (0, 0))].
    + rewrite (tps_load3 _ _ _ dd _ (eq_trans MM M1)). unfold tps_meta.
      destruct (scan3_prefix (t_rows v) (t_cols v) (print (if t_bc v then 1 else 0) ++ [Blank]) (n - 1)) as [N|(m' & c & r & _ & _ & Q)]; cbn zeta in *.
      * rewrite N. apply (OK _ _ _ (0, 0)); [apply pairs_lt; lia|apply (Hd (0, 0))].
      * rewrite Q. apply (OK _ _ _ (0, 0)); [apply pairs_lt; lia|apply (Hd (0, 0))].
Qed.
End T.

Section P.
Context {T : Type}.
Lemma pdump_get (path : string) (f : pname -> T) l : forall d n, In n l -> pget (fold_left (fun d n => pput d path n (f n)) l d) path n = Some (f n).
Proof.
  induction l as [|m l IH] using rev_ind; intros d n H; [destruct H|]. rewrite fold_left_app. cbn [fold_left]. unfold pget at 1, pput at 1.
  destruct (string_dec (squeeze path) (squeeze path)); [|contradiction]. destruct (pname_eq_dec n m) as [->|N]; [reflexivity|].
  apply in_app_or in H. destruct H as [H|[H|[]]]; [apply (IH d n H)|congruence].
Qed.
Lemma pdump_other (path path' : string) (f : pname -> T) l : squeeze path' <> squeeze path -> forall d n, pget (fold_left (fun d n => pput d path n (f n)) l d) path' n = pget d path' n.
Proof.
  intros H. induction l as [|m l IH]; intros d n; [reflexivity|]. cbn [fold_left]. rewrite IH. unfold pget, pput. destruct (string_dec (squeeze path') (squeeze path)); [contradiction|reflexivity].
Qed.
Lemma peps_roundtrip (path : string) (v : peps T) d : peps_load path v (peps_dump path v d) = Some (map (p_ten v) (pnames v)).
Proof. unfold peps_load, peps_dump. apply all_some_ok. intros n H. apply pdump_get, H. Qed.
Lemma squeeze_last s : squeeze ((s ++ "/") ++ "/")%string = squeeze (s ++ "/")%string.
Proof.
  induction s as [|a s IH]; [reflexivity|]. destruct s as [|b s].
  - clear IH. simpl. destruct (Ascii.eqb a "/"); reflexivity.
  - change ((String a (String b s) ++ "/") ++ "/")%string with (String a ((String b s ++ "/") ++ "/"))%string. change (String a (String b s) ++ "/")%string with (String a (String b s ++ "/"))%string.
    assert (E : forall t w, t = String b w -> squeeze (String a t) = if (Ascii.eqb a "/" && Ascii.eqb b "/")%bool then squeeze t else String a (squeeze t)) by (intros t w ->; reflexivity).
    rewrite (E ((String b s ++ "/") ++ "/")%string ((s ++ "/") ++ "/")%string eq_refl), (E (String b s ++ "/")%string (s ++ "/")%string eq_refl), IH. reflexivity.
Qed.
(** the const Dump is loadable exactly because its path ends with a slash *)
Lemma peps_const_slash (q : string) (v : peps T) d : peps_load (q ++ "/") v (peps_dump_const (q ++ "/") v d) = Some (map (p_ten v) (pnames v)).
Proof.
  unfold peps_load, peps_dump_const. apply all_some_ok. intros n H. unfold pget. rewrite squeeze_last. change (?d (squeeze (q ++ "/")) n) with (pget d (q ++ "/") n). apply (pdump_get (q ++ "/")%string), H.
Qed.
Lemma peps_const_default (v : peps T) : pnames v <> [] -> peps_load "peps" v (peps_dump_const "peps" v (fun _ _ => None)) = None.
Proof.
  intros H. unfold peps_load, peps_dump_const. destruct (pnames v) as [|n l] eqn:E; [contradiction|]. rewrite <- E. apply (all_some_none _ _ n); [rewrite E; left; reflexivity|].
  rewrite pdump_other; [reflexivity|discriminate].
Qed.
End P.
