(** Crashes during a dump. *)
From Coq Require Import List Arith Lia Bool FinFun Decimal DecimalNat.
From Verif Require Import Base MsgModel DumpModel DumpSpec.
Import ListNotations.
Local Open Scope nat_scope.

(** *** Text *)
Definition stops (l : list char) : Prop := l = [] \/ exists t, l = Blank :: t.
Lemma take_chars u : forall r, stops r -> take (chars u ++ r) = (u, r).
Proof.
  intros r H. induction u; [destruct H as [->|(t & ->)]; reflexivity|..]; simpl; rewrite IHu; reflexivity.
Qed.
Lemma print_digit n : exists c t, print n = c :: t /\ c <> Blank.
Proof.
  unfold print. destruct (Nat.to_uint n) eqn:E; cbn [chars]; try (eexists; eexists; split; [reflexivity|discriminate]).
  exfalso. pose proof (Unsigned.of_to n) as H. rewrite E in H. cbn in H. subst n. discriminate.
Qed.
Lemma scan_print n r : stops r -> scan (print n ++ r) = Some (n, r).
Proof.
  intros H. destruct (print_digit n) as (c & t & E & N). unfold scan. replace (skip (print n ++ r)) with (print n ++ r) by (rewrite E; destruct c; try reflexivity; contradiction).
  unfold print in *. rewrite take_chars by exact H. destruct (Nat.to_uint n) eqn:Q; try (rewrite <- Q, Unsigned.of_to; reflexivity). discriminate.
Qed.
Lemma print_small k : k < 10 -> exists ch, print k = [ch].
Proof. intros K. do 10 (destruct k as [|k]; [eexists; reflexivity|]). lia. Qed.
Lemma scan_blank l : scan (Blank :: l) = scan l.
Proof. reflexivity. Qed.
Lemma scan_nil : scan [] = None.
Proof. reflexivity. Qed.
Lemma take_prefix u : forall m, exists u', take (firstn m (chars u)) = (u', []).
Proof.
  induction u; intros [|m]; cbn [chars firstn take]; try (eexists; reflexivity); destruct (IHu m) as (u' & ->); eexists; reflexivity.
Qed.
(** reading a number that is cut short uses everything that is left *)
Lemma scan_prefix n m : scan (firstn m (print n)) = None \/ exists n', scan (firstn m (print n)) = Some (n', []).
Proof.
  destruct m as [|m]; [left; reflexivity|]. destruct (print_digit n) as (c & t & E & N). unfold scan.
  replace (skip (firstn (S m) (print n))) with (firstn (S m) (print n)) by (rewrite E; cbn [firstn]; destruct c; try reflexivity; contradiction).
  unfold print. destruct (take_prefix (Nat.to_uint n) (S m)) as (u & ->). destruct u; (left; reflexivity) || (right; eexists; reflexivity).
Qed.
(** three numbers read from a text that may be cut *)
Definition scan3 (l : list char) : option (nat * nat * nat * list char) :=
  match scan l with None => None | Some (a, l) => match scan l with None => None | Some (b, l) => match scan l with None => None | Some (c, l) => Some (a, b, c, l) end end end.
Lemma scan3_prefix a b w m : let l := print a ++ Blank :: print b ++ Blank :: w in
  scan3 (firstn m l) = None \/
  exists m' c r, m = length (print a) + length (print b) + 2 + m' /\ scan (firstn m' w) = Some (c, r) /\ scan3 (firstn m l) = Some (a, b, c, r).
Proof.
  cbn zeta. unfold scan3. destruct (le_lt_dec m (length (print a))) as [Ha|Ha].
  - left. rewrite firstn_app. replace (m - length (print a)) with 0 by lia. cbn [firstn]. rewrite app_nil_r. destruct (scan_prefix a m) as [->|(a' & ->)]; reflexivity.
  - rewrite firstn_app, (firstn_all2 (print a)) by lia. destruct (m - length (print a)) as [|j] eqn:Ej; [lia|]. cbn [firstn].
    rewrite scan_print by (right; eexists; reflexivity). rewrite scan_blank. destruct (le_lt_dec j (length (print b))) as [Hb|Hb].
    + left. rewrite firstn_app. replace (j - length (print b)) with 0 by lia. cbn [firstn]. rewrite app_nil_r. destruct (scan_prefix b j) as [->|(b' & ->)]; reflexivity.
    + rewrite firstn_app, (firstn_all2 (print b)) by lia. destruct (j - length (print b)) as [|m'] eqn:Em; [lia|]. cbn [firstn].
      rewrite scan_print by (right; eexists; reflexivity). rewrite scan_blank. destruct (scan (firstn m' w)) as [[c r]|] eqn:E; [|left; reflexivity].
      right. exists m', c, r. split; [lia|]. split; [exact E|reflexivity].
Qed.
Lemma scan_meta3 l : scan_meta l = match scan3 l with Some (a, b, c, r) => (a, b, c, match scan r with Some (1, _) => true | _ => false end) | None => scan_meta l end.
Proof. unfold scan_meta, scan3. destruct (scan l) as [[a l1]|]; [|reflexivity]. destruct (scan l1) as [[b l2]|]; [|reflexivity]. destruct (scan l2) as [[c l3]|]; reflexivity. Qed.
Lemma scan_meta_none l : scan3 l = None -> exists a b, scan_meta l = (a, b, 0, false).
Proof.
  unfold scan_meta, scan3. destruct (scan l) as [[a l1]|]; [|eauto]. destruct (scan l1) as [[b l2]|]; [|eauto]. destruct (scan l2) as [[c l3]|]; [discriminate|eauto].
Qed.
Lemma meta_scan rows cols d bc : scan_meta (meta_text rows cols d bc) = (rows, cols, d, bc).
Proof.
  unfold scan_meta, meta_text. rewrite scan_print by (right; eexists; reflexivity). rewrite scan_blank, scan_print by (right; eexists; reflexivity).
  rewrite scan_blank, scan_print by (right; eexists; reflexivity). rewrite scan_blank. rewrite <- (app_nil_r (print _)), scan_print by (left; reflexivity). destruct bc; reflexivity.
Qed.

(** *** Files *)
Lemma nth_error_ext {X} (l l' : list X) : (forall i, nth_error l i = nth_error l' i) -> l = l'.
Proof.
  revert l'. induction l as [|x l IH]; intros [|y l'] H; [reflexivity|discriminate (H 0)|discriminate (H 0)|].
  pose proof (H 0) as H0. cbn in H0. injection H0 as ->. f_equal. apply IH. intros i. exact (H (S i)).
Qed.
Section D.
Context {T : Type}.
Implicit Types (d : dir T).
Lemma events_app d l l' : apply_events d (l ++ l') = apply_events (apply_events d l) l'.
Proof. apply fold_left_app. Qed.
Lemma put_same d f x : put d f x f = Some x.
Proof. unfold put. destruct (file_eq_dec f f); [reflexivity|contradiction]. Qed.
Lemma put_other d f g x : g <> f -> put d f x g = d g.
Proof. intros H. unfold put. destruct (file_eq_dec g f); [contradiction|reflexivity]. Qed.
Definition writes (fts : list (file * T)) : list (event T) := concat (map (fun ft => [Open (fst ft); WriteTensor (fst ft) (snd ft)]) fts).
Lemma writes_cons f t fts : writes ((f, t) :: fts) = Open f :: WriteTensor f t :: writes fts.
Proof. reflexivity. Qed.
Lemma events_cons d e l : apply_events d (e :: l) = apply_events (apply_event d e) l.
Proof. reflexivity. Qed.
Lemma writes_other fts : forall n d g, ~ In g (map fst fts) -> apply_events d (firstn n (writes fts)) g = d g.
Proof.
  induction fts as [|[f t] fts IH]; intros n d g H; [destruct n; reflexivity|]. cbn [map In fst] in H. rewrite writes_cons.
  destruct n as [|[|n]]; cbn [firstn]; [reflexivity| |].
  - cbn. rewrite put_other by intuition. reflexivity.
  - rewrite !events_cons. rewrite IH by intuition. cbn [apply_event].
    rewrite !put_other by intuition. reflexivity.
Qed.
Lemma writes_length fts : length (writes fts) = 2 * length fts.
Proof. unfold writes. induction fts as [|[f t] fts IH]; [reflexivity|]. cbn [map concat]. rewrite app_length, IH. cbn [length]. lia. Qed.
Lemma writes_all fts : NoDup (map fst fts) -> forall d f t, In (f, t) fts -> apply_events d (writes fts) f = Some (Tensor t).
Proof.
  induction fts as [|[f t] fts IH]; intros ND d g u H; [destruct H|]. cbn [map fst] in ND. inversion ND as [|? ? Hn ND']; subst.
  rewrite writes_cons, !events_cons. cbn [apply_event].
  destruct H as [E|H]; [|apply IH; assumption]. injection E as <- <-.
  pose proof (writes_other fts (length (writes fts)) (put (put d f Torn) f (Tensor t)) f Hn) as Q. rewrite firstn_all in Q. rewrite Q. apply put_same.
Qed.
(** a dump that is cut leaves the last file unreadable *)
Lemma writes_cut fts f t : NoDup (map fst (fts ++ [(f, t)])) -> forall n d, n < 2 * length fts + 2 -> d f = None ->
  forall u, apply_events d (firstn n (writes (fts ++ [(f, t)]))) f <> Some (Tensor u).
Proof.
  intros ND n d Hn Hd u. rewrite map_app in ND. cbn [map fst] in ND. apply NoDup_remove in ND. destruct ND as [_ ND]. rewrite app_nil_r in ND.
  assert (E : writes (fts ++ [(f, t)]) = writes fts ++ [Open f; WriteTensor f t]) by (unfold writes; rewrite map_app, concat_app; reflexivity).
  rewrite E, firstn_app, events_app, writes_length. destruct (n - 2 * length fts) as [|[|k]] eqn:Ek; [| |lia]; cbn [firstn apply_events fold_left apply_event].
  - rewrite writes_other by exact ND. congruence.
  - rewrite put_same. discriminate.
Qed.
Lemma all_some_ok {X Y} (f : X -> option Y) g l : (forall x, In x l -> f x = Some (g x)) -> all_some f l = Some (map g l).
Proof. induction l as [|x l IH]; intros H; [reflexivity|]. cbn [all_some map]. rewrite H, IH by auto with datatypes. reflexivity. Qed.
Lemma all_some_none {X Y} (f : X -> option Y) l x : In x l -> f x = None -> all_some f l = None.
Proof. induction l as [|y l IH]; intros Hx H; [destruct Hx|]. cbn [all_some]. destruct Hx as [->|Hx]; [rewrite H; reflexivity|]. rewrite IH by assumption. destruct (f y); reflexivity. Qed.
Lemma meta_events d l m : apply_events d (firstn m (OpenMeta :: map WriteChar l)) MetaFile = (if m =? 0 then d MetaFile else Some (Text (firstn (m - 1) l))) /\
  forall g, g <> MetaFile -> apply_events d (firstn m (OpenMeta :: map WriteChar l)) g = d g.
Proof.
  destruct m as [|m]; [split; reflexivity|]. cbn [firstn Nat.eqb]. replace (S m - 1) with m by lia. rewrite events_cons. cbn [apply_event]. rewrite firstn_map.
  assert (G : forall l pre d, d MetaFile = Some (Text pre) -> apply_events d (map WriteChar l) MetaFile = Some (Text (pre ++ l)) /\ forall g, g <> MetaFile -> apply_events d (map WriteChar l) g = d g).
  { clear. induction l as [|c l IH]; intros pre d H; [rewrite app_nil_r; split; [exact H|reflexivity]|]. cbn [map]. rewrite events_cons. destruct (IH (pre ++ [c]) (apply_event d (WriteChar c))) as [A B]; [cbn [apply_event]; rewrite H, put_same; reflexivity|].
    split; [rewrite A, <- app_assoc; reflexivity|]. intros g Hg. rewrite B by exact Hg. cbn [apply_event]. apply put_other, Hg. }
  destruct (G (firstn m l) [] (put d MetaFile (Text []))) as [A B]; [apply put_same|]. split; [exact A|]. intros g Hg. rewrite B by exact Hg. apply put_other, Hg.
Qed.

Lemma map_r_ok {X Y} (f : X -> res Y) g l : (forall x, In x l -> f x = Ok (g x)) -> map_r f l = Ok (map g l).
Proof. induction l as [|x l IH]; intros H; [reflexivity|]. cbn [map_r map]. rewrite H by (left; reflexivity). cbn [bind]. rewrite IH by auto with datatypes. reflexivity. Qed.
Lemma triples_in rows cols k r c i : In (r, c, i) (triples rows cols k) <-> r < rows /\ c < cols /\ i < k.
Proof.
  unfold triples. rewrite in_flat_map. split.
  - intros (r' & Hr & H). apply in_flat_map in H. destruct H as (c' & Hc & H). apply in_map_iff in H. destruct H as (i' & E & Hi). apply in_seq in Hr, Hc, Hi. injection E as <- <- <-. lia.
  - intros (Hr & Hc & Hi). exists r. split; [apply in_seq; lia|]. apply in_flat_map. exists c. split; [apply in_seq; lia|]. apply in_map_iff. exists i. split; [reflexivity|apply in_seq; lia].
Qed.
Lemma triples_nodup rows cols k : NoDup (triples rows cols k).
Proof.
  assert (G : forall {X Y} (f : X -> list Y) l, NoDup l -> (forall x, NoDup (f x)) -> (forall x y z, In z (f x) -> In z (f y) -> x = y) -> NoDup (flat_map f l)).
  { clear. intros X Y f l ND Hf Hd. induction ND as [|x l Hx _ IH]; [constructor|]. cbn [flat_map]. specialize (Hf x). revert Hf.
    assert (D : forall z, In z (f x) -> ~ In z (flat_map f l)) by (intros z Hz H; apply in_flat_map in H; destruct H as (y & Hy & H); rewrite (Hd x y z Hz H) in Hx; contradiction).
    revert D. generalize (f x) as a. induction a as [|z a IHa]; intros D ND; [exact IH|]. inversion ND; subst. cbn [app]. constructor.
    - intros H. apply in_app_or in H. destruct H as [H|H]; [contradiction|exact (D z ltac:(left; reflexivity) H)].
    - apply IHa; [intros y Hy; apply D; right; exact Hy|assumption]. }
  unfold triples. apply G; [apply seq_NoDup| |].
  - intros r. apply G; [apply seq_NoDup| |].
    + intros c. apply FinFun.Injective_map_NoDup; [intros a b E; congruence|apply seq_NoDup].
    + intros c c' [[r0 c0] i0] A B. apply in_map_iff in A, B. destruct A as (i & E & _), B as (j & E' & _). congruence.
  - intros r r' [[r0 c0] i0] A B. apply in_flat_map in A, B. destruct A as (c & _ & A), B as (c' & _ & B). apply in_map_iff in A, B. destruct A as (i & E & _), B as (j & E' & _). congruence.
Qed.
Definition name (p : nat * nat * nat) : file := let '(r, c, k) := p in TenFile r c k.
Lemma name_inj p q : name p = name q -> p = q.
Proof. destruct p as [[r c] k], q as [[r' c'] k']. cbn. congruence. Qed.

Section V.
Variables (v : sitps T) (k : nat).
Hypothesis EV : even_state v k.
Lemma site_idx r c : r < p_rows v -> c < p_cols v -> exists s, idx (p_sites v) (r * p_cols v + c) = Ok s /\ In s (p_sites v) /\ nth_error (p_sites v) (r * p_cols v + c) = Some s.
Proof.
  intros Hr Hc. destruct EV as (_ & _ & _ & L & _). assert (B : r * p_cols v + c < length (p_sites v)) by (rewrite L; nia).
  destruct (nth_error (p_sites v) (r * p_cols v + c)) as [s|] eqn:E; [|apply nth_error_None in E; lia]. exists s. unfold idx. rewrite E. split; [reflexivity|]. split; [eapply nth_error_In; exact E|reflexivity].
Qed.
Lemma ten_ok p : In p (triples (p_rows v) (p_cols v) k) -> exists t, ten_at v p = Ok t.
Proof.
  destruct p as [[r c] i]. intros H. apply triples_in in H. destruct (site_idx r c) as (s & E & Hs & _); [lia|lia|]. unfold ten_at. rewrite E. cbn [bind].
  destruct EV as (_ & _ & _ & _ & D). specialize (D s Hs). unfold idx. destruct (nth_error s i) as [t|] eqn:Q; [eexists; reflexivity|]. apply nth_error_None in Q. lia.
Qed.
Lemma some_t : exists t : T, True.
Proof. destruct EV as (A & B & C & _). destruct (ten_ok (0, 0, 0)) as (t & _); [apply triples_in; lia|exists t; exact I]. Qed.
(** the files a dump writes, in order *)
Lemma dump_form : exists ten : nat * nat * nat -> T,
  (forall p, In p (triples (p_rows v) (p_cols v) k) -> ten_at v p = Ok (ten p)) /\
  dump v = Ok (writes (map (fun p => (name p, ten p)) (triples (p_rows v) (p_cols v) k)) ++ OpenMeta :: map WriteChar (meta_text (p_rows v) (p_cols v) k (p_bc v))).
Proof.
  destruct some_t as (t0 & _). exists (fun p => match ten_at v p with Ok t => t | Fail _ => t0 end).
  assert (H : forall p, In p (triples (p_rows v) (p_cols v) k) -> ten_at v p = Ok (match ten_at v p with Ok t => t | Fail _ => t0 end)) by (intros p Hp; destruct (ten_ok p Hp) as (t & ->); reflexivity).
  split; [exact H|]. unfold dump, phys_dim. assert (P : exists s, idx (p_sites v) 0 = Ok s /\ length s = k).
  { destruct EV as (A & B & _ & _ & D). destruct (site_idx 0 0) as (s & E & Hs & _); [lia|lia|]. exists s. split; [exact E|apply D, Hs]. }
  destruct P as (s & -> & Es). cbn [bind]. rewrite Es.
  rewrite (map_r_ok _ (fun p => [Open (name p); WriteTensor (name p) (match ten_at v p with Ok t => t | Fail _ => t0 end)])).
  - cbn [bind]. unfold writes. rewrite map_map. reflexivity.
  - intros [[r c] i] Hp. rewrite (H _ Hp) at 1. cbn [bind]. reflexivity.
Qed.
Lemma sites_read d ten : (forall p, In p (triples (p_rows v) (p_cols v) k) -> ten_at v p = Ok (ten p)) ->
  (forall p, In p (triples (p_rows v) (p_cols v) k) -> read_ten d p = Some (ten p)) -> read_sites d (p_rows v) (p_cols v) k = Some (p_sites v).
Proof.
  intros H R. unfold read_sites. rewrite (all_some_ok _ (fun rc => map (fun i => ten (fst rc, snd rc, i)) (seq 0 k))).
  - f_equal. destruct EV as (A & B & C & L & D). apply nth_ext with (d := []) (d' := []); [rewrite map_length, prod_length, !seq_length, L; reflexivity|].
    rewrite map_length, prod_length, !seq_length. intros n Hn.
    assert (Q : nth n (list_prod (seq 0 (p_rows v)) (seq 0 (p_cols v))) (0, 0) = (n / p_cols v, n mod p_cols v)).
    { clear - Hn. revert n Hn. assert (G : forall R C a n, n < R * C -> nth n (list_prod (seq a R) (seq 0 C)) (0, 0) = (a + n / C, n mod C)).
      { induction R as [|R IH]; intros C a n Hn; [lia|]. cbn [seq list_prod]. destruct (le_lt_dec C n) as [Hc|Hc].
        - rewrite app_nth2 by (rewrite map_length, seq_length; exact Hc). rewrite map_length, seq_length, IH by lia. assert (C <> 0) by lia.
          replace n with ((n - C) + 1 * C) at 3 4 by lia. rewrite Nat.div_add, Nat.mod_add by assumption. f_equal. lia.
        - rewrite app_nth1 by (rewrite map_length, seq_length; exact Hc). rewrite (nth_indep _ _ (a, 0)) by (rewrite map_length, seq_length; exact Hc).
          rewrite (map_nth (fun y => (a, y))), seq_nth by exact Hc. rewrite Nat.div_small, Nat.mod_small by exact Hc. f_equal. lia. }
      intros n Hn. rewrite G by exact Hn. reflexivity. }
    set (F := fun rc => map (fun i => ten (fst rc, snd rc, i)) (seq 0 k)).
    rewrite (nth_indep _ [] (F (0, 0))) by (rewrite map_length, prod_length, !seq_length; exact Hn). rewrite (map_nth F), Q. unfold F. cbn [fst snd].
    assert (Hr : n / p_cols v < p_rows v) by (apply Nat.div_lt_upper_bound; lia). assert (Hc : n mod p_cols v < p_cols v) by (apply Nat.mod_upper_bound; lia).
    pose proof (Nat.div_mod n (p_cols v) ltac:(lia)) as DM. destruct (site_idx (n / p_cols v) (n mod p_cols v) Hr Hc) as (s & Es & Hs & Ns).
    replace (n / p_cols v * p_cols v + n mod p_cols v) with n in * by lia. rewrite (nth_error_nth _ _ _ Ns).
    specialize (D s Hs). apply nth_error_ext. intros i. destruct (le_lt_dec k i) as [Hi|Hi].
    + rewrite (proj2 (nth_error_None _ _)) by (rewrite map_length, seq_length; exact Hi). symmetry. apply nth_error_None. lia.
    + specialize (H (n / p_cols v, n mod p_cols v, i) ltac:(apply triples_in; lia)). unfold ten_at in H. replace (n / p_cols v * p_cols v + n mod p_cols v) with n in H by lia.
      rewrite Es in H. cbn [bind] in H. unfold idx in H. rewrite nth_error_map. rewrite (nth_error_nth' (seq 0 k) 0) by (rewrite seq_length; exact Hi). rewrite seq_nth by exact Hi. cbn [option_map plus].
      destruct (nth_error s i); [congruence|discriminate].
  - intros [r c] Hp. cbn [fst snd]. rewrite (all_some_ok _ (fun i => ten (r, c, i))); [reflexivity|]. intros i Hi. apply R, triples_in. apply in_prod_iff in Hp. rewrite !in_seq in Hp. apply in_seq in Hi. lia.
Qed.
Lemma crash_cases n sr sc sb : exists evs, dump v = Ok evs /\
  let tens := 2 * (p_rows v * p_cols v * k) in
  length evs = tens + 1 + length (meta_text (p_rows v) (p_cols v) k (p_bc v)) /\
  (n <= tens + 1 -> load sr sc sb (crash n fresh evs) = None) /\
  (tens + 1 < n -> load sr sc sb (crash n fresh evs) =
     (let '(r, c, phy, bc) := scan_meta (firstn (n - tens - 1) (meta_text (p_rows v) (p_cols v) k (p_bc v))) in
      if phy =? 0 then None else match read_sites (crash n fresh evs) r c phy with Some ss => Some (mkS r c bc ss) | None => None end) /\
     read_sites (crash n fresh evs) (p_rows v) (p_cols v) k = Some (p_sites v)).
Proof.
  destruct dump_form as (ten & Ht & E). eexists. split; [exact E|]. cbn zeta.
  set (fts := map (fun p => (name p, ten p)) (triples (p_rows v) (p_cols v) k)). set (txt := meta_text (p_rows v) (p_cols v) k (p_bc v)).
  assert (LF : length fts = p_rows v * p_cols v * k).
  { unfold fts. rewrite map_length. unfold triples. generalize (p_rows v) as R. intros R. assert (G : forall l : list nat, length (flat_map (fun r => flat_map (fun c => map (fun i => (r, c, i)) (seq 0 k)) (seq 0 (p_cols v))) l) = length l * p_cols v * k).
    { induction l as [|r l IH]; [reflexivity|]. cbn [flat_map]. rewrite app_length, IH. cbn [length]. assert (Q : forall m : list nat, length (flat_map (fun c => map (fun i => (r, c, i)) (seq 0 k)) m) = length m * k).
      { induction m as [|c m IHm]; [reflexivity|]. cbn [flat_map]. rewrite app_length, map_length, seq_length, IHm. cbn [length]. lia. }
      rewrite Q, seq_length. lia. }
    rewrite G, seq_length. reflexivity. }
  assert (ND : NoDup (map fst fts)).
  { unfold fts. rewrite map_map. cbn [fst]. apply FinFun.Injective_map_NoDup; [intros a b; apply name_inj|apply triples_nodup]. }
  assert (NM : forall f, f = MetaFile \/ f = OldMetaFile -> ~ In f (map fst fts)).
  { intros f Hf H. unfold fts in H. rewrite map_map in H. apply in_map_iff in H. destruct H as ([[r c] i] & Q & _). cbn in Q. destruct Hf; subst; discriminate. }
  split; [rewrite app_length, writes_length, LF; cbn [length]; rewrite map_length; lia|].
  unfold crash. rewrite firstn_app, events_app, writes_length, LF. set (m := n - 2 * (p_rows v * p_cols v * k)).
  destruct (meta_events (apply_events fresh (firstn n (writes fts))) txt m) as [M1 M2]. set (dd := apply_events _ (firstn m _)) in *.
  assert (O : dd OldMetaFile = None) by (rewrite M2, writes_other by (discriminate || (apply NM; tauto)); reflexivity).
  rewrite writes_other in M1 by (apply NM; tauto).
  split.
  - intros Hn. unfold load. destruct (Nat.eqb_spec m 0) as [Em|Em].
    + rewrite M1. unfold fresh. rewrite O. reflexivity.
    + rewrite M1. replace (m - 1) with 0 by lia. reflexivity.
  - intros Hn. assert (Em : (m =? 0) = false) by (apply Nat.eqb_neq; lia). rewrite Em in M1. split.
    + unfold load. rewrite M1. replace (n - 2 * (p_rows v * p_cols v * k) - 1) with (m - 1) by reflexivity. destruct (scan_meta (firstn (m - 1) txt)) as [[[r c] phy] bc]. reflexivity.
    + apply (sites_read dd ten Ht). intros p Hp. unfold read_ten. destruct p as [[r c] i]. rewrite M2 by discriminate.
      rewrite firstn_all2 by (rewrite writes_length, LF; lia). rewrite (writes_all fts ND fresh (TenFile r c i) (ten (r, c, i))); [reflexivity|].
      unfold fts. apply in_map_iff. exists (r, c, i). split; [reflexivity|exact Hp].
Qed.
Lemma dump_roundtrip sr sc sb : exists evs, dump v = Ok evs /\ load sr sc sb (apply_events fresh evs) = Some v.
Proof.
  destruct (crash_cases (2 * (p_rows v * p_cols v * k) + 1 + length (meta_text (p_rows v) (p_cols v) k (p_bc v))) sr sc sb) as (evs & E & L & _ & H). cbn zeta in *. exists evs. split; [exact E|].
  assert (NE : 0 < length (meta_text (p_rows v) (p_cols v) k (p_bc v))) by (unfold meta_text; rewrite app_length; cbn [length]; lia).
  destruct H as [H1 H2]; [lia|]. unfold crash in *. rewrite firstn_all2 in * by lia. rewrite H1. rewrite firstn_all2 by lia. rewrite meta_scan, H2. destruct EV as (_ & _ & C & _).
  destruct (Nat.eqb_spec k 0); [lia|]. destruct v; reflexivity.
Qed.
Lemma dump_crash n sr sc sb : exists evs, dump v = Ok evs /\
  (n <= 2 * (p_rows v * p_cols v * k) + 1 \/ length evs <= n -> load sr sc sb (crash n fresh evs) = None \/ load sr sc sb (crash n fresh evs) = Some v).
Proof.
  destruct (crash_cases n sr sc sb) as (evs & E & L & H1 & H2). cbn zeta in *. exists evs. split; [exact E|]. intros [H|H]; [left; apply H1; exact H|]. right.
  destruct (dump_roundtrip sr sc sb) as (evs' & E' & R). rewrite E in E'. injection E' as <-. unfold crash. rewrite firstn_all2 by exact H. exact R.
Qed.
Lemma dump_crash_bytes n sr sc sb : p_bc v = false -> k < 10 -> exists evs, dump v = Ok evs /\
  (load sr sc sb (crash n fresh evs) = None \/ load sr sc sb (crash n fresh evs) = Some v).
Proof.
  intros OB K. destruct (crash_cases n sr sc sb) as (evs & E & L & H1 & H2). cbn zeta in *. exists evs. split; [exact E|].
  destruct (le_lt_dec n (2 * (p_rows v * p_cols v * k) + 1)) as [H|H]; [left; apply H1; exact H|]. destruct (H2 H) as [Q R]. rewrite Q. clear Q H1 H2.
  set (m := n - 2 * (p_rows v * p_cols v * k) - 1). rewrite OB. unfold meta_text.
  destruct (scan3_prefix (p_rows v) (p_cols v) (print k ++ Blank :: print (if false then 1 else 0)) m) as [N|(m' & c & r & _ & S & Q)]; cbn zeta in *.
  - destruct (scan_meta_none _ N) as (a & b & ->). left. reflexivity.
  - rewrite scan_meta3, Q. destruct (print_small k K) as (ch & KD). destruct m' as [|m']; [discriminate|].
    set (w := Blank :: print (if false then 1 else 0)) in *.
    assert (S' : scan (firstn (Datatypes.S m') (print k ++ w)) = Some (k, firstn m' w)).
    { rewrite <- (scan_print k (firstn m' w)); [rewrite KD; reflexivity|]. destruct m'; [left; reflexivity|right; eexists; reflexivity]. }
    rewrite S' in S. injection S as <- <-. destruct EV as (_ & _ & C & _). destruct (Nat.eqb_spec k 0); [lia|]. rewrite R. right.
    assert (B : match scan (firstn m' w) with Some (1, _) => true | _ => false end = false) by (destruct m' as [|[|m']]; [reflexivity|reflexivity|cbn; rewrite firstn_nil; reflexivity]).
    rewrite B. destruct v; cbn in OB |- *; subst; reflexivity.
Qed.
(** a complete dump over anything that is there *)
Lemma dump_over sr sc sb d : exists evs, dump v = Ok evs /\ load sr sc sb (apply_events d evs) = Some v.
Proof.
  destruct dump_form as (ten & Ht & E). eexists. split; [exact E|]. rewrite events_app.
  set (fts := map (fun p => (name p, ten p)) (triples (p_rows v) (p_cols v) k)). set (txt := meta_text (p_rows v) (p_cols v) k (p_bc v)).
  assert (ND : NoDup (map fst fts)).
  { unfold fts. rewrite map_map. cbn [fst]. apply FinFun.Injective_map_NoDup; [intros a b; apply name_inj|apply triples_nodup]. }
  destruct (meta_events (apply_events d (writes fts)) txt (Datatypes.S (length txt))) as [M1 M2].
  rewrite firstn_all2 in M1, M2 by (cbn [length]; rewrite map_length; lia). set (dd := apply_events _ (OpenMeta :: _)) in *.
  unfold load. rewrite M1. replace (Datatypes.S (length txt) - 1) with (length txt) by lia. cbn [Nat.eqb]. rewrite firstn_all. unfold txt. rewrite meta_scan.
  rewrite (sites_read dd ten Ht).
  - destruct EV as (_ & _ & C & _). destruct (Nat.eqb_spec k 0); [lia|]. destruct v; reflexivity.
  - intros [[r c] i] Hp. unfold read_ten. rewrite M2 by discriminate. rewrite (writes_all fts ND d (TenFile r c i) (ten (r, c, i))); [reflexivity|].
    unfold fts. apply in_map_iff. exists (r, c, i). split; [reflexivity|exact Hp].
Qed.
End V.
End D.
