(** Proofs about configurations. *)
From Coq Require Import String Ascii List Arith NArith Lia Bool Permutation.
From Verif Require Import Base ConfModel ConfSpec.
Import ListNotations.
Local Open Scope nat_scope.

(** *** Numbers as text *)
Lemma digit_code d : (d < 10)%N -> N_of_ascii (digit d) = (48 + d)%N.
Proof. intros H. unfold digit. apply N_ascii_embedding. lia. Qed.
Lemma digit_is d : (d < 10)%N -> is_digit (digit d) = true.
Proof. intros H. unfold is_digit. rewrite digit_code by exact H. apply andb_true_intro. split; apply N.leb_le; lia. Qed.
Definition val (a : N) (ds : text) : N := fold_left (fun a c => 10 * a + (N_of_ascii c - 48))%N ds a.
Lemma digits_spec fuel : forall n acc, 0 < fuel -> (n < 10 ^ N.of_nat fuel)%N ->
  exists ds, digits fuel n acc = ds ++ acc /\ Forall (fun c => is_digit c = true) ds /\ ds <> [] /\ val 0 ds = n.
Proof.
  induction fuel as [|f IH]; intros n acc Hf H; [lia|]. cbn [digits]. destruct (N.ltb_spec n 10) as [L|L].
  - exists [digit n]. split; [reflexivity|]. split; [constructor; [apply digit_is; exact L|constructor]|]. split; [discriminate|].
    unfold val. cbn [fold_left]. rewrite digit_code by exact L. replace (48 + n - 48)%N with n by lia. reflexivity.
  - assert (M : (n mod 10 < 10)%N) by (apply N.mod_lt; lia).
    assert (F0 : 0 < f). { destruct f; [|lia]. change (n < 10)%N in H. lia. }
    destruct (IH (n / 10)%N (digit (n mod 10) :: acc) F0) as (ds & A & B & C & D).
    { apply N.div_lt_upper_bound; [lia|]. rewrite Nat2N.inj_succ, N.pow_succ_r' in H. exact H. }
    exists (ds ++ [digit (n mod 10)]). rewrite A, <- app_assoc. split; [reflexivity|]. split; [apply Forall_app; split; [exact B|constructor; [apply digit_is; exact M|constructor]]|].
    split; [destruct ds; discriminate|]. unfold val in *. rewrite fold_left_app, D. cbn [fold_left]. rewrite digit_code by exact M.
    pose proof (N.div_mod n 10 ltac:(lia)) as Q. replace (48 + n mod 10 - 48)%N with (n mod 10)%N by (generalize (n mod 10)%N; intros; lia). symmetry. exact Q.
Qed.
Lemma render_spec n : Forall (fun c => is_digit c = true) (render n) /\ render n <> [] /\ val 0 (render n) = n.
Proof.
  unfold render. destruct (digits_spec (S (N.to_nat (N.log2 n))) n []) as (ds & A & B); [lia| |rewrite A, app_nil_r; exact B].
  rewrite Nat2N.inj_succ, N2Nat.id. destruct (N.eq_dec n 0) as [->|Z]; [reflexivity|].
  pose proof (N.log2_spec n ltac:(lia)) as [_ U]. eapply N.lt_le_trans; [exact U|]. apply N.pow_le_mono_l. lia.
Qed.
Lemma render_inj n m : render n = render m -> n = m.
Proof. intros E. destruct (render_spec n) as (_ & _ & A). destruct (render_spec m) as (_ & _ & B). congruence. Qed.
Definition no_digit_first (s : text) : Prop := match s with c :: _ => is_digit c = false | [] => True end.
Lemma take_digits_app ds : forall a b rest, Forall (fun c => is_digit c = true) ds -> no_digit_first rest ->
  take_digits (ds ++ rest) a b = (val a ds, match ds with [] => b | _ => true end, rest).
Proof.
  induction ds as [|c ds IH]; intros a b rest F R.
  - destruct rest as [|c rest]; [reflexivity|]. simpl in *. rewrite R. reflexivity.
  - inversion F as [|? ? Fc F']; subst. simpl. rewrite Fc, IH by assumption. destruct ds; reflexivity.
Qed.
Lemma digit_not_space c : is_digit c = true -> is_space c = false.
Proof. unfold is_digit, is_space. intros H. apply andb_prop in H. destruct H as [A B]. apply N.leb_le in A, B. apply orb_false_intro; [apply N.eqb_neq; lia|]. apply andb_false_intro2. apply N.leb_gt. lia. Qed.
Lemma digit_not_sign c : is_digit c = true -> (c =? "-")%char = false /\ (c =? "+")%char = false.
Proof. intros H. split; apply Ascii.eqb_neq; intros ->; discriminate H. Qed.
Lemma skip_spaces_app pre s : Forall (fun c => is_space c = true) pre -> skip_spaces (pre ++ s) = skip_spaces s.
Proof. induction 1 as [|c pre H F IH]; simpl; [reflexivity|]. rewrite H. exact IH. Qed.
Lemma extract_number pre n rest : Forall (fun c => is_space c = true) pre -> (n < limit)%N -> no_digit_first rest -> extract (pre ++ render n ++ rest) = Read n rest.
Proof.
  intros P L R. unfold extract. rewrite skip_spaces_app by exact P. destruct (render_spec n) as (A & B & C).
  destruct (render n) as [|c ds] eqn:E; [contradiction|]. pose proof (Forall_inv A) as Ac. cbn [app skip_spaces]. cbv beta in Ac. rewrite (digit_not_space c Ac).
  destruct (digit_not_sign c Ac) as [-> ->]. cbn [orb]. change (c :: ds ++ rest) with ((c :: ds) ++ rest). rewrite take_digits_app by assumption. cbn [negb].
  rewrite C. destruct (N.leb_spec limit n) as [Q|Q]; [lia|reflexivity].
Qed.
Lemma extract_spaces pre : Forall (fun c => is_space c = true) pre -> extract pre = Untouched.
Proof. intros P. unfold extract. rewrite <- (app_nil_r pre), skip_spaces_app by exact P. reflexivity. Qed.

(** *** Writing *)
Lemma for_res_app {X A} (l m : list X) (a : A) f : for_res (l ++ m) a f = (b <- for_res l a f;; for_res m b f).
Proof. revert a. induction l as [|x l IH]; intros a; simpl; [reflexivity|]. destruct (f a x); simpl; [apply IH|reflexivity]. Qed.
Lemma for_res_concat {X Y} (l : list X) (g : X -> list Y) (f : list Y -> X -> res (list Y)) : (forall out x, In x l -> f out x = Ok (out ++ g x)) ->
  forall out, for_res l out f = Ok (out ++ flat_map g l).
Proof.
  induction l as [|x l IH]; intros H out; simpl; [rewrite app_nil_r; reflexivity|]. rewrite H by (left; reflexivity). simpl. rewrite IH; [rewrite <- app_assoc; reflexivity|].
  intros o y Hy. apply H. right. exact Hy.
Qed.
Definition newline : ascii := ascii_of_N 10.
Definition sep (cols c : nat) : ascii := if S c =? cols then newline else " "%char.
Lemma sep_space cols c : is_space (sep cols c) = true /\ is_digit (sep cols c) = false.
Proof. unfold sep. destruct (S c =? cols); split; reflexivity. Qed.
Definition value_at (k : cfg) (p : nat * nat) : N := match c_cell k (fst p) (snd p) with Some n => n | None => 0 end.
Definition token (k : cfg) (p : nat * nat) : text := render (value_at k p) ++ [sep (c_cols k) (snd p)].
Lemma flat_map_flat_map {X Y Z} (f : Y -> list Z) (g : X -> list Y) l : flat_map f (flat_map g l) = flat_map (fun x => flat_map f (g x)) l.
Proof. induction l as [|x l IH]; simpl; [reflexivity|]. rewrite flat_map_app, IH. reflexivity. Qed.
Lemma flat_map_map {X Y Z} (f : Y -> list Z) (g : X -> Y) l : flat_map f (map g l) = flat_map (fun x => f (g x)) l.
Proof. induction l as [|x l IH]; simpl; [reflexivity|]. rewrite IH. reflexivity. Qed.
Lemma write_text k bound : filled bound k -> 0 < c_cols k -> stream_write k = Ok (flat_map (token k) (positions (c_rows k) (c_cols k))).
Proof.
  intros F C. unfold stream_write, positions. rewrite flat_map_flat_map. rewrite (for_res_concat _ (fun r => flat_map (token k) (map (fun c => (r, c)) (seq 0 (c_cols k))))); [reflexivity|].
  intros out r Hr. apply in_seq in Hr. unfold usub. assert (U : (c_cols k <? 1) = false) by (apply Nat.ltb_ge; lia). rewrite U. cbn [bind].
  assert (Cell : forall c, c < c_cols k -> cell_of k r c = Ok (value_at k (r, c))).
  { intros c Hc. unfold cell_of, value_at. cbn [fst snd]. destruct (F r c ltac:(lia) Hc) as (n & -> & _). reflexivity. }
  rewrite (for_res_concat _ (fun c => token k (r, c))).
  - cbn [bind]. rewrite Cell by lia. cbn [bind]. rewrite <- app_assoc. f_equal. f_equal. rewrite flat_map_map.
    replace (seq 0 (c_cols k)) with (seq 0 (c_cols k - 1) ++ [c_cols k - 1]) by (rewrite <- seq_S; f_equal; lia).
    rewrite flat_map_app. cbn [flat_map]. rewrite app_nil_r. f_equal. unfold token, sep. cbn [fst snd].
    replace (S (c_cols k - 1)) with (c_cols k) by lia. rewrite Nat.eqb_refl. reflexivity.
  - intros o c Hc. apply in_seq in Hc. rewrite Cell by lia. cbn [bind]. f_equal. f_equal. unfold token, sep. cbn [fst snd].
    assert (Q : (S c =? c_cols k) = false) by (apply Nat.eqb_neq; lia). rewrite Q. reflexivity.
Qed.

(** *** Reading *)
Definition set_all (k : cfg) (ps : list (nat * nat)) (f : nat -> nat -> option N) : nat -> nat -> option N :=
  fold_left (fun f p => set_c f (fst p) (snd p) (Some (value_at k p))) ps f.
Lemma token_rest k (p : nat * nat) ps junk : no_digit_first ([sep (c_cols k) (snd p)] ++ flat_map (token k) ps ++ junk).
Proof. simpl. apply sep_space. Qed.
Lemma read_tokens k ps : (forall p, In p ps -> (value_at k p < limit)%N) -> forall pre f tl, Forall (fun c => is_space c = true) pre ->
  read_cells ps (pre ++ flat_map (token k) ps ++ tl) f = inl (set_all k ps f).
Proof.
  induction ps as [|[r c] ps IH]; intros H pre f tl P; [reflexivity|]. cbn [read_cells flat_map]. unfold token at 1.
  replace (pre ++ ((render (value_at k (r, c)) ++ [sep (c_cols k) (snd (r, c))]) ++ flat_map (token k) ps) ++ tl)
     with (pre ++ render (value_at k (r, c)) ++ ([sep (c_cols k) c] ++ flat_map (token k) ps ++ tl)) by (rewrite <- !app_assoc; reflexivity).
  rewrite extract_number; [|exact P|apply H; left; reflexivity|apply (token_rest k (r, c))]. rewrite IH; [reflexivity| |].
  - intros p Hp. apply H. right. exact Hp.
  - constructor; [apply sep_space|constructor].
Qed.
Lemma in_positions rows cols r c : In (r, c) (positions rows cols) <-> r < rows /\ c < cols.
Proof.
  unfold positions. rewrite in_flat_map. split.
  - intros (x & A & B). apply in_map_iff in B. destruct B as (y & E & B). injection E as <- <-. apply in_seq in A, B. lia.
  - intros [A B]. exists r. split; [apply in_seq; lia|]. apply in_map_iff. exists c. split; [reflexivity|apply in_seq; lia].
Qed.
Lemma set_all_at k ps r c : forall f, set_all k ps f r c = if existsb (fun p => (fst p =? r) && (snd p =? c)) ps then Some (value_at k (r, c)) else f r c.
Proof.
  unfold set_all. induction ps as [|p ps IH]; intros f; [reflexivity|]. cbn [fold_left existsb]. rewrite IH. destruct (existsb _ ps); [rewrite orb_true_r; reflexivity|]. rewrite orb_false_r.
  unfold set_c. rewrite (Nat.eqb_sym r), (Nat.eqb_sym c). destruct (Nat.eqb_spec (fst p) r) as [<-|N]; [|reflexivity]. destruct (Nat.eqb_spec (snd p) c) as [<-|N]; [|reflexivity]. destruct p; reflexivity.
Qed.
Lemma set_all_config k k' bound : filled bound k -> same_shape k k' -> same_config (mkCfg (c_rows k') (c_cols k') (set_all k (positions (c_rows k') (c_cols k')) (c_cell k'))) k.
Proof.
  intros F [A B]. split; [split; simpl; congruence|]. simpl. intros r c Hr Hc. rewrite set_all_at.
  assert (E : existsb (fun p => (fst p =? r) && (snd p =? c)) (positions (c_rows k') (c_cols k')) = true).
  { apply existsb_exists. exists (r, c). split; [apply in_positions; auto|]. simpl. rewrite !Nat.eqb_refl. reflexivity. }
  rewrite E. unfold value_at. simpl. destruct (F r c ltac:(lia) ltac:(lia)) as (n & -> & _). reflexivity.
Qed.
Lemma value_bound k bound p : filled bound k -> In p (positions (c_rows k) (c_cols k)) -> (value_at k p < bound)%N.
Proof. destruct p as [r c]. intros F H. apply in_positions in H. destruct (F r c) as (n & A & B); [lia|lia|]. unfold value_at. simpl. rewrite A. exact B. Qed.

(** *** Files *)
Lemma text_eqb_spec a b : text_eqb a b = true <-> a = b.
Proof. unfold text_eqb. destruct (list_eq_dec ascii_dec a b); split; auto; discriminate. Qed.
Lemma text_eqb_refl a : text_eqb a a = true. Proof. apply text_eqb_spec. reflexivity. Qed.
Lemma text_eqb_neq a b : a <> b -> text_eqb a b = false.
Proof. intros H. destruct (text_eqb a b) eqn:E; [apply text_eqb_spec in E; contradiction|reflexivity]. Qed.
Definition target (e : event) : path := match e with Truncate p => p | Append p _ => p end.
Lemma apply_other es : forall d q, (forall e, In e es -> target e <> q) -> apply_events d es q = d q.
Proof.
  induction es as [|e es IH]; intros d q H; [reflexivity|]. unfold apply_events in *. cbn [fold_left]. rewrite IH by (intros e' He; apply H; right; exact He).
  assert (T : target e <> q) by (apply H; left; reflexivity). destruct e; cbn [effect target] in *; rewrite text_eqb_neq by congruence; reflexivity.
Qed.
Lemma apply_appends p s : forall d old, d p = Some old -> apply_events d (map (Append p) s) p = Some (old ++ s).
Proof.
  induction s as [|c s IH]; intros d old E; [rewrite app_nil_r; exact E|]. unfold apply_events in *. cbn [map fold_left]. rewrite (IH _ (old ++ [c])); [rewrite <- app_assoc; reflexivity|].
  simpl. rewrite text_eqb_refl, E. reflexivity.
Qed.
Lemma apply_app d es fs0 : apply_events d (es ++ fs0) = apply_events (apply_events d es) fs0.
Proof. apply fold_left_app. Qed.
Lemma apply_write p s d : apply_events d (write_file p s) p = Some s.
Proof. unfold write_file. change (apply_events (effect d (Truncate p)) (map (Append p) s) p = Some s). rewrite (apply_appends p s _ []); [reflexivity|]. simpl. rewrite text_eqb_refl. reflexivity. Qed.
Lemma write_target p s e : In e (write_file p s) -> target e = p.
Proof. intros [<-|H]; [reflexivity|]. apply in_map_iff in H. destruct H as (c & <- & _). reflexivity. Qed.
Lemma apply_write_other p s d q : p <> q -> apply_events d (write_file p s) q = d q.
Proof. intros H. apply apply_other. intros e He. rewrite (write_target p s e He). exact H. Qed.
(** a prefix of writing a file *)
Lemma apply_write_prefix p s d j : apply_events d (firstn (S j) (write_file p s)) p = Some (firstn j s).
Proof. unfold write_file. cbn [firstn]. rewrite firstn_map. apply (apply_write p (firstn j s) d). Qed.

(** *** Names *)
Lemma digits_tail (a b : text) x y ds es : Forall (fun c => is_digit c = true) ds -> Forall (fun c => is_digit c = true) es ->
  is_digit x = false -> is_digit y = false -> a ++ x :: ds = b ++ y :: es -> a = b /\ ds = es.
Proof.
  intros Fd Fe Hx Hy E. apply (f_equal (@rev _)) in E. rewrite !rev_app_distr in E. simpl in E. rewrite <- !app_assoc in E. simpl in E.
  apply Forall_rev in Fd. apply Forall_rev in Fe. assert (Q : rev ds = rev es /\ rev a = rev b).
  { revert Fd Fe E. generalize (rev ds) as u, (rev es) as v. induction u as [|p u IH]; intros v Fd Fe E.
    - destruct v as [|q v]; simpl in E; [injection E as _ E; auto|]. injection E as <- _. inversion Fe; congruence.
    - destruct v as [|q v]; simpl in E; injection E as E1 E2; inversion Fd; [congruence|]. inversion Fe; subst. destruct (IH v) as [-> ->]; auto. }
  destruct Q as [Q1 Q2]. split; [rewrite <- (rev_involutive a), Q2; apply rev_involutive|rewrite <- (rev_involutive ds), Q1; apply rev_involutive].
Qed.
Lemma data_path_inj dir dir' l l' : data_path dir l = data_path dir' l' -> dir = dir' /\ l = l'.
Proof.
  unfold data_path. intros E. change (str "/configuration") with (str "/configuratio" ++ ["n"%char]) in E. rewrite <- !app_assoc in E. cbn [app] in E.
  rewrite !app_assoc in E. apply digits_tail in E; [|apply render_spec|apply render_spec|reflexivity|reflexivity].
  destruct E as [A B]. apply app_inv_tail in A. apply render_inj in B. auto.
Qed.
Lemma shape_path_inj dir dir' l l' : shape_path dir l = shape_path dir' l' -> dir = dir' /\ l = l'.
Proof. unfold shape_path. intros E. apply app_inv_tail in E. apply data_path_inj. exact E. Qed.
Lemma data_not_shape dir dir' l l' : data_path dir l <> shape_path dir' l'.
Proof.
  unfold shape_path. intros E. change (str ".shape") with (str ".shap" ++ ["e"%char]) in E. rewrite app_assoc in E. unfold data_path in E at 1.
  destruct (render_spec l) as (A & B & _). destruct (exists_last B) as (ds & c & Ec). rewrite Ec in E, A. rewrite !app_assoc in E.
  apply app_inj_tail in E. destruct E as [_ E]. apply Forall_app in A. destruct A as [_ A]. inversion A; subst. discriminate.
Qed.

(** *** C26 *)
Definition shape_text (k : cfg) : text := render (N.of_nat (c_rows k)) ++ str " " ++ render (N.of_nat (c_cols k)) ++ [newline].
Lemma shape_text_ok (r c : N) k : (r < limit)%N -> (c < limit)%N -> shape_ok (render r ++ str " " ++ render c ++ [newline]) k = ((r =? N.of_nat (c_rows k)) && (c =? N.of_nat (c_cols k)))%N.
Proof.
  intros Hr Hc. unfold shape_ok. change (render r ++ str " " ++ render c ++ [newline]) with ([] ++ render r ++ str " " ++ render c ++ [newline]).
  rewrite extract_number; [|constructor|exact Hr|reflexivity]. rewrite (extract_number (str " ")); [reflexivity|constructor; [reflexivity|constructor]|exact Hc|reflexivity].
Qed.
Definition small (k : cfg) : Prop := (N.of_nat (c_rows k) < limit)%N /\ (N.of_nat (c_cols k) < limit)%N.
Lemma dump_events k dir label bound : filled bound k -> 0 < c_cols k ->
  dump k dir label = Ok (write_file (data_path dir label) (flat_map (token k) (positions (c_rows k) (c_cols k))) ++ write_file (shape_path dir label) (shape_text k)).
Proof. intros F C. unfold dump. rewrite (write_text k bound F C). reflexivity. Qed.
Theorem roundtrip d dir label k k' : 0 < c_cols k -> small k -> filled limit k -> same_shape k k' ->
  exists es k'', dump k dir label = Ok es /\ load (apply_events d es) dir label k' = (true, k'') /\ same_config k'' k.
Proof.
  intros C [S1 S2] F Sh. exists (write_file (data_path dir label) (flat_map (token k) (positions (c_rows k) (c_cols k))) ++ write_file (shape_path dir label) (shape_text k)). eexists. split; [exact (dump_events k dir label limit F C)|].
  unfold load. rewrite apply_app. rewrite apply_write. unfold shape_text at 1. rewrite shape_text_ok by assumption. destruct Sh as [A B]. rewrite A, B, !N.eqb_refl. cbn [negb andb].
  rewrite apply_write_other by (apply not_eq_sym, data_not_shape). rewrite apply_write. rewrite <- A, <- B.
  rewrite <- (app_nil_r (flat_map (token k) _)). change (flat_map (token k) (positions (c_rows k) (c_cols k)) ++ []) with ([] ++ flat_map (token k) (positions (c_rows k) (c_cols k)) ++ []).
  rewrite read_tokens; [|intros p Hp; exact (value_bound k limit p F Hp)|constructor].
  split; [reflexivity|]. rewrite A, B. apply (set_all_config k k' limit F). split; assumption.
Qed.
Theorem other_files d dir label dir' label' k es j k' : dump k dir label = Ok es -> (dir, label) <> (dir', label') ->
  load (apply_events d (firstn j es)) dir' label' k' = load d dir' label' k'.
Proof.
  intros E N. unfold dump in E. destruct (stream_write k) as [s|]; [|discriminate]. cbn [bind] in E.
  assert (E' : es = write_file (data_path dir label) s ++ write_file (shape_path dir label) (shape_text k)) by (injection E as E; symmetry; exact E). subst es. clear E.
  assert (Q : forall q, q <> data_path dir label -> q <> shape_path dir label ->
    apply_events d (firstn j (write_file (data_path dir label) s ++ write_file (shape_path dir label) (shape_text k))) q = d q).
  { intros q H1 H2. apply apply_other. intros e He. assert (He' : In e (write_file (data_path dir label) s ++ write_file (shape_path dir label) (shape_text k))).
    { rewrite <- (firstn_skipn j (write_file (data_path dir label) s ++ write_file (shape_path dir label) (shape_text k))). apply in_or_app. left. exact He. }
    apply in_app_or in He'. destruct He' as [He'|He']; rewrite (write_target _ _ _ He'); congruence. }
  unfold load.
  rewrite (Q (shape_path dir' label')), (Q (data_path dir' label')); [reflexivity| | | |].
  - intros W. apply data_path_inj in W. destruct W; subst; congruence.
  - apply data_not_shape.
  - apply not_eq_sym, data_not_shape.
  - intros W. apply shape_path_inj in W. destruct W; subst; congruence.
Qed.
Theorem mismatch d dir label k r c : (r < limit)%N -> (c < limit)%N ->
  d (shape_path dir label) = Some (render r ++ str " " ++ render c ++ [newline]) -> (r, c) <> (N.of_nat (c_rows k), N.of_nat (c_cols k)) ->
  load d dir label k = (false, k).
Proof.
  intros Hr Hc E N. unfold load. rewrite E, shape_text_ok by assumption. destruct (N.eqb_spec r (N.of_nat (c_rows k))) as [A|A]; [|reflexivity]. destruct (N.eqb_spec c (N.of_nat (c_cols k))) as [B|B]; [congruence|reflexivity].
Qed.
(** Fewer numbers than sites, then something that is not a number. *)
Definition not_a_number (s : text) : Prop := match skip_spaces s with c :: _ => is_digit c = false /\ c <> "-"%char /\ c <> "+"%char | [] => True end.
Lemma skip_spaces_le s : List.length (skip_spaces s) <= List.length s.
Proof. induction s as [|c s IH]; simpl; [lia|]. destruct (is_space c); simpl; lia. Qed.
Lemma extract_junk s : not_a_number s -> extract s = Untouched \/ extract s = Stored 0.
Proof.
  unfold not_a_number, extract. destruct (skip_spaces s) as [|c t]; [left; reflexivity|]. intros (A & B & C). right.
  apply Ascii.eqb_neq in B, C. rewrite B, C. cbn [orb take_digits]. rewrite A. reflexivity.
Qed.
Lemma read_junk ns : forall ps f junk pre, List.length ns < List.length ps -> (forall n, In n ns -> (n < limit)%N) -> not_a_number junk -> Forall (fun c => is_space c = true) pre ->
  exists f', read_cells ps (pre ++ flat_map (fun n => render n ++ str " ") ns ++ junk) f = inr f'.
Proof.
  induction ns as [|n ns IH]; intros ps f junk pre L H J P; destruct ps as [|[r c] ps]; simpl in L; try lia.
  - simpl. assert (J' : not_a_number (pre ++ junk)) by (unfold not_a_number in *; rewrite skip_spaces_app by exact P; exact J).
    destruct (extract_junk _ J') as [->| ->]; eauto.
  - cbn [read_cells flat_map]. replace (pre ++ ((render n ++ str " ") ++ flat_map (fun n => render n ++ str " ") ns) ++ junk)
      with (pre ++ render n ++ (str " " ++ flat_map (fun n => render n ++ str " ") ns ++ junk)) by (rewrite <- !app_assoc; reflexivity).
    rewrite extract_number; [|exact P|apply H; left; reflexivity|reflexivity]. apply IH; [lia| |exact J|constructor; [reflexivity|constructor]].
    intros m Hm. apply H. right. exact Hm.
Qed.
Lemma positions_length rows cols : List.length (positions rows cols) = rows * cols.
Proof.
  unfold positions. induction rows as [|r IH]; [reflexivity|]. rewrite seq_S, flat_map_app, app_length, IH. simpl. rewrite app_nil_r, map_length, seq_length. lia.
Qed.
Theorem damaged d dir label k ns junk : d (data_path dir label) = Some (flat_map (fun n => render n ++ str " ") ns ++ junk) ->
  List.length ns < c_rows k * c_cols k -> (forall n, In n ns -> (n < limit)%N) -> not_a_number junk -> fst (load d dir label k) = false.
Proof.
  intros E L H J. unfold load. destruct (match d (shape_path dir label) with Some s => negb (shape_ok s k) | None => false end); [reflexivity|]. rewrite E.
  destruct (read_junk ns (positions (c_rows k) (c_cols k)) (c_cell k) junk []) as (f' & Q); [rewrite positions_length; exact L|exact H|exact J|constructor|]. cbn [app] in Q. rewrite Q. reflexivity.
Qed.
(** One-character states: a truncated file never loads as something else. *)
Lemma render_digit n : (n < 10)%N -> render n = [digit n].
Proof. intros H. unfold render. cbn [digits]. apply N.ltb_lt in H. rewrite H. reflexivity. Qed.
Lemma ten_limit n : (n < 10)%N -> (n < limit)%N. Proof. intros H. apply (N.lt_trans _ 10); [exact H|reflexivity]. Qed.
Lemma read_prefix k ps : (forall p, In p ps -> (value_at k p < 10)%N) -> forall j pre f f', Forall (fun c => is_space c = true) pre ->
  read_cells ps (pre ++ firstn j (flat_map (token k) ps)) f = inl f' -> f' = set_all k ps f.
Proof.
  induction ps as [|[r c] ps IH]; intros H j pre f f' P E; [simpl in E; injection E as <-; reflexivity|].
  assert (V : (value_at k (r, c) < 10)%N) by (apply H; left; reflexivity). cbn [flat_map] in E. unfold token at 1 in E. rewrite (render_digit _ V) in E. cbn [app snd] in E.
  destruct j as [|[|j]].
  - cbn [firstn read_cells] in E. rewrite app_nil_r, extract_spaces in E by exact P. discriminate.
  - cbn [firstn read_cells] in E. rewrite <- (render_digit _ V), <- (app_nil_r (render _)) in E. rewrite extract_number in E; [|exact P|exact (ten_limit _ V)|exact I].
    destruct ps as [|[r' c'] ps]; [simpl in E; injection E as <-; reflexivity|]. discriminate.
  - cbn [firstn read_cells] in E. change (digit (value_at k (r, c)) :: sep (c_cols k) c :: firstn j (flat_map (token k) ps)) with ([digit (value_at k (r, c))] ++ ([sep (c_cols k) c] ++ firstn j (flat_map (token k) ps))) in E.
    rewrite <- (render_digit _ V) in E. rewrite extract_number in E; [|exact P|exact (ten_limit _ V)|apply sep_space].
    apply IH in E; [exact E|intros p Hp; apply H; right; exact Hp|constructor; [apply sep_space|constructor]].
Qed.
Theorem crash d dir label k k' es j : 0 < c_cols k -> filled 10 k -> same_shape k k' -> dump k dir label = Ok es ->
  0 < j -> forall k'', load (apply_events d (firstn j es)) dir label k' = (true, k'') -> same_config k'' k.
Proof.
  intros C F Sh E J k'' L. rewrite (dump_events k dir label 10 F C) in E.
  assert (E' : forall a b : list event, Ok a = Ok b -> a = b) by (intros a b Q; injection Q as Q; exact Q). apply E' in E. clear E'. subst es. unfold load in L.
  destruct (match _ with Some s => negb (shape_ok s k') | None => false end); [discriminate|].
  assert (D : exists i, apply_events d (firstn j (write_file (data_path dir label) (flat_map (token k) (positions (c_rows k) (c_cols k))) ++ write_file (shape_path dir label) (shape_text k))) (data_path dir label) = Some (firstn i (flat_map (token k) (positions (c_rows k) (c_cols k))))).
  { set (s := flat_map (token k) (positions (c_rows k) (c_cols k))). rewrite firstn_app, apply_app.
    assert (O : forall d0, apply_events d0 (firstn (j - List.length (write_file (data_path dir label) s)) (write_file (shape_path dir label) (shape_text k))) (data_path dir label) = d0 (data_path dir label)).
    { intros d0. apply apply_other. intros e He. assert (He' : In e (write_file (shape_path dir label) (shape_text k))).
      { rewrite <- (firstn_skipn (j - List.length (write_file (data_path dir label) s)) (write_file (shape_path dir label) (shape_text k))). apply in_or_app. left. exact He. }
      rewrite (write_target _ _ _ He'). apply not_eq_sym, data_not_shape. }
    rewrite O. destruct j as [|j]; [lia|]. exists j. apply apply_write_prefix. }
  destruct D as (i & D). rewrite D in L. pose proof Sh as [A B]. rewrite <- A, <- B in L.
  destruct (read_cells (positions (c_rows k) (c_cols k)) (firstn i (flat_map (token k) (positions (c_rows k) (c_cols k)))) (c_cell k')) as [f'|f'] eqn:Q; [|discriminate].
  injection L as <-. rewrite <- (app_nil_l (firstn i _)) in Q. apply read_prefix in Q; [|intros p Hp; exact (value_bound k 10 p F Hp)|constructor].
  subst f'. rewrite A, B. apply (set_all_config k k' 10 F Sh).
Qed.
