(** * TableProofs: printed tables are layouts of the printed automaton *)
From Coq Require Import List NArith Arith Bool Lia.
From Verif Require Import Base BaseLemmas Spec TableSpec LayoutSpec ParserModel ParserBasics FaParserProofs ValidateModel ValidateProofs TableModel.
Import ListNotations.

(** ** Tables *)
(** the cells of a row, each followed by at least one blank *)
Inductive row_text : list str -> str -> Prop :=
| row_text_nil : row_text [] []
| row_text_cons c b r u : blank1 b -> row_text r u -> row_text (c :: r) (c ++ b ++ u).

Lemma max_zip_length : forall l r, length (max_zip l r) = length l.
Proof. induction l as [|x l IH]; intros [|s r]; simpl; auto. Qed.

Definition rows_fit (t : table) : Prop := Forall (fun r => length r <= length (tb_row_len t)) (tb_rows t).

Lemma push_row_fit t row : rows_fit t -> rows_fit (push_row t row) /\ tb_rows (push_row t row) = tb_rows t ++ [row] /\
  length (tb_row_len t) <= length (tb_row_len (push_row t row)) /\ length row <= length (tb_row_len (push_row t row)).
Proof.
  intros H. unfold rows_fit, push_row in *. cbn [tb_row_len tb_rows]. rewrite max_zip_length.
  set (n := length (if _ <? _ then _ else _)).
  assert (Hn : length (tb_row_len t) <= n /\ length row <= n).
  { unfold n. destruct (Nat.ltb_spec (length (tb_row_len t)) (length row)).
    - rewrite app_length, repeat_length. lia.
    - lia. }
  split; [|split; [reflexivity|exact Hn]].
  apply Forall_app. split; [|repeat constructor; apply Hn].
  revert H. apply Forall_impl. intros r Hr. lia.
Qed.

Lemma push_rows rows : forall t, rows_fit t -> rows_fit (fold_left push_row rows t) /\
  tb_rows (fold_left push_row rows t) = tb_rows t ++ rows /\
  length (tb_row_len t) <= length (tb_row_len (fold_left push_row rows t)).
Proof.
  induction rows as [|r rows IH]; intros t H; simpl.
  - rewrite app_nil_r. auto.
  - destruct (push_row_fit t r H) as (H1 & H2 & H3 & _). destruct (IH _ H1) as (G1 & G2 & G3).
    split; auto. split; [rewrite G2, H2, <- app_assoc; reflexivity|lia].
Qed.

Lemma pad_text s l : exists b, blank1 b /\ pad s l ++ [32%N] = s ++ b.
Proof.
  unfold pad. destruct (length s <? l).
  - exists (repeat 32%N (l - length s) ++ [32%N]). rewrite <- app_assoc. split; auto. split.
    + intros c Hc. apply in_app_iff in Hc as [Hc|[<- |[]]]; auto. apply repeat_spec in Hc. auto.
    + intros E. apply app_eq_nil in E as [_ E]. discriminate.
  - exists [32%N]. split; auto. split; [|discriminate]. intros c [<- |[]]. auto.
Qed.

Lemma row_texts row : forall ws, length row <= length ws ->
  row_text row (concat (map (fun '(s, l) => pad s l ++ [32%N]) (combine row ws))).
Proof.
  induction row as [|s row IH]; intros [|w ws] Hl; simpl in *; try lia; try constructor.
  destruct (pad_text s w) as (b & Hb & ->). rewrite <- app_assoc. constructor; auto. apply IH. lia.
Qed.

Lemma table_text t : rows_fit t -> tb_row_len t <> [] ->
  exists texts, table_to_string t [32%N] = Ret (join [10%N] texts) /\ Forall2 row_text (tb_rows t) texts.
Proof.
  intros Hf Hn. unfold table_to_string.
  destruct (mapR_total (fun row => match tb_row_len t with
            | [] => Panic
            | _ => Ret (concat (map (fun '(s, l) => pad s l ++ [32%N])
                                 (combine row (firstn (length (tb_row_len t) - 1) (tb_row_len t) ++ [0]))))
            end) row_text (tb_rows t)) as (texts & E & HF).
  - intros row Hrow. destruct (tb_row_len t) as [|w ws] eqn:Ew; [congruence|].
    eexists. split; [reflexivity|]. apply row_texts. unfold rows_fit in Hf. rewrite Forall_forall in Hf. specialize (Hf row Hrow).
    rewrite app_length, firstn_length. cbn [length]. rewrite Ew in Hf. cbn [length] in *. lia.
  - rewrite E. cbn [bind]. exists texts. auto.
Qed.

(** ** Layouts of rows *)
Lemma blank_app b1 b2 : blank b1 -> blank b2 -> blank (b1 ++ b2).
Proof. intros H1 H2 c Hc. apply in_app_iff in Hc as [Hc|Hc]; auto. Qed.
Lemma blank1_app_r b1 b2 : blank b1 -> blank1 b2 -> blank1 (b1 ++ b2).
Proof.
  intros H1 (H2 & Hn). split; [apply blank_app; auto|]. intros E. apply app_eq_nil in E as [_ E]. auto.
Qed.

(** cells that hold the items of a list, in order, with the blank that ends the row split off *)
Lemma cells_sep_by {A} (I : A -> str -> Prop) : forall l cells u, Forall2 I l cells -> row_text cells u -> l <> [] ->
  exists v b, u = v ++ b /\ blank1 b /\ sep_by blank1 I l v.
Proof.
  induction l as [|a l IH]; intros cells u HF Hr Hn; [congruence|]. inversion HF as [|? c ? cells' Hc HF']; subst.
  inversion Hr as [|? b ? u' Hb Hr']; subst. destruct l as [|a' l].
  - inversion HF'; subst. inversion Hr'; subst. exists c, b. rewrite app_nil_r. split; auto. split; auto. constructor; auto.
  - destruct (IH cells' u' HF' Hr') as (v & b' & -> & Hb' & Hv); [discriminate|].
    exists (c ++ b ++ v), b'. rewrite <- !app_assoc. split; auto. split; auto. constructor; auto.
Qed.

Definition flag_cell (f : bool) (s : str) : str := if f then s else [].

Lemma line_cells {A} (I : A -> str -> Prop) (ini acc : bool) (arrow nm : str) l cells u :
  arrow_text arrow -> legal_token nm -> Forall2 I l cells -> l <> [] ->
  row_text (flag_cell ini arrow :: flag_cell acc star_str :: nm :: cells) u ->
  exists b0 st b ts b', u = (b0 ++ st ++ b ++ ts) ++ b' /\ blank b0 /\ blank1 b /\ blank b' /\
     line_start ini acc nm st /\ sep_by blank1 I l ts.
Proof.
  intros Ha Hl HF Hn Hr. inversion Hr as [|? b1 ? u1 Hb1 Hr1]; subst. inversion Hr1 as [|? b2 ? u2 Hb2 Hr2]; subst.
  inversion Hr2 as [|? b3 ? u3 Hb3 Hr3]; subst. destruct (cells_sep_by I l cells u3 HF Hr3 Hn) as (v & b' & -> & Hb' & Hv).
  destruct ini, acc; simpl.
  - exists [], (arrow ++ b1 ++ star_str ++ b2 ++ nm), b3, v, b'. simpl. rewrite <- !app_assoc. simpl. rewrite <- !app_assoc.
    split; auto. split; [apply blank_nil|]. split; auto. split; [apply Hb'|]. split; auto.
    exists (arrow ++ b1), (star_str ++ b2). rewrite <- !app_assoc. split; auto. split; [exists arrow, b1; auto|].
    split; auto. exists b2. auto.
  - exists [], (arrow ++ b1 ++ b2 ++ nm), b3, v, b'. simpl. rewrite <- !app_assoc.
    split; auto. split; [apply blank_nil|]. split; auto. split; [apply Hb'|]. split; auto.
    exists (arrow ++ b1 ++ b2), []. rewrite <- !app_assoc. split; auto. split; [|auto].
    exists arrow, (b1 ++ b2). split; auto. split; auto. apply blank1_app_r; auto. apply Hb1.
  - exists b1, (star_str ++ b2 ++ nm), b3, v, b'. simpl. rewrite <- !app_assoc. simpl. rewrite <- !app_assoc.
    split; auto. split; [apply Hb1|]. split; auto. split; [apply Hb'|]. split; auto.
    exists [], (star_str ++ b2). rewrite <- !app_assoc. split; auto. split; [auto|].
    split; auto. exists b2. auto.
  - exists (b1 ++ b2), nm, b3, v, b'. simpl. rewrite <- !app_assoc.
    split; auto. split; [apply blank_app; [apply Hb1|apply Hb2]|]. split; auto. split; [apply Hb'|]. split; auto.
    exists [], []. auto.
Qed.

Lemma head_cells {A} (I : A -> str -> Prop) l cells u : Forall2 I l cells -> l <> [] ->
  row_text ([] :: [] :: [] :: cells) u ->
  exists b ts b', u = (b ++ ts) ++ b' /\ blank b /\ blank b' /\ sep_by blank1 I l ts.
Proof.
  intros HF Hn Hr. inversion Hr as [|? b1 ? u1 Hb1 Hr1]; subst. inversion Hr1 as [|? b2 ? u2 Hb2 Hr2]; subst.
  inversion Hr2 as [|? b3 ? u3 Hb3 Hr3]; subst. destruct (cells_sep_by I l cells u3 HF Hr3 Hn) as (v & b' & -> & Hb' & Hv).
  exists (b1 ++ b2 ++ b3), v, b'. simpl. rewrite <- !app_assoc. split; auto.
  split; [apply blank_app; [apply Hb1|apply blank_app; [apply Hb2|apply Hb3]]|]. split; [apply Hb'|auto].
Qed.

(** lines joined by line feeds *)
Lemma join_lines {A} (LT : A -> str -> Prop) : forall l texts, l <> [] ->
  Forall2 (fun a u => exists v b, u = v ++ b /\ blank b /\ LT a v) l texts ->
  exists body b, join [10%N] texts = body ++ b /\ blank b /\ sep_by junk1 LT l body.
Proof.
  induction l as [|a l IH]; intros texts Hn HF; [congruence|]. inversion HF as [|? u ? texts' (v & b & -> & Hb & Hv) HF']; subst.
  destruct l as [|a' l].
  - inversion HF'; subst. simpl. exists v, b. split; auto. split; auto. constructor; auto.
  - destruct (IH texts') as (body & b' & E & Hb' & Hbody); [discriminate|auto|].
    inversion HF'; subst. cbn [join] in *. rewrite E. exists (v ++ (b ++ [10%N]) ++ body), b'.
    rewrite <- !app_assoc. split; auto. split; auto.
    replace (v ++ b ++ [10%N] ++ body) with (v ++ (b ++ [10%N]) ++ body) by (rewrite <- app_assoc; reflexivity).
    constructor; auto. exists (b ++ [10%N]), []. rewrite app_nil_r. split; auto. split; auto.
    exists b, [10%N]. split; auto. split; [apply trail_blank; auto|left; auto].
Qed.

Lemma join_cons x y l : join [10%N] (x :: y :: l) = x ++ [10%N] ++ join [10%N] (y :: l).
Proof. reflexivity. Qed.

Lemma table_full {Hd L} (HT : Hd -> str -> Prop) (LT : L -> str -> Prop) h l htext texts : l <> [] ->
  (exists u b, htext = u ++ b /\ blank b /\ HT h u) ->
  Forall2 (fun a u => exists v b, u = v ++ b /\ blank b /\ LT a v) l texts ->
  exists j0 hd j1 body j2 t, join [10%N] (htext :: texts) = j0 ++ hd ++ j1 ++ body ++ j2 ++ t /\
    junk j0 /\ HT h hd /\ junk1 j1 /\ sep_by junk1 LT l body /\ junk j2 /\ trail t.
Proof.
  intros Hn (u & b & -> & Hb & Hu) HF. destruct (join_lines LT l texts Hn HF) as (body & b' & E & Hb' & Hbody).
  destruct texts as [|t0 texts]; [inversion HF; subst; congruence|].
  rewrite join_cons. unfold str in *.
  rewrite E.
  exists [], u, (b ++ [10%N]), body, [], b'. rewrite <- !app_assoc. split; auto.
  split; [exists []; auto|]. split; auto. split.
  - exists (b ++ [10%N]), []. rewrite app_nil_r. split; auto. split; auto. exists b, [10%N]. split; auto.
    split; [apply trail_blank; auto|left; auto].
  - split; auto. split; [exists []; auto|]. apply trail_blank; auto.
Qed.

Lemma Forall2_map_self {A B} (P : B -> A -> Prop) (f : A -> B) l : (forall x, In x l -> P (f x) x) -> Forall2 P (map f l) l.
Proof.
  induction l as [|x l IH]; intros H; simpl; constructor.
  - apply H. left; auto.
  - apply IH. intros y Hy. apply H. right; auto.
Qed.

(** ** DFAs *)
Definition dfa_name (d : dfa) (q : nat) : str := match nth_error (dfa_states d) q with Some s => ds_name s | None => [] end.
Definition dfa_parsed (d : dfa) : parsed_dfa :=
  {| pd_head := dfa_alphabet d;
     pd_states := map (fun s => {| pds_name := ds_name s; pds_initial := ds_initial s; pds_accepting := ds_accepting s;
                                   pds_transitions := map (dfa_name d) (ds_transitions s) |}) (dfa_states d) |}.

Definition dfa_legal (d : dfa) : Prop :=
  Forall legal_token (dfa_alphabet d) /\ Forall (fun s => legal_token (ds_name s)) (dfa_states d).

Lemma dfa_parsed_names d : map pds_name (pd_states (dfa_parsed d)) = map ds_name (dfa_states d).
Proof. unfold dfa_parsed. cbn [pd_states]. rewrite map_map. reflexivity. Qed.

Lemma dfa_parsed_named d (V : dfa_valid d) t : t < length (dfa_states d) -> dfa_named (dfa_parsed d) (dfa_name d t) t.
Proof.
  intros Ht. apply nth_error_Some in Ht. unfold dfa_named, dfa_name, dfa_parsed. cbn [pd_states]. rewrite nth_error_map.
  destruct (nth_error (dfa_states d) t) as [s|]; [|congruence]. eexists. split; reflexivity.
Qed.

Lemma dfa_parsed_denotes d : dfa_valid d -> dfa_denotes (dfa_parsed d) d /\ dfa_well_formed (dfa_parsed d).
Proof.
  intros V. split.
  - split; [reflexivity|]. split.
    + unfold dfa_parsed at 2. cbn [pd_states].
      assert (HI : forall s, In s (dfa_states d) -> Forall2 (dfa_named (dfa_parsed d)) (map (dfa_name d) (ds_transitions s)) (ds_transitions s)).
      { intros s Hs. apply In_nth_error in Hs as (q & Hq). pose proof (dv_range d V q s) as Hr. revert Hr.
        generalize (ds_transitions s) as ts. induction ts as [|t ts IH]; intros Hr; simpl; constructor.
        - apply dfa_parsed_named; auto. apply Hr; auto. left; auto.
        - apply IH. intros t' H1 H2. apply Hr; auto. right; auto. }
      apply Forall2_map_self. intros s Hs. simpl. repeat split; auto.
    + pose proof (dv_initial d V) as Hi. apply nth_error_Some in Hi.
      destruct (nth_error (dfa_states d) (dfa_initial d)) as [s|] eqn:E; [|congruence].
      unfold dfa_parsed. cbn [pd_states]. rewrite nth_error_map, E. eexists. split; [reflexivity|]. simpl.
      apply (dv_flag d V _ _ E). reflexivity.
  - constructor.
    + apply not_repeated_NoDup. apply (dv_alphabet d V).
    + rewrite dfa_parsed_names. apply not_repeated_NoDup. apply (dv_names d V).
    + intros s Hs. apply in_map_iff in Hs as (s' & <- & Hs'). simpl. rewrite map_length.
      apply In_nth_error in Hs' as (q & Hq). exact (dv_width d V q s' Hq).
    + rewrite dfa_parsed_names. intros s t Hs Ht. apply in_map_iff in Hs as (s' & <- & Hs'). simpl in Ht.
      apply in_map_iff in Ht as (q & <- & Hq). apply In_nth_error in Hs' as (p & Hp).
      pose proof (dv_range d V p s' q Hp Hq) as Hlt. apply nth_error_Some in Hlt. unfold dfa_name.
      destruct (nth_error (dfa_states d) q) as [s|] eqn:E; [|congruence]. apply in_map. eapply nth_error_In; eauto.
    + exists (dfa_initial d). unfold dfa_parsed. cbn [pd_states]. rewrite map_length. split; [apply (dv_initial d V)|].
      intros j x Hx. rewrite nth_error_map in Hx. destruct (nth_error (dfa_states d) j) as [s|] eqn:E; [|discriminate].
      injection Hx as <-. simpl. apply (dv_flag d V _ _ E).
Qed.

Lemma Forall2_legal l : Forall legal_token l -> Forall2 token_text l l.
Proof. induction 1; constructor; auto. split; auto. Qed.

Lemma dfa_gen_table_text d arrow : dfa_valid d -> dfa_legal d -> dfa_alphabet d <> [] -> arrow_text arrow ->
  exists u, dfa_gen_table d arrow = Ret u /\ dfa_text (dfa_parsed d) u.
Proof.
  intros V (Hla & Hls) Hn Ha. unfold dfa_gen_table.
  set (row := fun s => [flag_cell (ds_initial s) arrow; flag_cell (ds_accepting s) star_str; ds_name s] ++ map (dfa_name d) (ds_transitions s)).
  assert (E : forall l t, (forall s, In s l -> In s (dfa_states d)) ->
    foldR (fun t s =>
             names <- mapR (fun c => x <- index (dfa_states d) c ;; Ret (ds_name x)) (ds_transitions s) ;;
             Ret (push_row t ([if ds_initial s then arrow else []; if ds_accepting s then star_str else []; ds_name s] ++ names)))
           t l = Ret (fold_left push_row (map row l) t)).
  { induction l as [|s l IH]; intros t Hl; cbn [foldR map fold_left]; auto.
    rewrite (mapR_pure _ (dfa_name d)).
    - cbn [bind]. apply IH. intros s' Hs'. apply Hl. right; auto.
    - intros c Hc. assert (Hs : In s (dfa_states d)) by (apply Hl; left; auto).
      apply In_nth_error in Hs as (q & Hq). pose proof (dv_range d V q s c Hq Hc) as Hlt. apply nth_error_Some in Hlt.
      unfold dfa_name. destruct (nth_error (dfa_states d) c) as [s'|] eqn:Ec; [|congruence].
      rewrite (index_Some _ _ _ Ec). reflexivity. }
  rewrite E by auto. cbn [bind].
  change (fold_left push_row (map row (dfa_states d)) (push_row table_default ([[]; []; []] ++ dfa_alphabet d)))
    with (fold_left push_row (([[]; []; []] ++ dfa_alphabet d) :: map row (dfa_states d)) table_default).
  assert (Hf0 : rows_fit table_default) by constructor.
  destruct (push_rows (([[]; []; []] ++ dfa_alphabet d) :: map row (dfa_states d)) table_default Hf0) as (Hf & Hr & _).
  destruct (table_text _ Hf) as (texts & Et & HF).
  { intros Hnil. unfold rows_fit in Hf. rewrite Hnil, Hr in Hf. inversion Hf; subst. simpl in *. lia. }
  rewrite Et. eexists. split; [reflexivity|]. rewrite Hr in HF. simpl in HF. inversion HF as [|? htext ? texts' Hh HF']; subst.
  apply (table_full dfa_head_text dfa_line_text (pd_head (dfa_parsed d)) (pd_states (dfa_parsed d))).
  - unfold dfa_parsed. cbn [pd_states]. pose proof (dv_initial d V). destruct (dfa_states d); simpl in *; [lia|discriminate].
  - destruct (head_cells token_text (dfa_alphabet d) _ _ (Forall2_legal _ Hla) Hn Hh) as (b & ts & b' & -> & Hb & Hb' & Hts).
    exists (b ++ ts), b'. split; auto. split; auto. exists b, ts. auto.
  - clear -HF' V Hls Ha Hn. unfold dfa_parsed. cbn [pd_states].
    assert (Hin : forall s, In s (dfa_states d) -> In s (dfa_states d)) by auto. revert Hin HF'.
    generalize texts'. generalize (dfa_states d) at 1 3 4 as l. induction l as [|s l IH]; intros us Hin HF'; inversion HF' as [|? u ? us' Hu HF'']; subst; simpl; constructor.
    + assert (Hs : In s (dfa_states d)) by (apply Hin; left; auto).
      assert (Hlegal : Forall legal_token (map (dfa_name d) (ds_transitions s))).
      { apply Forall_forall. intros x Hx. apply in_map_iff in Hx as (q & <- & Hq). apply In_nth_error in Hs as (p & Hp).
        pose proof (dv_range d V p s q Hp Hq) as Hlt. apply nth_error_Some in Hlt. unfold dfa_name.
        destruct (nth_error (dfa_states d) q) as [s'|] eqn:Eq; [|congruence]. rewrite Forall_forall in Hls. apply Hls.
        eapply nth_error_In; eauto. }
      destruct (line_cells token_text (ds_initial s) (ds_accepting s) arrow (ds_name s) (map (dfa_name d) (ds_transitions s)) (map (dfa_name d) (ds_transitions s)) u Ha) as (b0 & st & b & ts & b' & -> & Hb0 & Hb & Hb' & Hst & Hts).
      * rewrite Forall_forall in Hls. auto.
      * apply Forall2_legal; eauto.
      * intros E. apply map_eq_nil in E. apply In_nth_error in Hs as (p & Hp). pose proof (dv_width d V p s Hp) as Hw.
        rewrite E in Hw. destruct (dfa_alphabet d); [congruence|discriminate].
      * exact Hu.
      * exists (b0 ++ st ++ b ++ ts), b'. split; auto. split; auto. exists b0, st, b, ts. auto.
    + apply IH; auto. intros s' Hs'. apply Hin. right; auto.
Qed.

Theorem dfa_table_roundtrip d arrow : dfa_valid d -> dfa_legal d -> dfa_alphabet d <> [] -> arrow_text arrow ->
  exists u p, dfa_gen_table d arrow = Ret u /\ parse_dfa u = Ret (Some p) /\ dfa_try_from p = Ok d.
Proof.
  intros V Hl Hn Ha. destruct (dfa_gen_table_text d arrow V Hl Hn Ha) as (u & E & Ht). exists u, (dfa_parsed d).
  split; auto. split; [apply parse_dfa_iff; auto|]. destruct (dfa_parsed_denotes d V) as (D & W).
  destruct (dfa_try_from_complete _ W) as (d' & E'). rewrite E'. f_equal. apply (dfa_denotes_unique (dfa_parsed d)); auto.
  apply (dfa_try_from_ok _ _ E').
Qed.

(** ** NFAs *)
Definition nfa_name (n : nfa) (q : nat) : str := match nth_error (nfa_states n) q with Some s => ns_name s | None => [] end.
Definition nfa_parsed (n : nfa) : parsed_nfa :=
  {| pn_head := Eps :: map Element (nfa_alphabet n);
     pn_states := map (fun s => {| pns_name := ns_name s; pns_initial := ns_initial s; pns_accepting := ns_accepting s;
                                   pns_transitions := map (map (nfa_name n)) (ns_eps s :: ns_transitions s) |}) (nfa_states n) |}.

Definition nfa_legal (n : nfa) : Prop :=
  Forall legal_token (nfa_alphabet n) /\ Forall (fun s => legal_token (ns_name s)) (nfa_states n).

Lemma nfa_parsed_names n : map pns_name (pn_states (nfa_parsed n)) = map ns_name (nfa_states n).
Proof. unfold nfa_parsed. cbn [pn_states]. rewrite map_map. reflexivity. Qed.

Lemma nfa_parsed_named n t : t < length (nfa_states n) -> nfa_named (nfa_parsed n) (nfa_name n t) t.
Proof.
  intros Ht. apply nth_error_Some in Ht. unfold nfa_named, nfa_name, nfa_parsed. cbn [pn_states]. rewrite nth_error_map.
  destruct (nth_error (nfa_states n) t) as [s|]; [|congruence]. eexists. split; reflexivity.
Qed.
Lemma nfa_parsed_named_list n ts : (forall t, In t ts -> t < length (nfa_states n)) ->
  Forall2 (nfa_named (nfa_parsed n)) (map (nfa_name n) ts) ts.
Proof.
  induction ts as [|t ts IH]; intros Hr; simpl; constructor.
  - apply nfa_parsed_named. apply Hr. left; auto.
  - apply IH. intros t' H. apply Hr. right; auto.
Qed.

Lemma element_columns_all {A} (al : list str) : forall row : list A, length row = length al -> element_columns (map Element al) row = row.
Proof. induction al as [|a al IH]; intros [|c row] Hl; simpl in *; try discriminate; auto. rewrite IH; auto. Qed.
Lemma eps_repeated al : ~ repeated Eps (map Element al).
Proof.
  intros (i & j & _ & Hi & _). rewrite nth_error_map in Hi. destruct (nth_error al i); discriminate.
Qed.

Lemma nfa_parsed_denotes n : nfa_valid n -> nfa_denotes (nfa_parsed n) n /\ nfa_well_formed (nfa_parsed n).
Proof.
  intros V.
  assert (Hel : elements (pn_head (nfa_parsed n)) = nfa_alphabet n).
  { simpl. unfold elements. simpl. induction (nfa_alphabet n) as [|a l IH]; simpl; auto. f_equal. auto. }
  split.
  - split; [auto|]. split.
    + unfold nfa_parsed at 4. cbn [pn_states].
      assert (HI : forall s, In s (nfa_states n) ->
         length (ns_transitions s) = length (nfa_alphabet n) /\
         Forall2 (Forall2 (nfa_named (nfa_parsed n))) (map (map (nfa_name n)) (ns_transitions s)) (ns_transitions s) /\
         Forall2 (nfa_named (nfa_parsed n)) (map (nfa_name n) (ns_eps s)) (ns_eps s)).
      { intros s Hs. apply In_nth_error in Hs as (q & Hq). split; [exact (nv_width n V q s Hq)|]. split.
        - pose proof (fun ts t => nv_range n V q s ts t Hq) as Hr. revert Hr.
          generalize (ns_transitions s) as tss. induction tss as [|ts tss IH]; intros Hr; simpl; constructor.
          + apply nfa_parsed_named_list. intros t Ht. apply (Hr ts t); auto. left; auto.
          + apply IH. intros ts' t H1 H2. apply (Hr ts' t); auto. right; auto.
        - apply nfa_parsed_named_list. intros t Ht. exact (nv_eps_range n V q s t Hq Ht). }
      apply Forall2_map_self. intros s Hs. destruct (HI s Hs) as (Hw & Ht & He). simpl. repeat split; auto.
      rewrite element_columns_all; [auto|]. rewrite map_length. auto.
    + pose proof (nv_initial n V) as Hi. apply nth_error_Some in Hi.
      destruct (nth_error (nfa_states n) (nfa_initial n)) as [s|] eqn:E; [|congruence].
      unfold nfa_parsed. cbn [pn_states]. rewrite nth_error_map, E. eexists. split; [reflexivity|]. simpl.
      apply (nv_flag n V _ _ E). reflexivity.
  - constructor.
    + apply elements_NoDup. rewrite Hel. apply (nv_alphabet n V).
    + simpl. intros (i & j & Hij & Hi & Hj). destruct i as [|i], j as [|j]; simpl in *; try lia.
      * rewrite nth_error_map in Hj. destruct (nth_error (nfa_alphabet n) j); discriminate.
      * rewrite nth_error_map in Hi. destruct (nth_error (nfa_alphabet n) i); discriminate.
      * apply (eps_repeated (nfa_alphabet n)). exists i, j. auto.
    + rewrite nfa_parsed_names. apply not_repeated_NoDup. apply (nv_names n V).
    + intros s Hs. apply in_map_iff in Hs as (s' & <- & Hs'). simpl. rewrite !map_length. f_equal.
      apply In_nth_error in Hs' as (q & Hq). exact (nv_width n V q s' Hq).
    + rewrite nfa_parsed_names. intros s ts t Hs Hts Ht. apply in_map_iff in Hs as (s' & <- & Hs').
      cbn [pns_transitions] in Hts. apply in_map_iff in Hts as (qs & <- & Hqs).
      apply in_map_iff in Ht as (q & <- & Hq). apply In_nth_error in Hs' as (p & Hp).
      assert (Hlt : q < length (nfa_states n)).
      { destruct Hqs as [<- |Hqs]; [exact (nv_eps_range n V p s' q Hp Hq)|exact (nv_range n V p s' qs q Hp Hqs Hq)]. }
      apply nth_error_Some in Hlt. unfold nfa_name.
      destruct (nth_error (nfa_states n) q) as [s|] eqn:E; [|congruence]. apply in_map. eapply nth_error_In; eauto.
    + exists (nfa_initial n). unfold nfa_parsed. cbn [pn_states]. rewrite map_length. split; [apply (nv_initial n V)|].
      intros j x Hx. rewrite nth_error_map in Hx. destruct (nth_error (nfa_states n) j) as [s|] eqn:E; [|discriminate].
      injection Hx as <-. simpl. apply (nv_flag n V _ _ E).
Qed.

Lemma join_tokens l : Forall legal_token l -> l <> [] -> sep_by blank1 token_text l (join [32%N] l).
Proof.
  intros HF. induction HF as [|t l Ht HF IH]; intros Hn; [congruence|]. destruct l as [|t' l].
  - simpl. constructor. split; auto.
  - assert (Hb : blank1 [32%N]) by (split; [intros c [<- |[]]; auto|discriminate]).
    exact (sep_by_more blank1 token_text t t [32%N] (t' :: l) (join [32%N] (t' :: l)) (conj Ht eq_refl) Hb (IH ltac:(discriminate))).
Qed.
Lemma set_string ts : Forall legal_token ts -> set_text ts ([123%N] ++ join [32%N] ts ++ [125%N]).
Proof.
  intros HF. exists [], (join [32%N] ts), []. split; auto. split; [apply blank_nil|]. split; [apply blank_nil|].
  destruct ts as [|t ts]; auto. right. apply join_tokens; auto. discriminate.
Qed.

Lemma entries_text eps al : (eps = eps_str \/ eps = ascii_eps_str) -> Forall legal_token al ->
  Forall2 entry_text (Eps :: map Element al) (eps :: al).
Proof.
  intros He HF. constructor; [exact He|]. induction HF; simpl; constructor; auto. split; auto.
Qed.

Definition set_str (n : nfa) (ts : list nat) : str := [123%N] ++ join [32%N] (map (nfa_name n) ts) ++ [125%N].
Definition set_strs (n : nfa) (s : nfa_state) : list str := map (set_str n) (ns_eps s :: ns_transitions s).

Lemma nfa_gen_table_text n eps arrow : nfa_valid n -> nfa_legal n -> (eps = eps_str \/ eps = ascii_eps_str) -> arrow_text arrow ->
  exists u, nfa_gen_table n eps arrow = Ret u /\ nfa_text (nfa_parsed n) u.
Proof.
  intros V (Hla & Hls) He Ha. unfold nfa_gen_table.
  assert (Hin : forall s c ts, In s (nfa_states n) -> In ts (ns_eps s :: ns_transitions s) -> In c ts ->
     exists s', nth_error (nfa_states n) c = Some s' /\ nfa_name n c = ns_name s').
  { intros s c ts Hs Hts Hc. apply In_nth_error in Hs as (q & Hq).
    assert (Hlt : c < length (nfa_states n)).
    { destruct Hts as [<- |Hts]; [exact (nv_eps_range n V q s c Hq Hc)|exact (nv_range n V q s ts c Hq Hts Hc)]. }
    apply nth_error_Some in Hlt. unfold nfa_name. destruct (nth_error (nfa_states n) c) as [s'|]; [|congruence]. eauto. }
  assert (Ets : mapR (nfa_trans_strings n) (nfa_states n) =
                Ret (map (set_strs n) (nfa_states n))).
  { apply mapR_pure. intros s Hs. unfold nfa_trans_strings. apply mapR_pure. intros ts Hts.
    rewrite (mapR_pure _ (nfa_name n)); [reflexivity|]. intros c Hc. destruct (Hin s c ts Hs Hts Hc) as (s' & E & ->).
    rewrite (index_Some _ _ _ E). reflexivity. }
  rewrite Ets. cbn [bind].
  set (row := fun s => [flag_cell (ns_initial s) arrow; flag_cell (ns_accepting s) star_str; ns_name s] ++ set_strs n s).
  assert (E : forall l t, (forall p, In p l -> nth_error (nfa_states n) (fst p) = Some (snd p)) ->
    foldR (fun t '(idx, s) =>
             ts <- index (map (set_strs n) (nfa_states n)) idx ;;
             Ret (push_row t ([if ns_initial s then arrow else []; if ns_accepting s then star_str else []; ns_name s] ++ ts)))
           t l = Ret (fold_left push_row (map row (map snd l)) t)).
  { induction l as [|[idx s] l IH]; intros t Hl; cbn [foldR map fold_left snd]; auto.
    assert (Ei : nth_error (map (set_strs n) (nfa_states n)) idx =
                 Some (set_strs n s)).
    { rewrite nth_error_map. pose proof (Hl (idx, s) (or_introl eq_refl)) as Hi. simpl in Hi. rewrite Hi. reflexivity. }
    rewrite (index_Some _ _ _ Ei). cbn [bind]. apply IH. intros p Hp. apply Hl. right; auto. }
  rewrite E.
  2:{ intros [idx s] Hp. apply enumerate_In in Hp. exact Hp. }
  rewrite enumerate_snd. cbn [bind].
  change (fold_left push_row (map row (nfa_states n)) (push_row table_default ([[]; []; []; eps] ++ nfa_alphabet n)))
    with (fold_left push_row (([[]; []; []; eps] ++ nfa_alphabet n) :: map row (nfa_states n)) table_default).
  assert (Hf0 : rows_fit table_default) by constructor.
  destruct (push_rows (([[]; []; []; eps] ++ nfa_alphabet n) :: map row (nfa_states n)) table_default Hf0) as (Hf & Hr & _).
  destruct (table_text _ Hf) as (texts & Et & HF).
  { intros Hnil. unfold rows_fit in Hf. rewrite Hnil, Hr in Hf. inversion Hf; subst. simpl in *. lia. }
  rewrite Et. eexists. split; [reflexivity|]. rewrite Hr in HF. simpl in HF. inversion HF as [|? htext ? texts' Hh HF']; subst.
  apply (table_full nfa_head_text nfa_line_text (pn_head (nfa_parsed n)) (pn_states (nfa_parsed n))).
  - unfold nfa_parsed. cbn [pn_states]. pose proof (nv_initial n V). destruct (nfa_states n); simpl in *; [lia|discriminate].
  - destruct (head_cells entry_text (Eps :: map Element (nfa_alphabet n)) (eps :: nfa_alphabet n) htext) as (b & ts & b' & -> & Hb & Hb' & Hts).
    + apply entries_text; auto.
    + discriminate.
    + exact Hh.
    + exists (b ++ ts), b'. split; auto. split; auto. exists b, ts. auto.
  - clear -HF' V Hls Ha Hin. unfold nfa_parsed. cbn [pn_states].
    assert (Hsub : forall s, In s (nfa_states n) -> In s (nfa_states n)) by auto. revert Hsub HF'.
    generalize texts'. generalize (nfa_states n) at 1 3 4 as l. induction l as [|s l IH]; intros us Hsub HF'; inversion HF' as [|? u ? us' Hu HF'']; subst; simpl; constructor.
    + assert (Hs : In s (nfa_states n)) by (apply Hsub; left; auto).
      assert (Hlegal : Forall2 set_text (map (map (nfa_name n)) (ns_eps s :: ns_transitions s)) (set_strs n s)).
      { assert (HA : forall ts, In ts (ns_eps s :: ns_transitions s) -> Forall legal_token (map (nfa_name n) ts)).
        { intros ts Hts. apply Forall_forall. intros x Hx. apply in_map_iff in Hx as (q & <- & Hq).
          destruct (Hin s q ts Hs Hts Hq) as (s' & Es & ->). rewrite Forall_forall in Hls. apply Hls. eapply nth_error_In; eauto. }
        revert HA. unfold set_strs. generalize (ns_eps s :: ns_transitions s) as tss. induction tss as [|ts tss IH']; intros HA; simpl; constructor.
        - apply set_string. apply HA. left; auto.
        - apply IH'. intros ts' H. apply HA. right; auto. }
      destruct (line_cells set_text (ns_initial s) (ns_accepting s) arrow (ns_name s) (map (map (nfa_name n)) (ns_eps s :: ns_transitions s)) (set_strs n s) u Ha) as (b0 & st & b & ts & b' & -> & Hb0 & Hb & Hb' & Hst & Hts).
      * rewrite Forall_forall in Hls. auto.
      * exact Hlegal.
      * discriminate.
      * exact Hu.
      * exists (b0 ++ st ++ b ++ ts), b'. split; auto. split; auto. exists b0, st, b, ts. auto.
    + apply IH; auto. intros s' Hs'. apply Hsub. right; auto.
Qed.

Theorem nfa_table_roundtrip n eps arrow : nfa_valid n -> nfa_legal n -> (eps = eps_str \/ eps = ascii_eps_str) -> arrow_text arrow ->
  exists u p, nfa_gen_table n eps arrow = Ret u /\ parse_nfa u = Ret (Some p) /\ nfa_try_from p = Ok n.
Proof.
  intros V Hl He Ha. destruct (nfa_gen_table_text n eps arrow V Hl He Ha) as (u & E & Ht). exists u, (nfa_parsed n).
  split; auto. split; [apply parse_nfa_iff; auto|]. destruct (nfa_parsed_denotes n V) as (D & W).
  destruct (nfa_try_from_complete _ W) as (d' & E'). rewrite E'. f_equal. apply (nfa_denotes_unique (nfa_parsed n)); auto.
  apply (nfa_try_from_ok _ _ E').
Qed.

(** ** Checking legality *)
Definition legal_tokenb (t : str) : bool :=
  match t with [] => false | _ => forallb (fun c => negb (token_end c)) t && negb (mem t reserved) end.
Lemma legal_tokenb_legal t : legal_tokenb t = true <-> legal_token t.
Proof.
  rewrite legal_token_iff. unfold legal_tokenb. destruct t as [|c t]; [intuition discriminate|].
  rewrite andb_true_iff, forallb_forall, negb_true_iff. split.
  - intros (H1 & H2). split; [discriminate|]. split; auto. intros x Hx. apply negb_true_iff. auto.
  - intros (_ & H1 & H2). split; auto. intros x Hx. apply negb_true_iff. auto.
Qed.
Lemma Forall_legal l : forallb legal_tokenb l = true -> Forall legal_token l.
Proof. rewrite forallb_forall, Forall_forall. intros H x Hx. apply legal_tokenb_legal. auto. Qed.
Lemma Forall_legal_map {A} (f : A -> str) l : forallb legal_tokenb (map f l) = true -> Forall (fun s => legal_token (f s)) l.
Proof. intros H. apply Forall_legal in H. rewrite Forall_map in H. auto. Qed.
