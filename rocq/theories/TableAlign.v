(** * TableAlign: printed tables are aligned *)
From Coq Require Import List NArith Arith Bool Lia.
From Verif Require Import Base BaseLemmas Spec LayoutSpec TableModel.
Import ListNotations.

Lemma nth_error_max_zip : forall ls row j, nth_error (max_zip ls row) j =
  match nth_error ls j with
  | None => None
  | Some l => Some (match nth_error row j with Some c => max l (length c) | None => l end)
  end.
Proof.
  induction ls as [|l ls IH]; intros [|c row] [|j]; simpl; auto. destruct (nth_error ls j); auto.
Qed.
Lemma max_zip_len : forall l r, length (max_zip l r) = length l.
Proof. induction l as [|x l IH]; intros [|s r]; simpl; auto. Qed.

(** the recorded widths are the column widths *)
Definition widths_ok (n : nat) (t : table) : Prop :=
  length (tb_row_len t) = n /\ forall j w, nth_error (tb_row_len t) j = Some w -> column_width (tb_rows t) j w.

Lemma column_width_snoc rows row j w : column_width rows j w ->
  column_width (rows ++ [row]) j (match nth_error row j with Some c => max w (length c) | None => w end).
Proof.
  intros (H1 & r0 & c0 & H2 & H3 & H4). split.
  - intros r c Hr Hc. apply in_app_iff in Hr as [Hr|[<- |[]]].
    + specialize (H1 r c Hr Hc). destruct (nth_error row j); lia.
    + rewrite Hc. lia.
  - destruct (nth_error row j) as [c|] eqn:E.
    + destruct (le_lt_dec w (length c)).
      * exists row, c. rewrite in_app_iff. split; [right; left; auto|]. split; auto. lia.
      * exists r0, c0. rewrite in_app_iff. split; auto. split; auto. lia.
    + exists r0, c0. rewrite in_app_iff. auto.
Qed.

Lemma push_row_widths n t row : widths_ok n t -> length row = n -> widths_ok n (push_row t row).
Proof.
  intros (Hl & Hw) Hr. unfold push_row. rewrite Hl, Hr, Nat.ltb_irrefl. split; cbn [tb_row_len tb_rows].
  - rewrite max_zip_len. auto.
  - intros j w Hj. rewrite nth_error_max_zip in Hj. destruct (nth_error (tb_row_len t) j) as [l|] eqn:E; [|discriminate].
    injection Hj as <-. apply column_width_snoc. apply Hw; auto.
Qed.
Lemma first_row_widths row : widths_ok (length row) (push_row table_default row).
Proof.
  unfold push_row, table_default. cbn [tb_row_len tb_rows length app]. rewrite Nat.sub_0_r. split; cbn [tb_row_len tb_rows].
  - rewrite max_zip_len. destruct (Nat.ltb_spec 0 (length row)); [apply repeat_length|simpl; lia].
  - intros j w. rewrite nth_error_max_zip. destruct row as [|c0 row]; [simpl; destruct j; discriminate|].
    replace (0 <? length (c0 :: row)) with true by reflexivity. destruct (nth_error (repeat 0 (length (c0 :: row))) j) as [l|] eqn:E; [|discriminate].
    assert (l = 0) by (apply nth_error_In in E; eapply repeat_spec; eauto). subst l.
    apply nth_error_length in E. rewrite repeat_length in E. destruct (nth_error_lt _ _ E) as [c Hc]. rewrite Hc. intros [= <-].
    split.
    + intros r c' [<- |[]] Hc'. rewrite Hc in Hc'. injection Hc' as <-. lia.
    + exists (c0 :: row), c. split; [left; auto|]. split; auto.
Qed.
Lemma push_rows_widths n : forall rows t, widths_ok n t -> (forall r, In r rows -> length r = n) ->
  widths_ok n (fold_left push_row rows t) /\ tb_rows (fold_left push_row rows t) = tb_rows t ++ rows.
Proof.
  induction rows as [|r rows IH]; intros t Ht Hr; simpl; [rewrite app_nil_r; auto|].
  destruct (IH (push_row t r)) as (H1 & H2).
  - apply push_row_widths; auto. apply Hr; left; auto.
  - intros; apply Hr; right; auto.
  - split; auto. rewrite H2. unfold push_row. simpl. rewrite <- app_assoc. reflexivity.
Qed.

Lemma pad_repeat s l : pad s l = s ++ repeat 32%N (l - length s).
Proof.
  unfold pad. destruct (Nat.ltb_spec (length s) l); auto. replace (l - length s) with 0 by lia. simpl. rewrite app_nil_r. auto.
Qed.

Lemma aligned_line_eq : forall ws row, ws <> [] -> length row = length ws ->
  concat (map (fun '(s, l) => pad s l ++ [32%N]) (combine row (firstn (length ws - 1) ws ++ [0]))) = aligned_line ws row.
Proof.
  induction ws as [|w ws IH]; intros row Hn Hl; [congruence|]. destruct row as [|c row]; [discriminate|].
  destruct ws as [|w' ws].
  - destruct row; [|discriminate]. simpl. rewrite pad_repeat. simpl. rewrite !app_nil_r. reflexivity.
  - simpl in Hl. injection Hl as Hl. cbn [length]. replace (S (S (length ws)) - 1) with (S (length (w' :: ws) - 1)) by (simpl; lia).
    change (firstn (S (length (w' :: ws) - 1)) (w :: w' :: ws) ++ [0]) with (w :: (firstn (length (w' :: ws) - 1) (w' :: ws) ++ [0])).
    cbn [combine map concat]. rewrite IH; [|discriminate|auto]. rewrite pad_repeat, <- !app_assoc. reflexivity.
Qed.

Lemma join_lines_text l : join [10%N] l = lines_text l.
Proof. induction l as [|x [|y l] IH]; auto. cbn [join lines_text] in *. rewrite IH. reflexivity. Qed.
Lemma join_spaced l : join [32%N] l = spaced l.
Proof. induction l as [|x [|y l] IH]; auto. cbn [join spaced] in *. rewrite IH. reflexivity. Qed.

Lemma table_aligned row rows : row <> [] -> (forall r, In r rows -> length r = length row) ->
  exists u, table_to_string (fold_left push_row rows (push_row table_default row)) [32%N] = Ret u /\ aligned (row :: rows) u.
Proof.
  intros Hn Hr. destruct (push_rows_widths (length row) rows _ (first_row_widths row) Hr) as ((Hl & Hw) & Ht).
  set (t := fold_left push_row rows (push_row table_default row)) in *.
  change (tb_rows (push_row table_default row) ++ rows) with (row :: rows) in Ht.
  assert (Hne : tb_row_len t <> []) by (intros E; rewrite E in Hl; destruct row; [congruence|discriminate]).
  unfold table_to_string. rewrite (mapR_pure _ (aligned_line (tb_row_len t))).
  - cbn [bind]. eexists. split; [reflexivity|]. exists (tb_row_len t). rewrite Ht in *. split; [|split].
    + intros r [<- |H]; rewrite Hl; auto.
    + exact Hw.
    + apply join_lines_text.
  - intros r Hin. rewrite Ht in Hin. destruct (tb_row_len t) as [|w ws] eqn:E; [congruence|]. rewrite <- E in *.
    apply (f_equal Ret). apply aligned_line_eq; auto. rewrite Hl. destruct Hin as [<- |Hin]; auto.
Qed.

(** ** DFAs *)
Theorem dfa_table_aligned d arrow : dfa_valid d ->
  exists u rows, dfa_gen_table d arrow = Ret u /\ dfa_cells d arrow rows /\ aligned rows u.
Proof.
  intros V. unfold dfa_gen_table.
  set (nm := fun q => match nth_error (dfa_states d) q with Some s => ds_name s | None => [] end).
  set (row := fun s => [if ds_initial s then arrow else []; if ds_accepting s then star_str else []; ds_name s] ++ map nm (ds_transitions s)).
  assert (Hn : forall s c, In s (dfa_states d) -> In c (ds_transitions s) -> exists s', nth_error (dfa_states d) c = Some s').
  { intros s c Hs Hc. apply In_nth_error in Hs as (q & Hq). apply nth_error_lt. exact (dv_range d V q s c Hq Hc). }
  assert (E : forall l t, (forall s, In s l -> In s (dfa_states d)) ->
    foldR (fun t s =>
             names <- mapR (fun c => x <- index (dfa_states d) c ;; Ret (ds_name x)) (ds_transitions s) ;;
             Ret (push_row t ([if ds_initial s then arrow else []; if ds_accepting s then star_str else []; ds_name s] ++ names)))
           t l = Ret (fold_left push_row (map row l) t)).
  { induction l as [|s l IH]; intros t Hl; cbn [foldR map fold_left]; auto.
    rewrite (mapR_pure _ nm).
    - cbn [bind]. apply IH. intros s' Hs'. apply Hl. right; auto.
    - intros c Hc. destruct (Hn s c) as (s' & Hs'); auto; [apply Hl; left; auto|].
      unfold nm. rewrite Hs', (index_Some _ _ _ Hs'). reflexivity. }
  rewrite E by auto. cbn [bind].
  destruct (table_aligned ([[]; []; []] ++ dfa_alphabet d) (map row (dfa_states d))) as (u & Hu & Ha); [discriminate| |].
  { intros r Hr. apply in_map_iff in Hr as (s & <- & Hs). unfold row. rewrite !app_length, map_length. simpl. do 3 f_equal.
    apply In_nth_error in Hs as (q & Hq). exact (dv_width d V q s Hq). }
  exists u. eexists. split; [exact Hu|]. split; [|exact Ha]. exists (map row (dfa_states d)). split; auto.
  assert (HF : forall l, (forall s, In s l -> In s (dfa_states d)) -> Forall2 (dfa_state_cells d arrow) l (map row l)).
  { induction l as [|s l IH]; intros Hl; simpl; constructor.
    - exists (map nm (ds_transitions s)). split; auto.
      assert (Hc : forall c, In c (ds_transitions s) -> exists s', nth_error (dfa_states d) c = Some s') by (intros; apply (Hn s); auto; apply Hl; left; auto).
      revert Hc. generalize (ds_transitions s) as ts. induction ts as [|c ts IHt]; intros Hc; simpl; constructor.
      + destruct (Hc c) as (s' & Hs'); [left; auto|]. exists s'. unfold nm. rewrite Hs'. auto.
      + apply IHt. intros; apply Hc; right; auto.
    - apply IH. intros; apply Hl; right; auto. }
  apply HF; auto.
Qed.

(** ** NFAs *)
Theorem nfa_table_aligned n eps arrow : nfa_valid n ->
  exists u rows, nfa_gen_table n eps arrow = Ret u /\ nfa_cells n eps arrow rows /\ aligned rows u.
Proof.
  intros V. unfold nfa_gen_table.
  set (nm := fun q => match nth_error (nfa_states n) q with Some s => ns_name s | None => [] end).
  set (cell := fun ts => [123%N] ++ join [32%N] (map nm ts) ++ [125%N]).
  set (cells := fun s => map cell (ns_eps s :: ns_transitions s)).
  set (row := fun s => [if ns_initial s then arrow else []; if ns_accepting s then star_str else []; ns_name s] ++ cells s).
  assert (Hin : forall s c ts, In s (nfa_states n) -> In ts (ns_eps s :: ns_transitions s) -> In c ts ->
     exists s', nth_error (nfa_states n) c = Some s').
  { intros s c ts Hs Hts Hc. apply In_nth_error in Hs as (q & Hq). apply nth_error_lt.
    destruct Hts as [<- |Hts]; [exact (nv_eps_range n V q s c Hq Hc)|exact (nv_range n V q s ts c Hq Hts Hc)]. }
  assert (Ets : mapR (nfa_trans_strings n) (nfa_states n) = Ret (map cells (nfa_states n))).
  { apply mapR_pure. intros s Hs. unfold nfa_trans_strings. apply mapR_pure. intros ts Hts.
    rewrite (mapR_pure _ nm); [reflexivity|]. intros c Hc. destruct (Hin s c ts Hs Hts Hc) as (s' & E).
    unfold nm. rewrite E, (index_Some _ _ _ E). reflexivity. }
  rewrite Ets. cbn [bind].
  assert (E : forall l t, (forall p, In p l -> nth_error (nfa_states n) (fst p) = Some (snd p)) ->
    foldR (fun t '(idx, s) =>
             ts <- index (map cells (nfa_states n)) idx ;;
             Ret (push_row t ([if ns_initial s then arrow else []; if ns_accepting s then star_str else []; ns_name s] ++ ts)))
           t l = Ret (fold_left push_row (map row (map snd l)) t)).
  { induction l as [|[idx s] l IH]; intros t Hl; cbn [foldR map fold_left snd]; auto.
    assert (Ei : nth_error (map cells (nfa_states n)) idx = Some (cells s)).
    { rewrite nth_error_map. pose proof (Hl (idx, s) (or_introl eq_refl)) as Hi. simpl in Hi. rewrite Hi. reflexivity. }
    rewrite (index_Some _ _ _ Ei). cbn [bind]. apply IH. intros p Hp. apply Hl. right; auto. }
  rewrite E.
  2:{ intros [idx s] Hp. apply enumerate_In in Hp. exact Hp. }
  rewrite enumerate_snd. cbn [bind].
  destruct (table_aligned ([[]; []; []; eps] ++ nfa_alphabet n) (map row (nfa_states n))) as (u & Hu & Ha); [discriminate| |].
  { intros r Hr. apply in_map_iff in Hr as (s & <- & Hs). unfold row, cells. rewrite !app_length, map_length. simpl. do 4 f_equal.
    apply In_nth_error in Hs as (q & Hq). exact (nv_width n V q s Hq). }
  exists u. eexists. split; [exact Hu|]. split; [|exact Ha]. exists (map row (nfa_states n)). split; auto.
  assert (HF : forall l, (forall s, In s l -> In s (nfa_states n)) -> Forall2 (nfa_state_cells n arrow) l (map row l)).
  { induction l as [|s l IH]; intros Hl; simpl; constructor.
    - exists (cells s). split; auto. unfold cells.
      assert (Hc : forall ts c, In ts (ns_eps s :: ns_transitions s) -> In c ts -> exists s', nth_error (nfa_states n) c = Some s')
        by (intros ts c H1 H2; apply (Hin s c ts); auto; apply Hl; left; auto).
      revert Hc. generalize (ns_eps s :: ns_transitions s) as tss. induction tss as [|ts tss IHt]; intros Hc; simpl; constructor.
      + exists (map nm ts). split; [unfold cell; rewrite join_spaced; reflexivity|].
        assert (Hc' : forall c, In c ts -> exists s', nth_error (nfa_states n) c = Some s') by (intros; apply (Hc ts); auto; left; auto).
        clear -Hc'. revert Hc'. induction ts as [|c ts IH]; intros Hc; simpl; constructor.
        * destruct (Hc c) as (s' & Hs'); [left; auto|]. exists s'. unfold nm. rewrite Hs'. auto.
        * apply IH. intros; apply Hc; right; auto.
      + apply IHt. intros ts' c H1; apply Hc; right; auto.
    - apply IH. intros; apply Hl; right; auto. }
  apply HF; auto.
Qed.
