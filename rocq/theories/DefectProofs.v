(** * DefectProofs: validation reports the first defect *)
From Coq Require Import List NArith Arith Bool Lia.
From Verif Require Import Base BaseLemmas Spec TableSpec DefectSpec ValidateModel ValidateProofs.
Import ListNotations.

(** ** Repetitions *)
Lemma first_repeated_iff {A} `{Eqb A} (x : A) l : forall seen, NoDup seen ->
  (first_repeated seen l = Some x <-> exists l1 l2, l = l1 ++ x :: l2 /\ NoDup (seen ++ l1) /\ In x (seen ++ l1)).
Proof.
  induction l as [|y l IH]; intros seen N; cbn [first_repeated].
  - split; [discriminate|]. intros (l1 & l2 & E & _). destruct l1; discriminate.
  - unfold hs_insert. destruct (mem_spec y seen) as [Hy|Hy].
    + split.
      * intros [= <-]. exists [], l. rewrite app_nil_r. auto.
      * intros (l1 & l2 & E & N' & Hx). destruct l1 as [|z l1]; [injection E as -> _; reflexivity|]. injection E as <- _.
        exfalso. apply NoDup_app_iff in N' as (_ & _ & D). apply (D y Hy). simpl. auto.
    + rewrite IH by (apply NoDup_snoc; auto). split.
      * intros (l1 & l2 & -> & N' & Hx). exists (y :: l1), l2. rewrite <- app_assoc in *. auto.
      * intros (l1 & l2 & E & N' & Hx). destruct l1 as [|z l1].
        -- injection E as -> _. rewrite app_nil_r in Hx. contradiction.
        -- injection E as <- ->. exists l1, l2. rewrite <- app_assoc. auto.
Qed.
Lemma first_repetition_iff {A} `{Eqb A} (x : A) l : first_repeated [] l = Some x <-> first_repetition x l.
Proof. rewrite first_repeated_iff by constructor. reflexivity. Qed.
Lemma first_repetition_dup {A} (x : A) l : first_repetition x l -> ~ NoDup l.
Proof. intros (l1 & l2 & -> & _ & Hx) N. apply NoDup_app_iff in N as (_ & _ & D). apply (D x Hx). simpl. auto. Qed.
Lemma first_repeated_none {A} `{Eqb A} (l : list A) : first_repeated [] l = None <-> NoDup l.
Proof.
  pose proof (first_repeated_spec l [] ltac:(constructor)) as Hs. split.
  - intros E. rewrite E in Hs. exact Hs.
  - intros N. destruct (first_repeated [] l) as [x|] eqn:E; auto. apply first_repetition_iff, first_repetition_dup in E. contradiction.
Qed.

Lemma first_repetition_unique {A} (x y : A) l : first_repetition x l -> first_repetition y l -> x = y.
Proof.
  intros (l1 & l2 & -> & N1 & H1) (m1 & m2 & E & N2 & H2). apply app_eq_app in E as (k & [[E1 E2]|[E1 E2]]); destruct k as [|z k]; simpl in E2; injection E2; intros; subst; auto.
  - apply NoDup_app_iff in N1 as (_ & _ & D). exfalso. apply (D z H2). simpl. auto.
  - apply NoDup_app_iff in N2 as (_ & _ & D). exfalso. apply (D z H1). simpl. auto.
Qed.
(** Headers with a column for the empty word *)
Lemma nfa_head_err d l : forall idx alphabet eps seen, NoDup seen -> (forall a, In a alphabet <-> In (Element a) seen) -> (eps <> None <-> In Eps seen) ->
  (nfa_head_check idx alphabet eps l = Err d <-> exists x l1 l2, l = l1 ++ x :: l2 /\ NoDup (seen ++ l1) /\ In x (seen ++ l1) /\ d = entry_text x).
Proof.
  induction l as [|y l IH]; intros idx al eps seen N HA HE; cbn [nfa_head_check].
  - split; [discriminate|]. intros (x & l1 & l2 & E & _). destruct l1; discriminate.
  - assert (Old : In y seen -> (Err (entry_text y) = Err (A := option nat) d <->
      exists x l1 l2, y :: l = l1 ++ x :: l2 /\ NoDup (seen ++ l1) /\ In x (seen ++ l1) /\ d = entry_text x)).
    { intros Hy. split.
      - intros [= <-]. exists y, [], l. rewrite app_nil_r. auto.
      - intros (x & l1 & l2 & E & N' & Hx & ->). destruct l1 as [|z l1]; [injection E as -> _; reflexivity|]. injection E as <- _.
        exfalso. apply NoDup_app_iff in N' as (_ & _ & D). apply (D y Hy). simpl. auto. }
    assert (New : forall r, ~ In y seen -> (r = Err (A := option nat) d <-> exists x l1 l2, l = l1 ++ x :: l2 /\ NoDup ((seen ++ [y]) ++ l1) /\ In x ((seen ++ [y]) ++ l1) /\ d = entry_text x) ->
      (r = Err d <-> exists x l1 l2, y :: l = l1 ++ x :: l2 /\ NoDup (seen ++ l1) /\ In x (seen ++ l1) /\ d = entry_text x)).
    { intros r Hy ->. split.
      - intros (x & l1 & l2 & -> & N' & Hx & ->). exists x, (y :: l1), l2. rewrite <- app_assoc in *. auto.
      - intros (x & l1 & l2 & E & N' & Hx & ->). destruct l1 as [|z l1].
        + injection E as -> _. rewrite app_nil_r in Hx. contradiction.
        + injection E as <- ->. exists x, l1, l2. rewrite <- app_assoc. auto. }
    destruct y as [a|].
    + unfold hs_insert. destruct (mem_spec a al) as [Ha|Ha]; [apply Old, HA, Ha|]. apply New; [rewrite <- HA; exact Ha|]. apply IH.
      * apply NoDup_snoc; auto. rewrite <- HA. exact Ha.
      * intros b. rewrite !in_app_iff, HA. simpl. split; intros [H|[H|[]]]; auto; [subst|injection H as ->]; auto.
      * rewrite HE, in_app_iff. simpl. split; [auto|]. intros [H|[H|[]]]; auto. discriminate.
    + destruct eps as [i|]; [apply Old, HE; discriminate|].
      assert (Hn : ~ In Eps seen) by (rewrite <- HE; congruence). apply New; [exact Hn|]. apply IH.
      * apply NoDup_snoc; auto.
      * intros b. rewrite HA, in_app_iff. simpl. split; [auto|]. intros [H|[H|[]]]; auto. discriminate.
      * rewrite in_app_iff. simpl. split; [auto|discriminate].
Qed.
Lemma nfa_head_iff d l : nfa_head_check 0 [] None l = Err d <-> exists x, first_repetition x l /\ d = entry_text x.
Proof.
  rewrite (nfa_head_err d l 0 [] None []); [|constructor|tauto|simpl; tauto]. split.
  - intros (x & l1 & l2 & H1 & H2 & H3 & H4). exists x. split; auto. exists l1, l2. auto.
  - intros (x & (l1 & l2 & H1 & H2 & H3) & H4). exists x, l1, l2. auto.
Qed.
Lemma no_repetition {A} (l : list A) : (forall x y : A, x = y \/ x <> y) -> (forall x, ~ first_repetition x l) -> NoDup l.
Proof.
  intros Dec K. assert (G : forall l1 l2, l = l1 ++ l2 -> NoDup l1 -> NoDup l).
  { intros l1 l2. revert l1. induction l2 as [|z l2 IH]; intros l1 E N; [rewrite app_nil_r in E; subst; auto|].
    apply (IH (l1 ++ [z])); [rewrite <- app_assoc; auto|]. apply NoDup_snoc; auto. intros Hz. apply (K z). exists l1, l2. auto. }
  apply (G [] l); auto. constructor.
Qed.
Lemma nfa_entry_dec (x y : nfa_entry) : x = y \/ x <> y.
Proof. destruct x as [a|], y as [b|]; try (right; discriminate); auto. destruct (eqb_spec a b); [subst; auto|right; congruence]. Qed.

(** ** Rows *)
Fixpoint gen_rows (m : list (str * nat)) (width idx : nat) (init : option nat) (rows : list row) : result (option nat) parse_error :=
  match rows with
  | [] => Ok init
  | r :: rest =>
      if negb (row_entries r =? width) then Err (WrongNumberOfTransitions (row_name r) (row_entries r) width)
      else
        match lookup_targets m (row_name r) (row_targets r) with
        | Err e => Err e
        | Ok _ =>
            match (if row_initial r then match init with None => Some (Some idx) | Some _ => None end else Some init) with
            | None => Err MultipleInitialStates
            | Some init => gen_rows m width (S idx) init rest
            end
        end
  end.
Definition result_map {A B E} (f : A -> B) (r : result A E) : result B E := match r with Ok a => Ok (f a) | Err e => Err e end.
Lemma dfa_gen_rows m head l : forall idx init, result_map snd (dfa_rows m head idx init l) = gen_rows m (length head) idx init (map dfa_row l).
Proof.
  induction l as [|s l IH]; intros idx init; cbn [dfa_rows gen_rows map]; [reflexivity|]. cbn [row_entries row_name row_targets row_initial dfa_row].
  destruct (negb _); [reflexivity|]. destruct (lookup_targets m (pds_name s) (pds_transitions s)) as [nt|e]; [|reflexivity].
  destruct (if pds_initial s then _ else _) as [init'|]; [|reflexivity]. rewrite <- IH. destruct (dfa_rows m head (S idx) init' l) as [[ns i]|e]; reflexivity.
Qed.
Lemma nfa_columns_targets m name eps_idx ts : forall idx e0,
  match nfa_columns m name eps_idx idx e0 ts, lookup_targets m name (concat ts) with
  | Ok _, Ok _ => True
  | Err e, Err e' => e = e'
  | _, _ => False
  end.
Proof.
  assert (L : forall a b, lookup_targets m name (a ++ b) = match lookup_targets m name a with
    | Err e => Err e | Ok x => match lookup_targets m name b with Err e => Err e | Ok y => Ok (x ++ y) end end).
  { induction a as [|t a IH]; intros b; cbn [lookup_targets app].
    - destruct (lookup_targets m name b); reflexivity.
    - destruct (hm_get t m); [|reflexivity]. rewrite IH. destruct (lookup_targets m name a); [|reflexivity]. destruct (lookup_targets m name b); reflexivity. }
  induction ts as [|t ts IH]; intros idx e0; cbn [nfa_columns concat]; [exact I|].
  rewrite L. destruct (lookup_targets m name t) as [x|e]; [|reflexivity]. destruct (eqb (Some idx) eps_idx).
  - specialize (IH (S idx) (Some x)). destruct (nfa_columns m name eps_idx (S idx) (Some x) ts), (lookup_targets m name (concat ts)); auto.
  - specialize (IH (S idx) e0). destruct (nfa_columns m name eps_idx (S idx) e0 ts) as [[? ?]|], (lookup_targets m name (concat ts)); auto.
Qed.
Lemma nfa_gen_rows m width eps_idx l : forall idx init, result_map snd (nfa_rows m width eps_idx idx init l) = gen_rows m width idx init (map nfa_row l).
Proof.
  induction l as [|s l IH]; intros idx init; cbn [nfa_rows gen_rows map]; [reflexivity|]. cbn [row_entries row_name row_targets row_initial nfa_row].
  destruct (negb _); [reflexivity|]. pose proof (nfa_columns_targets m (pns_name s) eps_idx (pns_transitions s) 0 None) as K.
  destruct (nfa_columns m (pns_name s) eps_idx 0 None (pns_transitions s)) as [[nt ne]|e], (lookup_targets m (pns_name s) (concat (pns_transitions s))) as [x|e'];
    try contradiction; [|subst; reflexivity].
  destruct (if pns_initial s then _ else _) as [init'|]; [|reflexivity]. rewrite <- IH. destruct (nfa_rows m width eps_idx (S idx) init' l) as [[ns i]|e]; reflexivity.
Qed.

Lemma lookup_ok names name ts : NoDup names -> ((exists l, lookup_targets (name_map names) name ts = Ok l) <-> Forall (fun t => In t names) ts).
Proof.
  intros N. induction ts as [|t ts IH]; cbn [lookup_targets].
  - split; [constructor|eauto].
  - destruct (hm_get t (name_map names)) as [q|] eqn:E.
    + assert (Ht : In t names) by (apply name_map_get, nth_error_In in E; auto).
      destruct (lookup_targets (name_map names) name ts) as [l|e]; split.
      * intros _. constructor; auto. apply IH. eauto.
      * eauto.
      * intros (l & X). discriminate.
      * intros F. inversion F; subst. destruct (proj2 IH) as (l & X); auto. discriminate.
    + apply name_map_none in E; auto. split; [intros (l & X); discriminate|]. intros F. inversion F; subst. contradiction.
Qed.
Lemma lookup_err names name ts e : NoDup names -> (lookup_targets (name_map names) name ts = Err e <->
  exists ts1 t ts2, ts = ts1 ++ t :: ts2 /\ Forall (fun t => In t names) ts1 /\ ~ In t names /\ e = TransitionDoesNotExist name t).
Proof.
  intros N. induction ts as [|t ts IH]; cbn [lookup_targets].
  - split; [discriminate|]. intros (ts1 & t & ts2 & X & _). destruct ts1; discriminate.
  - destruct (hm_get t (name_map names)) as [q|] eqn:E.
    + assert (Ht : In t names) by (apply name_map_get, nth_error_In in E; auto).
      assert (K : lookup_targets (name_map names) name ts = Err e <->
        exists ts1 t0 ts2, t :: ts = ts1 ++ t0 :: ts2 /\ Forall (fun t => In t names) ts1 /\ ~ In t0 names /\ e = TransitionDoesNotExist name t0).
      { rewrite IH. split.
        - intros (ts1 & t0 & ts2 & -> & H). exists (t :: ts1), t0, ts2. split; auto. destruct H as (H1 & H2). split; auto.
        - intros (ts1 & t0 & ts2 & X & H1 & H2 & H3). destruct ts1 as [|z ts1]; injection X as <- X; [contradiction|]. inversion H1; subst. exists ts1, t0, ts2. auto. }
      rewrite <- K. destruct (lookup_targets (name_map names) name ts); split; congruence.
    + apply name_map_none in E; auto. split.
      * intros [= <-]. exists [], t, ts. auto.
      * intros (ts1 & t0 & ts2 & X & H1 & H2 & ->). destruct ts1 as [|z ts1]; injection X as <- X; auto. inversion H1; subst. contradiction.
Qed.

(** The rows already read that are initial *)
Definition seen_initial (init : option nat) (above : list row) : Prop := init <> None \/ exists r, In r above /\ row_initial r = true.
Definition initial_count (init : option nat) : nat := match init with Some _ => 1 | None => 0 end.

Inductive rows_defect (width : nat) (names : list str) (init : option nat) (rows : list row) : parse_error -> Prop :=
| rd_entries above r below : rows = above ++ r :: below ->
    Forall (fun r => row_entries r = width /\ Forall (fun t => In t names) (row_targets r)) above ->
    initial_count init + length (filter row_initial above) <= 1 -> row_entries r <> width ->
    rows_defect width names init rows (WrongNumberOfTransitions (row_name r) (row_entries r) width)
| rd_target above r below ts t ts' : rows = above ++ r :: below ->
    Forall (fun r => row_entries r = width /\ Forall (fun t => In t names) (row_targets r)) above ->
    initial_count init + length (filter row_initial above) <= 1 -> row_entries r = width ->
    row_targets r = ts ++ t :: ts' -> Forall (fun t => In t names) ts -> ~ In t names ->
    rows_defect width names init rows (TransitionDoesNotExist (row_name r) t)
| rd_initials above r below : rows = above ++ r :: below ->
    Forall (fun r => row_entries r = width /\ Forall (fun t => In t names) (row_targets r)) above ->
    initial_count init + length (filter row_initial above) <= 1 -> row_entries r = width -> Forall (fun t => In t names) (row_targets r) ->
    row_initial r = true -> seen_initial init above ->
    rows_defect width names init rows MultipleInitialStates.

Lemma gen_rows_err names width (N : NoDup names) rows : forall idx init e,
  gen_rows (name_map names) width idx init rows = Err e <-> rows_defect width names init rows e.
Proof.
  induction rows as [|r rows IH]; intros idx init e; cbn [gen_rows].
  - split; [discriminate|]. intros D. inversion D as [above r below X|above r below ts t ts' X|above r below X]; destruct above; discriminate X.
  - destruct (Nat.eqb_spec (row_entries r) width) as [Ew|Ew]; cbn [negb].
    2:{ split.
        - intros [= <-]. apply (rd_entries _ _ _ _ [] r rows); auto. simpl. destruct init; simpl; lia.
        - intros D. inversion D as [above r' below X F|above r' below ts t ts' X F|above r' below X F]; subst; destruct above as [|z above]; injection X as <- X; auto;
            try contradiction; inversion F; subst; tauto. }
    destruct (lookup_targets (name_map names) (row_name r) (row_targets r)) as [x|e0] eqn:L.
    2:{ apply lookup_err in L as (ts1 & t & ts2 & Et & F1 & Nt & ->); auto. split.
        - intros [= <-]. apply (rd_target _ _ _ _ [] r rows ts1 t ts2); auto. simpl. destruct init; simpl; lia.
        - assert (B : ~ Forall (fun t => In t names) (row_targets r)) by (rewrite Et, Forall_app; intros [_ F]; inversion F; contradiction).
          intros D. inversion D as [above r' below X F|above r' below ts t' ts' X F C W Et' F' Nt'|above r' below X F C W F']; subst; destruct above as [|z above]; injection X as <- X;
            try contradiction; try (inversion F; subst; tauto).
          assert (K : lookup_targets (name_map names) (row_name r) (row_targets r) = Err (TransitionDoesNotExist (row_name r) t)) by (apply lookup_err; eauto 8).
          assert (K' : lookup_targets (name_map names) (row_name r) (row_targets r) = Err (TransitionDoesNotExist (row_name r) t')) by (apply lookup_err; eauto 8).
          rewrite K in K'. injection K' as ->. reflexivity. }
    assert (F0 : Forall (fun t => In t names) (row_targets r)) by (apply (lookup_ok names (row_name r)); eauto).
    destruct (row_initial r) eqn:Ei.
    + destruct init as [i|].
      * split.
        -- intros [= <-]. apply (rd_initials _ _ _ _ [] r rows); auto. left. discriminate.
        -- intros D. inversion D as [above r' below X F C|above r' below ts t' ts' X F C W Et' F' Nt'|above r' below X F C W F']; subst; auto; exfalso;
             destruct above as [|z above]; injection X as <- X; try contradiction; try (simpl in C; rewrite Ei in C; simpl in C; lia).
           rewrite Et', Forall_app in F0. destruct F0 as [_ F0]. inversion F0. contradiction.
      * rewrite IH. split.
        -- intros D. inversion D as [above r' below X F C W|above r' below ts t' ts' X F C W Et' F' Nt'|above r' below X F C W F' I S]; subst.
           ++ apply (rd_entries _ _ _ _ (r :: above) r' below); auto; simpl; rewrite ?Ei; simpl in *; try lia.
           ++ apply (rd_target _ _ _ _ (r :: above) r' below ts t' ts'); auto; simpl; rewrite ?Ei; simpl in *; try lia.
           ++ apply (rd_initials _ _ _ _ (r :: above) r' below); auto; simpl; rewrite ?Ei; simpl in *; try lia. right. exists r. simpl. auto.
        -- intros D. inversion D as [above r' below X F C W|above r' below ts t' ts' X F C W Et' F' Nt'|above r' below X F C W F' I S]; subst;
             destruct above as [|z above]; injection X as <- X; try contradiction.
           ++ inversion F; subst. simpl in C. rewrite Ei in C. simpl in C. apply (rd_entries _ _ _ _ above r' below); auto.
           ++ rewrite Et', Forall_app in F0. destruct F0 as [_ F0]. inversion F0. contradiction.
           ++ inversion F; subst. simpl in C. rewrite Ei in C. simpl in C. apply (rd_target _ _ _ _ above r' below ts t' ts'); auto.
           ++ destruct S as [S|(r0 & [] & _)]. congruence.
           ++ inversion F; subst. simpl in C. rewrite Ei in C. simpl in C. apply (rd_initials _ _ _ _ above r' below); auto. left. discriminate.
    + rewrite IH. split.
      * intros D. inversion D as [above r' below X F C W|above r' below ts t' ts' X F C W Et' F' Nt'|above r' below X F C W F' I S]; subst.
        -- apply (rd_entries _ _ _ _ (r :: above) r' below); auto; simpl; rewrite ?Ei; auto.
        -- apply (rd_target _ _ _ _ (r :: above) r' below ts t' ts'); auto; simpl; rewrite ?Ei; auto.
        -- apply (rd_initials _ _ _ _ (r :: above) r' below); auto; simpl; rewrite ?Ei; auto. destruct S as [S|(r0 & S & S')]; [left; auto|right; exists r0; simpl; auto].
      * intros D. inversion D as [above r' below X F C W|above r' below ts t' ts' X F C W Et' F' Nt'|above r' below X F C W F' I S]; subst;
          destruct above as [|z above]; injection X as <- X; try contradiction; try congruence.
        -- inversion F; subst. simpl in C. rewrite Ei in C. apply (rd_entries _ _ _ _ above r' below); auto.
        -- rewrite Et', Forall_app in F0. destruct F0 as [_ F0]. inversion F0. contradiction.
        -- inversion F; subst. simpl in C. rewrite Ei in C. apply (rd_target _ _ _ _ above r' below ts t' ts'); auto.
        -- inversion F; subst. simpl in C. rewrite Ei in C. apply (rd_initials _ _ _ _ above r' below); auto.
           destruct S as [S|(r0 & [<-|S] & S')]; [left; auto|congruence|right; eauto].
Qed.
Lemma gen_rows_ok names width (N : NoDup names) rows : forall idx init i,
  gen_rows (name_map names) width idx init rows = Ok i ->
  Forall (fun r => row_entries r = width /\ Forall (fun t => In t names) (row_targets r)) rows /\
  initial_count init + length (filter row_initial rows) <= 1 /\ (i = None <-> init = None /\ forall r, In r rows -> row_initial r = false).
Proof.
  induction rows as [|r rows IH]; intros idx init i E; cbn [gen_rows] in E.
  - injection E as <-. split; [constructor|]. split; [destruct init; simpl; lia|]. simpl. intuition.
  - destruct (Nat.eqb_spec (row_entries r) width) as [Ew|Ew]; cbn [negb] in E; [|discriminate].
    destruct (lookup_targets (name_map names) (row_name r) (row_targets r)) as [x|e0] eqn:L; [|discriminate].
    assert (F0 : Forall (fun t => In t names) (row_targets r)) by (apply (lookup_ok names (row_name r)); eauto).
    destruct (row_initial r) eqn:Ei.
    + destruct init as [j|]; [discriminate|]. apply IH in E as (H1 & H2 & H3). split; auto. simpl. rewrite Ei. split; [simpl in *; lia|]. rewrite H3. split.
      * intros [X _]. discriminate.
      * intros [_ X]. specialize (X r (or_introl eq_refl)). congruence.
    + apply IH in E as (H1 & H2 & H3). split; auto. simpl. rewrite Ei. split; auto. rewrite H3. split; intros [X Y]; (split; auto).
      intros r' [<-|Hr']; auto.
Qed.

(** ** Both kinds of tables *)
Section Both.
Context {E : Type}.
Variable text : E -> str.
Variable head : list E.
Variable rows : list row.
Let names := map row_name rows.
Lemma rows_part e : NoDup head -> NoDup names ->
  (match gen_rows (name_map names) (length head) 0 None rows with
   | Err e' => e' = e
   | Ok None => e = MissingInitialState
   | Ok (Some _) => False
   end <-> first_defect text head rows e).
Proof.
  intros NH NN. destruct (gen_rows (name_map names) (length head) 0 None rows) as [o|e'] eqn:G.
  - pose proof (gen_rows_ok names (length head) NN rows 0 None o G) as (F & C & HN). simpl in C.
    assert (K : first_defect text head rows e -> e = MissingInitialState /\ o = None).
    { assert (KD : forall e, ~ rows_defect (length head) names None rows e) by (intros e1 D; apply (gen_rows_err names (length head) NN rows 0) in D; congruence).
      intros D. inversion D as [x R|s _ R|above r below _ _ X [F1 C1] W|above r below ts t ts' _ _ X [F1 C1] W Et Ft Nt|above r below _ _ X [F1 C1] [W F2] I S|_ _ [F1 C1] I]; subst e.
      - exfalso. exact (first_repetition_dup x head R NH).
      - exfalso. exact (first_repetition_dup s _ R NN).
      - exfalso. eapply KD. eapply (rd_entries _ _ _ _ above r below); eauto.
      - exfalso. eapply KD. eapply (rd_target _ _ _ _ above r below ts t ts'); eauto.
      - exfalso. eapply KD. eapply (rd_initials _ _ _ _ above r below); eauto. right. auto.
      - split; auto. apply HN. auto. }
    destruct o as [i|].
    + split; [tauto|]. intros D. apply K in D as [_ D]. discriminate.
    + split; [|intros D; apply K in D; tauto]. intros ->. apply fd_none; auto; [split; auto|]. apply HN. reflexivity.
  - split.
    + intros <-. apply gen_rows_err in G; auto. inversion G as [above r below X F C W|above r below ts t ts' X F C W Et Ft Nt|above r below X F C W Ft I S]; subst e'.
      * apply (fd_entries _ _ _ above r below); auto. split; auto.
      * apply (fd_target _ _ _ above r below ts t ts'); auto. split; auto.
      * apply (fd_initials _ _ _ above r below); auto; [split; auto|split; auto|]. destruct S as [S|S]; auto. congruence.
    + assert (KD : forall e1, rows_defect (length head) names None rows e1 -> e' = e1) by (intros e1 D; apply (gen_rows_err names (length head) NN rows 0) in D; congruence).
      intros D. inversion D as [x R|s _ R|above r below _ _ X [F1 C1] W|above r below ts t ts' _ _ X [F1 C1] W Et Ft Nt|above r below _ _ X [F1 C1] [W F2] I S|_ _ [F1 C1] I]; subst e.
      * exfalso. exact (first_repetition_dup x head R NH).
      * exfalso. exact (first_repetition_dup s _ R NN).
      * apply KD. eapply (rd_entries _ _ _ _ above r below); eauto.
      * apply KD. eapply (rd_target _ _ _ _ above r below ts t ts'); eauto.
      * apply KD. eapply (rd_initials _ _ _ _ above r below); eauto. right. auto.
      * exfalso. apply gen_rows_err in G; auto. inversion G as [above r below X F C W|above r below ts t ts' X F C W Et Ft Nt|above r below X F C W Ft I' S]; subst e';
          (assert (Hr : In r rows) by (rewrite X; apply in_or_app; simpl; auto)); apply (proj1 (Forall_forall _ _) F1) in Hr as Fr; destruct Fr as [W1 F2]; try contradiction.
        -- rewrite Et, Forall_app in F2. destruct F2 as [_ F2]. inversion F2. contradiction.
        -- rewrite (I r) in I'; [discriminate|]. exact Hr.
Qed.
Lemma names_part e s : NoDup head -> first_repetition s names -> (e = DuplicateStateDefinition s <-> first_defect text head rows e).
Proof.
  intros NH R. split.
  - intros ->. apply fd_name; auto.
  - intros D. inversion D as [x R'|s' _ R'|above r below _ N|above r below ts t ts' _ N|above r below _ N|_ N]; subst e; try (exfalso; exact (first_repetition_dup s _ R N)).
    + exfalso. exact (first_repetition_dup x head R' NH).
    + rewrite (first_repetition_unique s' s _ R' R). reflexivity.
Qed.
Lemma head_part e x : (forall y, first_repetition y head -> y = x) -> first_repetition x head ->
  (e = DuplicateAlphabetSymbol (text x) <-> first_defect text head rows e).
Proof.
  intros U R. split.
  - intros ->. apply fd_head; auto.
  - intros D. inversion D as [y R'|s' N R'|above r below N|above r below ts t ts' N|above r below N|N]; subst e; try (exfalso; exact (first_repetition_dup x _ R N)).
    rewrite (U y R'). reflexivity.
Qed.
End Both.

Theorem dfa_first_error p e : dfa_try_from p = Err e <-> first_defect (fun a => a) (pd_head p) (map dfa_row (pd_states p)) e.
Proof.
  unfold dfa_try_from. destruct (first_repeated [] (pd_head p)) as [x|] eqn:EH.
  - apply first_repetition_iff in EH. rewrite <- (head_part (fun a => a) (pd_head p) (map dfa_row (pd_states p)) e x); auto.
    + split; congruence.
    + intros y Hy. exact (first_repetition_unique y x _ Hy EH).
  - apply first_repeated_none in EH. assert (Em : map pds_name (pd_states p) = map row_name (map dfa_row (pd_states p))) by (rewrite map_map; reflexivity).
    rewrite Em. destruct (Nat.eqb_spec (length (name_map (map row_name (map dfa_row (pd_states p))))) (length (pd_states p))) as [L|L]; cbn [negb].
    + rewrite <- (map_length dfa_row), <- (map_length row_name) in L. apply name_map_length in L. rewrite <- rows_part; auto.
      rewrite <- dfa_gen_rows. destruct (dfa_rows _ _ _ _ _) as [[ns [i|]]|e']; simpl; split; congruence || tauto.
    + rewrite <- (map_length dfa_row), <- (map_length row_name) in L. rewrite name_map_length in L.
      destruct (first_repeated [] (map row_name (map dfa_row (pd_states p)))) as [s|] eqn:EN; [|apply first_repeated_none in EN; contradiction].
      apply first_repetition_iff in EN. rewrite <- (names_part (fun a => a) (pd_head p) (map dfa_row (pd_states p)) e s); auto. split; congruence.
Qed.

Theorem nfa_first_error p e : nfa_try_from p = Err e <-> first_defect entry_text (pn_head p) (map nfa_row (pn_states p)) e.
Proof.
  unfold nfa_try_from. destruct (nfa_head_check 0 [] None (pn_head p)) as [eps|d] eqn:EH.
  - assert (NH : NoDup (pn_head p)) by (apply no_repetition; [apply nfa_entry_dec|]; intros x Hx; assert (X : nfa_head_check 0 [] None (pn_head p) = Err (entry_text x)) by (apply nfa_head_iff; eauto); congruence). assert (Em : map pns_name (pn_states p) = map row_name (map nfa_row (pn_states p))) by (rewrite map_map; reflexivity).
    rewrite Em. destruct (Nat.eqb_spec (length (name_map (map row_name (map nfa_row (pn_states p))))) (length (pn_states p))) as [L|L]; cbn [negb].
    + rewrite <- (map_length nfa_row), <- (map_length row_name) in L. apply name_map_length in L. rewrite <- rows_part; auto.
      rewrite <- (nfa_gen_rows _ _ eps). destruct (nfa_rows _ _ _ _ _) as [[ns [i|]]|e']; simpl; split; congruence || tauto.
    + rewrite <- (map_length nfa_row), <- (map_length row_name) in L. rewrite name_map_length in L.
      destruct (first_repeated [] (map row_name (map nfa_row (pn_states p)))) as [s|] eqn:EN; [|apply first_repeated_none in EN; contradiction].
      apply first_repetition_iff in EN. rewrite <- (names_part entry_text (pn_head p) (map nfa_row (pn_states p)) e s); auto. split; congruence.
  - apply nfa_head_iff in EH as (x & EH & ->). rewrite <- (head_part entry_text (pn_head p) (map nfa_row (pn_states p)) e x); auto.
    + split; congruence.
    + intros y Hy. exact (first_repetition_unique y x _ Hy EH).
Qed.
